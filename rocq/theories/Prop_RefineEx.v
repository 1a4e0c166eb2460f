(** C71 on a concrete two-variable problem: the cut main step is (-1/8,-1/8), the refined one (-1/8,-1) *)
From Coq Require Import String ZArith List Bool Reals Lra Lia Psatz.
From Verif Require Import Num Subproblem Steps TrustRegion ER NumFacts RVec SubNd RShess Ortho UnboundedFull Argmin Cand StepFacts Prop_Sub1d Prop_SubNd Prop_Pred Prop_Box Prop_Cand RealStep Prop_Grad Saddle Region Prop_Converge2 Prop_Refine.
Import ListNotations.
Local Open Scope R_scope.
Local Open Scope list_scope.

Definition er_same (a b : ER) : bool :=
  match a, b with Fin p, Fin q => Reqb p q | PInf, PInf | NInf, NInf | NaN, NaN => true | _, _ => false end.
Lemma er_same_eq a b : er_same a b = true <-> a = b.
Proof.
  destruct a as [p| | |], b as [q| | |]; cbn; split; intros K; try discriminate; try reflexivity.
  - destruct (Reqb_spec p q); [now subst|discriminate].
  - injection K as ->. destruct (Reqb_spec q q); [reflexivity|contradiction].
Qed.
Fixpoint lsame {X} (eq : X -> X -> bool) (a b : list X) : bool :=
  match a, b with [], [] => true | p :: a, q :: b => eq p q && lsame eq a b | _, _ => false end.
Lemma lsame_eq {X} (eq : X -> X -> bool) : (forall p q, eq p q = true <-> p = q) -> forall a b, lsame eq a b = true <-> a = b.
Proof.
  intros He. induction a as [|p a IH]; intros [|q b]; cbn; split; intros K; try discriminate; auto.
  - apply andb_true_iff in K as [K1 K2]. apply He in K1. apply IH in K2. congruence.
  - injection K as -> ->. apply andb_true_iff. split; [now apply He|now apply IH].
Qed.
Definition vsame := lsame er_same.
Definition msame := lsame vsame.
Lemma vsame_eq a b : vsame a b = true <-> a = b. Proof. apply lsame_eq, er_same_eq. Qed.
Lemma msame_eq a b : msame a b = true <-> a = b. Proof. apply lsame_eq, vsame_eq. Qed.

Definition rf_lb : list ER := [Fin (- / 4); NInf].
Definition rf_ub : list ER := [PInf; PInf].
Definition rf_lo : list ER := [Fin (- / 8); NInf].
Definition rf_la : StepOracles ER :=
  mkStepOracles ER cy_sub (fun _ => None) (fun _ _ => None)
    (fun Q q _ V d lo hi =>
       if msame Q (fm I2) && vsame q (fv [2; 2]) && msame V (fm (reye 2)) && vsame lo rf_lo && vsame hi rf_ub && er_same d (Fin 10)
       then Some (fv [- / 8; -1]) else None) 10 10.
Lemma rf_problem : problem 2 [0; 0] [2; 2] I2 [1; 1] [0; 0] 10 (/ 2) rf_lb rf_ub.
Proof.
  constructor; try reflexivity; try lra; auto using I2_mat, I2_sym.
  - repeat constructor; lra.
  - intros i Hi. destruct i as [|[|]]; [| |lia]; split; cbn; auto. destruct (Rleb_spec (- / 4) 0); [auto|lra].
Qed.
Local Notation A := (rA [0; 0] [2; 2] I2 [1; 1] [0; 0] 10 (/ 2) rf_lb rf_ub).

Lemma eye_lincomb c : length c = 2%nat -> rlincomb 2 c (reye 2) = c.
Proof. intros L. apply two_vec in L as (a & b & ->). unfold reye, rlincomb, radd, rscale, rzeros. cbn. repeat f_equal; ring. Qed.

Lemma rf_exact : exact_refine 2 rf_la.
Proof.
  intros Q q guess V d lo hi sc _ E. cbn [so_refine rf_la] in E.
  destruct (_ && _) eqn:K in E; [|discriminate]. injection E as <-.
  repeat (apply andb_true_iff in K as [K ?]). apply msame_eq, fm_inj in K. subst Q.
  match goal with H : vsame (fv q) _ = true |- _ => apply vsame_eq, fv_inj in H; subst q end.
  match goal with H : msame (fm V) _ = true |- _ => apply msame_eq, fm_inj in H; subst V end.
  match goal with H : vsame lo _ = true |- _ => apply vsame_eq in H; subst lo end.
  match goal with H : vsame hi _ = true |- _ => apply vsame_eq in H; subst hi end.
  match goal with H : er_same _ _ = true |- _ => apply er_same_eq in H; injection H as -> end.
  exists [- / 8; -1]. split; [reflexivity|]. split.
  - split; [reflexivity|]. rewrite eye_lincomb by reflexivity. split.
    + unfold rnorm, rdot. cbn. rewrite <- (sqrt_Rsqr 10) by lra. apply sqrt_le_1_alt. unfold Rsqr. lra.
    + intros [|[|i]] Hi; [| |lia]; cbn; split; auto. destruct (Rleb_spec (- / 8) (- / 8)); [auto|lra].
  - intros c (Lc & _ & Hc). change (length (reye 2)) with 2%nat in Lc. rewrite eye_lincomb in Hc by auto.
    specialize (Hc 0%nat ltac:(lia)) as [Hc _]. apply two_vec in Lc as (a & b & ->). cbn in Hc. apply Rleb_true in Hc.
    assert (K1 : 0 <= (a + / 8) * (a + 15 / 8)) by (apply Rmult_le_pos; lra). pose proof (Rle_0_sqr (b + 1)) as K2. unfold Rsqr in K2. unfold qmodel, rform, rmv, rdot, I2. cbn. lra.
Qed.

Lemma rf_B : rB 2 [2; 2] I2 [1; 1] [0; 0] = I2.
Proof. unfold rB, rshess, I2, rabsv, rmul, entry. simpl. repeat f_equal; lra. Qed.
Lemma rf_sg : rsg [2; 2] [1; 1] = [2; 2].
Proof. unfold rsg, rmul; simpl; repeat f_equal; lra. Qed.

Lemma rf_solve : exists lab, solve_nd_trust_region_subproblem cy_sub (fm I2) (fv [2; 2]) (Fin 10) = Ok (fv [-1; -1], lab).
Proof.
  destruct I2_solvable as (vals & vecs & HD & HE & HN).
  assert (HP : nd_problem 2 I2 [2; 2] 10 vals vecs cy_sub).
  { split; [apply I2_mat|]. split; [apply I2_sym|]. split; [reflexivity|]. split; [lia|]. split; [lra|]. auto. }
  destruct (posdef_smallest 2 I2 vals vecs) as (m & Sm & Pm); auto using I2_mat, I2_sym, I2_posdef.
  destruct (C28_solves 2 I2 [2; 2] 10 vals vecs cy_sub m HP Sm) as (r & lab & Es & _ & Hmin & _); auto. { apply HN; [reflexivity|lra]. }
  exists lab. rewrite Es. assert (Lr : length r = 2%nat).
  { destruct (C27_accepted_steps 2 _ _ _ _ _ _ _ _ HP Es) as (r' & Er & Lr' & _). apply fv_inj in Er. congruence. }
  specialize (Hmin [-1; -1] eq_refl). apply two_vec in Lr as (a & b & ->).
  assert (N : rnorm [-1; -1] <= 10).
  { unfold rnorm, rdot. cbn. rewrite <- (sqrt_Rsqr 10) by lra. apply sqrt_le_1_alt. unfold Rsqr. lra. }
  specialize (Hmin N). unfold qmodel, rform, rmv, rdot, I2 in Hmin. cbn in Hmin.
  pose proof (Rle_0_sqr (a + 1)) as Ka. pose proof (Rle_0_sqr (b + 1)) as Kb.
  assert (Ha : Rsqr (a + 1) = 0) by (unfold Rsqr in *; lra). assert (Hb : Rsqr (b + 1) = 0) by (unfold Rsqr in *; lra).
  apply Rsqr_0_uniq in Ha, Hb. replace a with (-1) by lra. replace b with (-1) by lra. reflexivity.
Qed.

Lemma rf_redB : redB I2 (reye 2) = I2.
Proof. unfold redB, reye, rform, rmv, rdot, I2. cbn. repeat f_equal; ring. Qed.
Lemma rf_cg : rmv (reye 2) [2; 2] = [2; 2].
Proof. unfold reye, rmv, rdot. cbn. repeat f_equal; ring. Qed.

Lemma rf_main : exists p, main_step rf_la A "full" = Ok p /\ st_subspace p = fm (reye 2) /\ st_og_sc p = fv [-1; -1].
Proof.
  pose proof rf_problem as P. pose proof (rA_shess 2 _ _ _ _ _ _ _ _ _ P) as Esh. rewrite rf_B in Esh.
  pose proof (rA_sg [0; 0] [2; 2] I2 [1; 1] [0; 0] 10 (/ 2) rf_lb rf_ub) as Esg. rewrite rf_sg in Esg.
  change (main_step rf_la A "full") with (calculate rf_la (tr_step_full A)). set (st := tr_step_full A).
  assert (Esub : st_subspace st = fm (reye 2)) by (unfold st, tr_step_full; cbn [new_step st_subspace]; change (length (a_hess A)) with 2%nat; apply h_eye).
  assert (E1 : st_shess st = fm I2) by exact Esh.
  assert (E2 : st_sg st = fv [2; 2]) by exact Esg.
  assert (Ech : subspace_hess st = fm I2) by (unfold subspace_hess; rewrite Esub, E1, h_redB; now rewrite rf_redB).
  assert (Ecg : tmatvec (st_subspace st) (st_sg st) = fv [2; 2]) by (rewrite Esub, E2, h_tmatvec; now rewrite rf_cg).
  destruct rf_solve as (lab & Hs).
  assert (Ed : nsqrt (pymax (nsq (st_delta st) - nsq (norm (st_ss0 st)))%num n0) = Fin 10).
  { change (st_delta st) with (Fin 10). change (st_ss0 st) with (zeros_of A). rewrite (zeros_rA 2 _ _ _ _ _ _ _ _ _ P), h_norm.
    replace (rnorm (rzeros 2)) with 0 by (unfold rnorm; rewrite rdot_zeros_l, sqrt_0; reflexivity).
    unfold nsq, pymax. cbn [nsub nmul nltb nsqrt ERNum er_sub er_add er_opp er_mul er_ltb n0 nofZ].
    destruct (Rltb_spec (10 * 10 + - (0 * 0)) 0); [lra|]. cbn [er_sqrt].
    destruct (Rltb_spec (10 * 10 + - (0 * 0)) 0); [lra|]. f_equal. replace (10 * 10 + - (0 * 0)) with (10 * 10) by ring. apply sqrt_square. lra. }
  assert (Hex : exists c, calculate rf_la st = Ok c).
  { unfold calculate. assert (K : exists c, compute_step rf_la (reduce_to_subspace st) = Ok c); [|destruct K as (c & ->); eexists; reflexivity].
    unfold compute_step. change (st_subspace (reduce_to_subspace st)) with (st_subspace st). rewrite Esub. cbn [fm map reye seq].
    change (st_chess (reduce_to_subspace st)) with (subspace_hess st). change (st_cg (reduce_to_subspace st)) with (tmatvec (st_subspace st) (st_sg st)).
    change (st_delta (reduce_to_subspace st)) with (st_delta st). change (st_ss0 (reduce_to_subspace st)) with (st_ss0 st).
    rewrite Ech, Ecg, Ed. change (so_sub rf_la) with cy_sub. rewrite Hs. eexists. reflexivity. }
  destruct Hex as (c & Hc). exists c. split; [exact Hc|].
  apply calculate_fields in Hc as (sc & ss & s & Hsol & _ & _ & Hst & _).
  split; [now rewrite (sb_subspace _ _ _ _ _ Hst)|]. rewrite (sb_og_sc _ _ _ _ _ Hst).
  unfold solved in Hsol. rewrite Esub in Hsol. cbn [fm map reye seq] in Hsol. destruct Hsol as (lab' & Hsol).
  rewrite Ech, Ed in Hsol. rewrite Esub in Ecg. cbn [fm map reye seq] in Ecg. rewrite Ecg in Hsol. change (so_sub rf_la) with cy_sub in Hsol. congruence.
Qed.

Lemma rf_refined p : main_step rf_la A "full" = Ok p -> st_subspace p = fm (reye 2) -> exists r, refined_step rf_la A p = Ok r.
Proof.
  intros Hm Hs. pose proof rf_problem as P.
  destruct (main_reduced rf_la 2 _ _ _ _ _ _ _ _ _ P (reye 2) "full" p) as [Ech Ecg]; auto; [discriminate|].
  rewrite rf_B, rf_redB in Ech. rewrite rf_sg, rf_cg in Ecg.
  unfold refined_step. cbv zeta. rewrite Ech, Ecg, Hs.
  assert (Elo : map2 ndiv (vscale (a_theta A) (vsub (a_lb A) (a_x A))) (a_scaling A) = rf_lo).
  { unfold rf_lo. change (a_theta A) with (Fin (/ 2)). change (a_lb A) with rf_lb. change (a_x A) with (fv [0; 0]). change (a_scaling A) with (fv [1; 1]).
    unfold rf_lb, vsub, vscale. cbn -[Rltb Reqb IZR Rinv]. unfold er_infmul.
    destruct (Reqb_spec 1 0); [lra|]. destruct (Rltb_spec 0 (/ 2)); [|lra]. cbn -[Rltb Reqb IZR Rinv]. destruct (Rltb_spec 1 0); [lra|].
    f_equal. f_equal. lra. }
  assert (Ehi : map2 ndiv (vscale (a_theta A) (vsub (a_ub A) (a_x A))) (a_scaling A) = rf_ub).
  { unfold rf_ub. change (a_theta A) with (Fin (/ 2)). change (a_ub A) with rf_ub. change (a_x A) with (fv [0; 0]). change (a_scaling A) with (fv [1; 1]).
    unfold rf_ub, vsub, vscale. cbn -[Rltb Reqb IZR Rinv]. unfold er_infmul.
    destruct (Rltb_spec 0 (/ 2)); [|lra]. cbn -[Rltb Reqb IZR Rinv]. destruct (Rltb_spec 1 0); [lra|]. reflexivity. }
  rewrite Elo, Ehi. cbn [so_refine rf_la]. change (a_delta A) with (Fin 10).
  rewrite (proj2 (msame_eq (fm I2) (fm I2)) eq_refl), (proj2 (vsame_eq (fv [2; 2]) (fv [2; 2])) eq_refl), (proj2 (msame_eq (fm (reye 2)) (fm (reye 2))) eq_refl),
    (proj2 (vsame_eq rf_lo rf_lo) eq_refl), (proj2 (vsame_eq rf_ub rf_ub) eq_refl), (proj2 (er_same_eq (Fin 10) (Fin 10)) eq_refl).
  cbn [andb]. eexists. reflexivity.
Qed.

Lemma eye_cols : Forall (fun col => length col = 2%nat) (reye 2).
Proof. repeat constructor. Qed.

(** the call of trust_region succeeds, all hypotheses of [C71_refine_best] hold, and the result is strictly better than the cut main step *)
Example C71_ex : exists p sp q m,
  trust_region rf_la (fv [0; 0]) (fv [2; 2]) (fm I2) (fv [1; 1]) (Fin 10) (fv [0; 0]) (Fin (/ 2)) rf_lb rf_ub "full" "refine" = Ok sp
  /\ exact_refine 2 rf_la /\ main_step rf_la A "full" = Ok p /\ st_subspace p = fm (reye 2) /\ st_og_sc p = fv [-1; -1]
  /\ (st_alpha p <? n1)%num = true /\ st_qpval sp = Fin q /\ st_qpval p = Fin m /\ q <= - 79 / 64 /\ - 1 / 2 <= m.
Proof.
  pose proof rf_problem as P. destruct rf_main as (p & Hm & Hsub & Hog).
  destruct (main_fields rf_la 2 _ _ _ _ _ _ _ _ _ P (reye 2) eye_cols "full" p [-1; -1]) as (a & Ea & Ha & _ & _ & Eq & Hb); auto; [discriminate..|].
  assert (Hsc : sstep 2 (reye 2) (rscale a [-1; -1]) = [- a; - a]).
  { unfold sstep. rewrite eye_lincomb by reflexivity. unfold rscale. cbn. repeat f_equal; ring. }
  assert (Ha8 : a <= / 8).
  { specialize (Hb 0%nat ltac:(lia)) as [[K|(l' & K & Hl)] _]; [discriminate|]. cbn in K. injection K as <-.
    unfold step_of in Hl. rewrite Hsc in Hl. cbn in Hl. lra. }
  assert (Hal : (st_alpha p <? n1)%num = true).
  { rewrite Ea. cbn [nltb ERNum er_ltb n1 nofZ]. destruct (Rltb_spec a 1); [reflexivity|lra]. }
  destruct (rf_refined p Hm Hsub) as (rf & Hrf).
  destruct (C35_gradient_candidate rf_la 2 _ _ _ _ _ _ _ _ _ P) as (gs & qg & Hgs & Eqg & _).
  assert (Hc : candidates rf_la A "full" "refine" = Ok [p; gs; rf]).
  { unfold candidates. rewrite Hm. cbn [rbind]. rewrite Hal. change (Nat.ltb 1 (length (a_sg A))) with true. cbn [andb].
    unfold extra_steps. rewrite Hgs. cbn [rbind String.eqb Ascii.eqb Bool.eqb orb andb]. rewrite Hsub. change (Nat.ltb 1 (length (fm (reye 2)))) with true.
    rewrite Hrf. reflexivity. }
  assert (Ht : exists sp, trust_region rf_la (fv [0; 0]) (fv [2; 2]) (fm I2) (fv [1; 1]) (Fin 10) (fv [0; 0]) (Fin (/ 2)) rf_lb rf_ub "full" "refine" = Ok sp).
  { unfold trust_region. cbv zeta. change (tr_args (fv [0; 0]) (fv [2; 2]) (fm I2) (fv [1; 1]) (Fin 10) (fv [0; 0]) (Fin (/ 2)) rf_lb rf_ub) with A. rewrite Hc. cbn [rbind].
    assert (K : (argmin (map st_qpval [p; gs; rf]) < 3)%nat) by (change 3%nat with (length (map st_qpval [p; gs; rf])); apply argmin_lt; discriminate).
    destruct (nth_error [p; gs; rf] (argmin (map st_qpval [p; gs; rf]))) eqn:E; [eexists; reflexivity|].
    apply nth_error_None in E. change (length [p; gs; rf]) with 3%nat in E. lia. }
  destruct Ht as (sp & Ht).
  destruct (C71_refine_best rf_la 2 _ _ _ _ _ _ _ _ _ P (reye 2) eye_cols "full" p [-1; -1] sp Ht rf_exact) as (q & Eqs & Hq); auto; [discriminate|].
  exists p, sp, q. eexists. split; [exact Ht|]. split; [exact rf_exact|]. split; [exact Hm|]. split; [exact Hsub|]. split; [exact Hog|]. split; [exact Hal|].
  split; [exact Eqs|]. split; [exact Eq|]. split.
  - assert (E2 : sstep 2 (reye 2) [- / 8; -1] = [- / 8; -1]) by (unfold sstep; now rewrite eye_lincomb).
    specialize (Hq [- / 8; -1]). unfold predicted, step_of in Hq. rewrite E2 in Hq.
    eapply Rle_trans; [apply Hq|unfold rform, rmv, rdot, rmul, I2; cbn; lra].
    split; [reflexivity|]. rewrite E2. split.
    + unfold rnorm, rdot. cbn. rewrite <- (sqrt_Rsqr 10) by lra. apply sqrt_le_1_alt. unfold Rsqr. lra.
    + intros [|[|i]] Hi; [| |lia]; unfold short_of, step_of; rewrite E2; cbn; split; auto. right. eexists. split; [reflexivity|]. lra.
  - unfold predicted, step_of. rewrite Hsc. unfold rform, rmv, rdot, rmul, I2. cbn. assert (0 <= a * a) by (apply Rmult_le_pos; lra). lra.
Qed.
