(** Problems without bounds: the step computed by the exact solvers in a subspace (proof library for C56) *)
From Coq Require Import String ZArith List Bool Reals Lra Lia Psatz.
From Verif Require Import Num Constants Subproblem HessApprox Steps TrustRegion Minimize
  ER NumFacts MonadFacts MinFacts Spec Run RunInv RVec Ortho SubNd Prop_SubNd RShess Argmin Cand StepFacts Prop_Sub1d Prop_Pred Prop_Box
  Prop_Cand TRErr RealStep Prop_Grad Region Prop_CG Prop_Run Prop_Nudge Prop_BoxRun Unbounded.
Import ListNotations.
Local Open Scope R_scope.
Local Open Scope list_scope.

(** the problem reduced to the span of the columns [sub] *)
Definition redB (H : rmat) (sub : list rvec) : rmat := map (fun u => map (fun v => rform H u v) sub) sub.

Lemma redB_mat H sub : is_mat (length sub) (length sub) (redB H sub).
Proof.
  split; [apply map_length|]. apply Forall_forall. intros r Hr. apply in_map_iff in Hr as (u & <- & _). apply map_length.
Qed.
Lemma nth_map_lt {X Y} (f : X -> Y) l i d d' : (i < length l)%nat -> nth i (map f l) d' = f (nth i l d).
Proof. intros Hi. rewrite (nth_indep _ d' (f d)) by (now rewrite map_length). apply map_nth. Qed.
Lemma entry_redB H sub i j : (i < length sub)%nat -> (j < length sub)%nat -> entry (redB H sub) i j = rform H (nth i sub []) (nth j sub []).
Proof.
  intros Hi Hj. unfold entry, redB. rewrite (nth_map_lt _ sub i []) by auto. now rewrite (nth_map_lt _ sub j []) by auto.
Qed.
Lemma redB_sym n H sub : is_mat n n H -> symmetric H -> Forall (fun r => length r = n) sub -> symmetric (redB H sub).
Proof.
  intros MH SH F i j. destruct (Nat.lt_ge_cases i (length sub)) as [Hi|Hi], (Nat.lt_ge_cases j (length sub)) as [Hj|Hj];
    try (rewrite !(entry_oob _ _ _ _ _ (redB_mat H sub)) by lia; reflexivity).
  rewrite !entry_redB by auto. rewrite Forall_forall in F. apply (rform_sym n); auto; apply F, nth_In; auto.
Qed.
Lemma rmv_redB n H sub d : is_mat n n H -> symmetric H -> Forall (fun r => length r = n) sub -> length d = length sub ->
  rmv (redB H sub) d = rmv sub (rmv H (rlincomb n d sub)).
Proof.
  intros MH SH F Ld. apply rvec_ext; [rewrite !rmv_length; apply map_length|].
  intros i. destruct (Nat.lt_ge_cases i (length sub)) as [Hi|Hi].
  2:{ rewrite !nth_overflow; [reflexivity| |]; rewrite rmv_length; auto. unfold redB. now rewrite map_length. }
  rewrite !nth_rmv. unfold redB. rewrite (nth_map_lt _ sub i []) by auto.
  rewrite (rmv_rlincomb n) by (auto; apply MH). set (u := nth i sub []).
  assert (Fm : Forall (fun r => length r = n) (map (rmv H) sub)).
  { apply Forall_map, Forall_forall. intros r _. rewrite rmv_length. apply MH. }
  rewrite (rdot_rlincomb n u d) by (auto; now rewrite map_length).
  rewrite rdot_comm. f_equal. apply rvec_ext; [now rewrite rmv_length, !map_length|].
  intros j. destruct (Nat.lt_ge_cases j (length sub)) as [Hj|Hj].
  - rewrite nth_rmv, (nth_map_lt _ sub j []) by auto. rewrite (nth_map_lt (rmv H) sub j []) by auto. unfold rform. apply rdot_comm.
  - rewrite !nth_overflow; [reflexivity|rewrite rmv_length, map_length; auto|rewrite map_length; auto].
Qed.
Lemma rdot_lin n y c sub : Forall (fun r => length r = n) sub -> length c = length sub -> rdot c (rmv sub y) = rdot (rlincomb n c sub) y.
Proof. intros F L. rewrite (rdot_comm (rlincomb n c sub)). rewrite (rdot_rlincomb n) by auto. reflexivity. Qed.
Lemma redB_form n H sub c d : is_mat n n H -> symmetric H -> Forall (fun r => length r = n) sub -> length c = length sub -> length d = length sub ->
  rform (redB H sub) c d = rform H (rlincomb n c sub) (rlincomb n d sub).
Proof. intros MH SH F Lc Ld. unfold rform at 1. rewrite (rmv_redB n) by auto. rewrite (rdot_lin n) by auto. reflexivity. Qed.
Lemma red_qmodel n H g sub c : is_mat n n H -> symmetric H -> Forall (fun r => length r = n) sub -> length c = length sub ->
  qmodel (redB H sub) (rmv sub g) c = qmodel H g (rlincomb n c sub).
Proof.
  intros MH SH F Lc. unfold qmodel. rewrite (redB_form n) by auto.
  rewrite (rdot_comm (rmv sub g)), (rdot_lin n) by auto. now rewrite (rdot_comm g).
Qed.
Lemma h_redB H sub : map (fun ci => map (fun cj => dot ci (matvec (fm H) cj)) (fm sub)) (fm sub) = fm (redB H sub).
Proof.
  transitivity (map (fun u => map (fun v => Fin (rform H u v)) sub) sub).
  - change (fm sub) with (map fv sub). rewrite map_map. apply map_ext. intros u. rewrite map_map. apply map_ext. intros v.
    rewrite h_matvec, h_dot. reflexivity.
  - unfold redB. unfold fm. rewrite map_map. apply map_ext. intros u. unfold fv. rewrite map_map. reflexivity.
Qed.

(** the linear algebra routines handle the matrix [B] exactly *)
Definition solvable (O : SubOracles ER) (n : nat) (B : rmat) : Prop :=
  exists vals vecs, eig_decomposition n B vals vecs /\ sp_eig O (fm B) = Some (fv vals, fm vecs)
    /\ forall g delta, length g = n -> 0 < delta -> roots_found O g delta vals vecs.

Lemma posdef_smallest n B vals vecs : (0 < n)%nat -> is_mat n n B -> symmetric B -> posdef n B -> eig_decomposition n B vals vecs ->
  exists m, smallest n vals m /\ 0 < m.
Proof.
  intros Hn MB SB PB HD. exists (mineig vals). set (g := rzeros n). assert (Lg : length g = n) by apply rzeros_length.
  pose proof (jm_lt n B g vals vecs Lg Hn HD) as Hj. split.
  - split; [exists (jm vals); split; [exact Hj|reflexivity]|]. intros i Hi. exact (mineig_le n B g vals vecs Lg Hn HD i Hi).
  - destruct HD as (HL & HV & HO & HE). set (v := nth (jm vals) vecs []).
    assert (Lv : length v = n) by (eapply is_mat_row; eauto).
    assert (U : rdot v v = 1). { unfold v. rewrite HO by (destruct HV as [-> _]; auto). now rewrite Nat.eqb_refl. }
    assert (0 < rform B v v) by (apply PB; [exact Lv|apply nonzero_dot; lra]).
    unfold rform in *. unfold v in *. rewrite HE in * by auto. rewrite rdot_rscale_r, U in *. unfold mineig, ev. lra.
Qed.

(** an unconstrained minimizer of a convex model (over a space containing the gradient) is not short *)
Lemma minimizer_long n B g w M : is_mat n n B -> posdef n B -> length g = n -> length w = n -> 0 < M ->
  (forall z, length z = n -> Rabs (rform B z z) <= M * rdot z z) ->
  (forall a, qmodel B g w <= qmodel B g (rscale a g)) -> rnorm g / (2 * M) <= rnorm w.
Proof.
  intros MB PB Lg Lw HM HB Hmin. pose proof (rnorm_nonneg g) as Ng. pose proof (rnorm_nonneg w) as Nw.
  destruct (Rlt_dec 0 (rnorm g)) as [Hg|Hg].
  2:{ assert (E : rnorm g = 0) by lra. rewrite E. unfold Rdiv. rewrite Rmult_0_l. exact Nw. }
  assert (Q1 : qmodel B g (rscale (- / M) g) <= - (rnorm g * rnorm g) / (2 * M)).
  { unfold qmodel. rewrite rform_rscale_l, rform_rscale_r, rdot_rscale_r.
    specialize (HB g Lg). pose proof (Rle_abs (rform B g g)). rewrite <- (rnorm_sq g) in *.
    assert (0 < / M) by now apply Rinv_0_lt_compat.
    assert (/ M * / M * rform B g g <= / M * / M * (M * (rnorm g * rnorm g))) by (apply Rmult_le_compat_l; nra).
    assert (E : / M * / M * (M * (rnorm g * rnorm g)) = rnorm g * rnorm g / M) by (field; lra).
    assert (E2 : - (rnorm g * rnorm g) / (2 * M) = - / 2 * (rnorm g * rnorm g / M)) by (field; lra).
    rewrite E2. assert (E3 : - / M * (rnorm g * rnorm g) = - (rnorm g * rnorm g / M)) by (field; lra).
    change (rdot g g) with (rdot g g). lra. }
  assert (Q2 : - (rnorm g * rnorm w) <= qmodel B g w).
  { unfold qmodel. assert (0 <= rform B w w).
    { destruct (nonzero_dec w) as [Hw|Hw]; [left; apply PB; auto|].
      rewrite (all0_zeros w Hw). unfold rform. rewrite rdot_zeros_l. lra. }
    assert (- (rnorm g * rnorm w) <= rdot g w); [|lra].
    pose proof (cauchy_schwarz g w) as CS. rewrite <- (rnorm_sq g), <- (rnorm_sq w) in CS. 
    apply Rnot_lt_le. intros C. assert (0 <= rnorm g * rnorm w) by nra. nra. }
  specialize (Hmin (- / M)).
  assert (K : - (rnorm g * rnorm w) <= - (rnorm g * rnorm g) / (2 * M)) by lra.
  apply (Rmult_le_reg_l (rnorm g)); [exact Hg|].
  replace (rnorm g * (rnorm g / (2 * M))) with (- (- (rnorm g * rnorm g) / (2 * M))) by (field; lra). lra.
Qed.

Section FreeFull.
  Variables (O : StepOracles ER) (n : nat) (x g : rvec) (H : rmat) (delta theta : R).
  Hypothesis Hn : (1 <= n)%nat.
  Hypothesis Lx : length x = n.
  Hypothesis Lg : length g = n.
  Hypothesis MH : is_mat n n H.
  Hypothesis SH : symmetric H.
  Hypothesis Hd : 0 < delta.
  Hypothesis Ht : 0 < theta <= 1.
  Local Notation A := (rA x g H (rones n) (rzeros n) delta theta (no_lb n) (no_ub n)).
  Let P : problem n x g H (rones n) (rzeros n) delta theta (no_lb n) (no_ub n) := free_problem O n x g H delta theta Hn Lx Lg MH SH Hd Ht.

  Lemma no_offset : nsqrt (pymax (nsq (Fin delta) - nsq (norm (fv (rzeros n))))%num n0) = Fin delta.
  Proof using Hd.
    rewrite h_norm. replace (rnorm (rzeros n)) with 0 by (unfold rnorm; rewrite rdot_zeros_l, sqrt_0; reflexivity).
    unfold nsq, pymax. cbn [nsub nmul nltb nsqrt ERNum er_sub er_add er_opp er_mul er_ltb n0 nofZ].
    destruct (Rltb_spec (delta * delta + - (0 * 0)) 0); [nra|]. cbn [er_sqrt].
    destruct (Rltb_spec (delta * delta + - (0 * 0)) 0); [nra|]. f_equal. replace (delta * delta + - (0 * 0)) with (delta * delta) by ring. apply sqrt_square. lra.
  Qed.

  Definition start_in (typ : string) (sub : list rvec) pd nw : step ER :=
    new_step typ A (a_x A) (fm sub) (zeros_of A) (zeros_of A) [] [] pd nw.

  (** a step computed in the span of [sub] *)
  Lemma start_step typ sub pd nw sc c : Forall (fun r => length r = n) sub -> sub <> [] ->
    calculate O (start_in typ sub pd nw) = Ok c ->
    (forall sc', solved O (start_in typ sub pd nw) sc' -> sc' = fv sc) ->
    st_alpha c = n1 /\ free_step n g H c (rlincomb n sc sub).
  Proof using All.
    intros F Hs Hc Hsol.
    apply calculate_fields in Hc as (sc' & ss & s & Hsv & Ess & Es & Hst & Eq & _). apply Hsol in Hsv. subst sc'.
    unfold start_in in *. cbn [new_step st_s0 st_subspace st_scaling st_shess st_sg st_ss0] in Ess, Es, Eq.
    change (a_scaling A) with (fv (rones n)) in Es.
    rewrite (zeros_rA n x g H (rones n) (rzeros n) delta theta (no_lb n) (no_ub n) P) in Ess, Eq.
    rewrite fv_length, rzeros_length, h_lincomb in Ess.
    set (w := rlincomb n sc sub) in *. assert (Lw : length w = n) by now apply rlincomb_length.
    assert (Ew : s = fv w).
    { destruct sub as [|u sub]; [congruence|]. cbn [fm map] in Es. rewrite Es, Ess, h_vmul, rmul_ones; auto. }
    rewrite Ew in Hst. clear Es Ew.
    assert (Ha : st_alpha c = n1) by (eapply (free_alpha n x theta); [exact Hn|exact Lx|exact Ht|exact Hst|reflexivity..|exists w; auto]).
    split; [exact Ha|]. destruct Hst. cbn [new_step st_s0 st_ss0] in *.
    assert (Ess2 : vadd (st_ss c) (st_ss0 c) = fv w).
    { rewrite sb_ss, sb_ss0, Ha, Ess, vscaler_1, (zeros_rA n x g H (rones n) (rzeros n) delta theta (no_lb n) (no_ub n) P), h_vadd.
      f_equal. apply rvec_ext; [rewrite radd_length; rewrite ?rzeros_length; congruence|]. intros i. rewrite nth_radd, nth_rzeros by (rewrite rzeros_length; congruence). ring. }
    constructor; auto.
    - rewrite sb_s, Ha. apply vscaler_1.
    - rewrite sb_s0. apply (zeros_rA n x g H (rones n) (rzeros n) delta theta (no_lb n) (no_ub n) P).
    - rewrite Eq, <- (zeros_rA n x g H (rones n) (rzeros n) delta theta (no_lb n) (no_ub n) P), <- sb_ss0, Ess2.
      rewrite (rA_shess n x g H (rones n) (rzeros n) delta theta (no_lb n) (no_ub n) P), rA_sg, free_B, free_sg by auto.
      now apply (h_quadratic n).
  Qed.
  Lemma start_shess typ sub pd nw : st_shess (start_in typ sub pd nw) = fm H.
  Proof using All.
    unfold start_in. change (st_shess (new_step typ A (a_x A) (fm sub) (zeros_of A) (zeros_of A) [] [] pd nw)) with (shess_of (a_scaling A) (a_hess A) (a_gd A)).
    rewrite (rA_shess n x g H (rones n) (rzeros n) delta theta (no_lb n) (no_ub n) P). now rewrite free_B.
  Qed.
  Lemma start_sg typ sub pd nw : st_sg (start_in typ sub pd nw) = fv g.
  Proof using All. unfold start_in. cbn [new_step st_sg]. rewrite rA_sg. now rewrite free_sg. Qed.
  Lemma start_ss0 typ sub pd nw : st_ss0 (start_in typ sub pd nw) = fv (rzeros n).
  Proof using All. unfold start_in. cbn [new_step st_ss0]. apply (zeros_rA n x g H (rones n) (rzeros n) delta theta (no_lb n) (no_ub n) P). Qed.

  (** one column *)
  Lemma start_one typ u pd nw : length u = n -> nonzero u ->
    exists c t, calculate O (start_in typ [u] pd nw) = Ok c /\ st_alpha c = n1 /\ free_step n g H c (rscale t u)
      /\ rnorm (rscale t u) <= delta /\ (forall a, rnorm (rscale a u) <= delta -> qmodel H g (rscale t u) <= qmodel H g (rscale a u)).
  Proof using All.
    intros Lu Nu. destruct (C25_exact_line_minimizer n H g u (rzeros n) delta) as (t & E1 & E2 & E3); auto using rzeros_length.
    { left. unfold rnorm. rewrite rdot_zeros_l, sqrt_0. exact Hd. }
    assert (Z : forall a, radd (rzeros n) (rscale a u) = rscale a u).
    { intros a. apply rvec_ext; [rewrite radd_length; rewrite rzeros_length; rewrite ?rscale_length; congruence|].
      intros i. rewrite nth_radd, nth_rzeros by (rewrite rzeros_length, rscale_length; congruence). ring. }
    rewrite Z in E2, E3.
    assert (Hc : exists c, calculate O (start_in typ [u] pd nw) = Ok c) by (eexists; reflexivity).
    destruct Hc as (c & Hc).
    destruct (start_step typ [u] pd nw [t] c) as [S1 S2]; auto; [discriminate| |].
    { intros sc' Hs. unfold solved in Hs. rewrite start_shess, start_sg, start_ss0 in Hs.
      cbn [start_in new_step st_subspace fm map st_delta] in Hs. change (a_delta A) with (Fin delta) in Hs. now rewrite Hs, E1. }
    assert (El : rlincomb n [t] [u] = rscale t u).
    { cbn [rlincomb]. change (repeat 0 n) with (rzeros n). apply rvec_ext; [rewrite radd_length; rewrite ?rzeros_length, rscale_length; congruence|].
      intros i. rewrite nth_radd, nth_rzeros by (rewrite rzeros_length, rscale_length; congruence). ring. }
    rewrite El in S2. exists c, t. split; [exact Hc|]. split; [exact S1|]. split; [exact S2|]. split; [exact E2|].
    intros a Ha. specialize (E3 a). rewrite !Z in E3. auto.
  Qed.

  (** two or more orthonormal columns *)
  Lemma start_many typ sub pd nw : (2 <= length sub)%nat -> Forall (fun r => length r = n) sub -> orthonormal sub -> posdef n H ->
    solvable (so_sub O) (length sub) (redB H sub) ->
    exists c r, calculate O (start_in typ sub pd nw) = Ok c /\ st_alpha c = n1 /\ length r = length sub
      /\ free_step n g H c (rlincomb n r sub) /\ rnorm (rlincomb n r sub) <= delta + / IZR (2 ^ 26)
      /\ (forall y, length y = length sub -> rnorm (rlincomb n y sub) <= delta -> qmodel H g (rlincomb n r sub) <= qmodel H g (rlincomb n y sub))
      /\ (rnorm (rlincomb n r sub) <= delta
          \/ forall y, length y = length sub -> qmodel H g (rlincomb n r sub) <= qmodel H g (rlincomb n y sub)).
  Proof using All.
    intros Hk F Ho PH (vals & vecs & HD & HE & HN). set (k := length sub) in *.
    assert (Nm : forall c, length c = k -> rnorm (rlincomb n c sub) = rnorm c).
    { intros c Lc. unfold rnorm. f_equal. apply (dot_lincomb k); auto. split; auto. }
    assert (PB : posdef k (redB H sub)).
    { intros c Lc Nc. rewrite (redB_form n) by auto. apply PH; [now apply rlincomb_length|].
      apply nonzero_dot. rewrite (dot_lincomb k n sub) by (auto; split; auto). now apply nonzero_dot. }
    pose proof (redB_mat H sub) as MB. pose proof (redB_sym n H sub MH SH F) as SB. fold k in MB.
    assert (Lc : length (rmv sub g) = k) by apply rmv_length.
    destruct (posdef_smallest k (redB H sub) vals vecs) as (m & Sm & Pm); auto; [lia|].
    assert (HP : nd_problem k (redB H sub) (rmv sub g) delta vals vecs (so_sub O)).
    { split; [exact MB|]. split; [exact SB|]. split; [exact Lc|]. split; [lia|]. split; [exact Hd|]. auto. }
    destruct (C28_solves k (redB H sub) (rmv sub g) delta vals vecs (so_sub O) m HP Sm) as (r & lab & Es & N1 & N2 & N3); auto.
    assert (Lr : length r = k).
    { destruct (C27_accepted_steps k _ _ _ _ _ _ _ _ HP Es) as (r' & Er & Lr' & _). apply fv_inj in Er. congruence. }
    assert (Hsol : forall sc', solved O (start_in typ sub pd nw) sc' -> sc' = fv r).
    { intros sc' Hs. unfold solved, subspace_hess in Hs. rewrite start_shess, start_sg, start_ss0 in Hs.
      change (st_subspace (start_in typ sub pd nw)) with (fm sub) in Hs. change (st_delta (start_in typ sub pd nw)) with (Fin delta) in Hs.
      rewrite h_redB, h_tmatvec, no_offset, Es in Hs.
      destruct sub as [|u1 [|u2 sub']]; try (unfold k in Hk; simpl in Hk; exfalso; lia). cbn [fm map] in Hs. destruct Hs as (lab' & Hs). congruence. }
    assert (Hc : exists c, calculate O (start_in typ sub pd nw) = Ok c).
    { unfold calculate. assert (K : exists c, compute_step O (reduce_to_subspace (start_in typ sub pd nw)) = Ok c); [|destruct K as (c & ->); eexists; reflexivity].
      unfold compute_step. 
      change (st_chess (reduce_to_subspace (start_in typ sub pd nw))) with (subspace_hess (start_in typ sub pd nw)).
      change (st_cg (reduce_to_subspace (start_in typ sub pd nw))) with (tmatvec (fm sub) (st_sg (start_in typ sub pd nw))).
      change (st_ss0 (reduce_to_subspace (start_in typ sub pd nw))) with (st_ss0 (start_in typ sub pd nw)).
      change (st_delta (reduce_to_subspace (start_in typ sub pd nw))) with (Fin delta).
      change (st_subspace (reduce_to_subspace (start_in typ sub pd nw))) with (fm sub).
      unfold subspace_hess. rewrite start_shess, start_sg, start_ss0.
      change (st_subspace (start_in typ sub pd nw)) with (fm sub).
      rewrite h_redB, h_tmatvec, no_offset, Es.
      destruct sub as [|u1 [|u2 sub']]; try (unfold k in Hk; simpl in Hk; exfalso; lia). cbn [fm map]. eexists. reflexivity. }
    destruct Hc as (c & Hc). destruct (start_step typ sub pd nw r c) as [S1 S2]; auto.
    { intros E0. unfold k in Hk. rewrite E0 in Hk. simpl in Hk. lia. }
    exists c, r. split; [exact Hc|]. split; [exact S1|]. split; [exact Lr|]. split; [exact S2|]. rewrite Nm by auto. split; [exact N1|].
    split.
    - intros y Ly Ny. rewrite <- !(red_qmodel n H g sub) by auto. apply N2; auto. now rewrite <- Nm.
    - destruct N3 as [N3|N3]; [left; exact N3|right]. intros y Ly. rewrite <- !(red_qmodel n H g sub) by auto. now apply N3.
  Qed.

  (** the step proposed in the full space *)
  Lemma free_full strat : posdef n H -> ((2 <= n)%nat -> solvable (so_sub O) n H) ->
    exists c w, trust_region O (fv x) (fv g) (fm H) (fv (rones n)) (Fin delta) (fv (rzeros n)) (Fin theta) (no_lb n) (no_ub n) "full" strat = Ok c
      /\ candidates O A "full" strat = Ok [c]
      /\ free_step n g H c w /\ rnorm w <= delta + / IZR (2 ^ 26)
      /\ (forall y, length y = n -> rnorm y <= delta -> qmodel H g w <= qmodel H g y)
      /\ (rnorm w <= delta \/ forall y, length y = n -> qmodel H g w <= qmodel H g y).
  Proof using All.
    intros PH Hs.
    assert (K : exists c w, main_step O A "full" = Ok c /\ st_alpha c = n1 /\ free_step n g H c w /\ rnorm w <= delta + / IZR (2 ^ 26)
      /\ (forall y, length y = n -> rnorm y <= delta -> qmodel H g w <= qmodel H g y)
      /\ (rnorm w <= delta \/ forall y, length y = n -> qmodel H g w <= qmodel H g y)).
    { change (main_step O A "full") with (calculate O (tr_step_full A)).
      assert (E : tr_step_full A = start_in "nd" (reye n) None None).
      { unfold tr_step_full, start_in. change (a_hess A) with (fm H). rewrite fm_length, (proj1 MH). now rewrite h_eye. }
      rewrite E. pose proof (is_mat_eye n) as [Le Fe].
      assert (He : 0 < / IZR (2 ^ 26)) by (apply Rinv_0_lt_compat, IZR_lt; reflexivity).
      assert (Lin : forall y, length y = n -> rlincomb n y (reye n) = y).
      { intros y Ly. rewrite (complete n (reye n) y) at 2 by (auto using is_mat_eye, orthonormal_eye). now rewrite rmv_eye. }
      destruct (Nat.eq_dec n 1) as [E1|E1].
      - assert (Ey : reye n = [[1]]) by (rewrite E1; reflexivity). rewrite Ey.
        destruct (start_one "nd" [1] None None) as (c & t & C1 & C2 & C3 & C4 & C5); [now rewrite E1|exists 0%nat; simpl; lra|].
        exists c, (rscale t [1]). split; [exact C1|]. split; [exact C2|]. split; [exact C3|]. split; [lra|]. split; [|left; exact C4].
        intros y Ly Ny. rewrite E1 in Ly. destruct y as [|y0 [|]]; try discriminate. specialize (C5 y0).
        replace (rscale y0 [1]) with [y0] in C5 by (unfold rscale; simpl; f_equal; ring). auto.
      - destruct (start_many "nd" (reye n) None None) as (c & r & C1 & C2 & C3 & C4 & C5 & C6 & C7); auto using orthonormal_eye; [lia| |].
        { rewrite Le. replace (redB H (reye n)) with H; [apply Hs; lia|].
          apply (rmat_ext n n); [exact MH|rewrite <- Le at 1 2; apply redB_mat|]. intros i j Hi Hj. rewrite entry_redB by lia.
          unfold rform. rewrite (dot_unit n i) by (auto; rewrite rmv_length; apply MH). rewrite nth_rmv, rdot_comm, (dot_unit n j); auto.
          eapply is_mat_row; eauto. }
        rewrite Le in *. rewrite (Lin r) in * by auto. exists c, r. split; [exact C1|]. split; [exact C2|]. split; [exact C4|]. split; [exact C5|]. split.
        + intros y Ly Ny. specialize (C6 y Ly). rewrite Lin in C6 by auto. auto.
        + destruct C7 as [C7|C7]; [left; exact C7|right]. intros y Ly. specialize (C7 y Ly). now rewrite Lin in C7 by auto. }
    destruct K as (c & w & K1 & K2 & K3 & K4 & K5 & K6).
    destruct (free_single O n x g H delta theta "full" strat c K1 K2) as [F1 F2]. exists c, w. auto 10.
  Qed.
End FreeFull.
