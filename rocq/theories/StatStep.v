(** Proof library for C65: a stationary starting point is recognized after one pass (two evaluations), and nothing is moved; except that the
    conjugate-gradient solver proposes an undefined point there *)
From Coq Require Import String ZArith List Bool Reals Lra Lia Psatz.
From Verif Require Import Num Constants Subproblem HessApprox Steps TrustRegion Minimize
  ER NumFacts MonadFacts MinFacts Spec Run RunInv RVec SubNd RShess Argmin Cand StepFacts Prop_Sub1d Prop_Pred Prop_Box
  Prop_Cand TRErr RealStep Prop_Grad Region Prop_Run Prop_Nudge Prop_BoxRun Prop_BoxRun2 HessDim Prop_Region Prop_CG Prop_TwoD Unbounded UnboundedFull Unbounded2D Converge
  BoundedGrad BoundedStep Prop_ConvergeBox Prop_ConvergeBox2 Prop_Stepback RunFrame Prop_Terminates.
Import ListNotations.
Local Open Scope R_scope.
Local Open Scope list_scope.

Lemma zero_breaks : forall n (y l u : list ER), length y = n -> length l = n -> length u = n -> breakpoints y (fv (rzeros n)) l u = repeat PInf n.
Proof.
  induction n as [|n IH]; intros [|a y] [|b l] [|d u] L1 L2 L3; try discriminate; [reflexivity|].
  cbn [rzeros repeat fv map breakpoints]. f_equal; [|apply (IH y l u); cbn in *; lia]. unfold breakpoint.
  cbn [nltb nabs ERNum er_abs er_ltb Num.n0 nofZ]. rewrite Rabs_R0. destruct (Rltb_spec 0 0); [lra|reflexivity].
Qed.

(** whether a step is found depends on the scaled problem only *)
Lemma same_ok O r1 r2 c1 : calculate O r1 = Ok c1 ->
  st_subspace r1 = st_subspace r2 -> st_shess r1 = st_shess r2 -> st_sg r1 = st_sg r2 -> st_delta r1 = st_delta r2 ->
  st_ss0 r1 = st_ss0 r2 -> length (st_s0 r1) = length (st_s0 r2 : list ER) -> exists c2 : step ER, calculate O r2 = Ok c2.
Proof.
  intros H1 E1 E2 E3 E4 E5 E6. apply calculate_fields in H1 as (sc & ss & s & S1 & _).
  unfold calculate. assert (K : exists c, compute_step O (reduce_to_subspace r2) = Ok c); [|destruct K as (c & ->); eexists; reflexivity].
  unfold compute_step. change (st_subspace (reduce_to_subspace r2)) with (st_subspace r2).
  unfold solved, subspace_hess in S1. rewrite E1, E2, E3, E4, E5 in S1.
  destruct (st_subspace r2) as [|u [|v sub]] eqn:Es; [eexists; reflexivity|eexists; reflexivity|].
  destruct S1 as (lab & S1).
  change (st_chess (reduce_to_subspace r2)) with (subspace_hess r2). change (st_cg (reduce_to_subspace r2)) with (tmatvec (st_subspace r2) (st_sg r2)).
  unfold subspace_hess. rewrite Es.
  change (st_delta (reduce_to_subspace r2)) with (st_delta r2). change (st_ss0 (reduce_to_subspace r2)) with (st_ss0 r2).
  rewrite S1. eexists; reflexivity.
Qed.

Section ZeroStep.
  Variables (O : StepOracles ER) (n : nat) (x g : rvec) (H : rmat) (D dv : rvec) (delta theta : R) (lb ub : list ER).
  Hypothesis P : problem n x g H D dv delta theta lb ub.
  Local Notation A := (rA x g H D dv delta theta lb ub).
  Local Notation B := (rB n g H D dv).
  Local Notation sg := (rsg g D).
  Local Notation A' := (rA x sg B (rones n) (rzeros n) delta theta (no_lb n) (no_ub n)).
  Hypothesis Z : forall i, nth i g 0 = 0.
  Hypothesis PB : posdef n B.

  Lemma zero_norm : rnorm (rzeros n) = 0.
  Proof using. unfold rnorm. rewrite rdot_zeros_l. apply sqrt_0. Qed.
  Lemma zero_form w : qmodel B sg w = rform B w w / 2.
  Proof using P Z.
    unfold qmodel. rewrite (zero_sg n x g H D dv delta theta lb ub P Z), rdot_zeros_l. lra.
  Qed.

  (** a main step found to be zero is the only candidate, and it stays *)
  Lemma zero_proposed sd strat c : sd = "full"%string \/ sd = "2D"%string -> main_step O A sd = Ok c -> st_og_ss c = fv (rzeros n) ->
    candidates O A sd strat = Ok [c] /\ st_s c = fv (rzeros n) /\ st_s0 c = fv (rzeros n)
    /\ vadd (st_ss c) (st_ss0 c) = fv (rzeros n) /\ st_qpval c = Fin 0.
  Proof using P Z PB.
    intros Hsd Hm Ew. pose proof P as Q. destruct Q. assert (Lz : length (rzeros n) = n) by apply rzeros_length.
    pose proof zero_norm as N0.
    assert (He : 0 < / IZR (2 ^ 26)) by (apply Rinv_0_lt_compat, IZR_lt; reflexivity).
    assert (Nw : rnorm (rzeros n) <= delta + / IZR (2 ^ 26)) by lra.
    destruct (main_calc O n x g H D dv delta theta lb ub P sd Hsd c Hm) as (typ & sub & pd & nw & Hc & Hne).
    apply calculate_fields in Hc as (sc & ss & s & _ & _ & Es & Hst & _). pose proof Hst as Hst'. destruct Hst'.
    rewrite sb_og_ss in Ew. subst ss.
    cbn [new_step st_x st_lb st_ub st_subspace st_scaling st_theta st_s0] in *. destruct sub as [|u sub]; [congruence|]. change (a_scaling A) with (fv D) in Es.
    rewrite h_vmul in Es.
    assert (Ez : rmul D (rzeros n) = rzeros n).
    { apply rvec_ext; [rewrite Lz; now apply rmul_length|]. intros i. destruct (lt_dec i n) as [Hi|Hi].
      - rewrite (nth_rmul D (rzeros n) n), nth_rzeros by auto. ring.
      - rewrite !nth_overflow; auto; [lia|]. rewrite (rmul_length _ _ n) by auto. lia. }
    rewrite Ez in Es. subst s.
    rewrite zero_breaks in sb_br by (cbn [rA tr_args a_x a_lb a_ub]; rewrite ?fv_length; auto).
    rewrite sb_br in sb_minbr. rewrite npmin_pinf in sb_minbr by lia. rewrite sb_minbr in sb_alpha.
    assert (Ha : st_alpha c = n1).
    { rewrite sb_alpha. cbn [rA tr_args a_theta npmin fold_left n1 nofZ nmul ERNum er_mul]. unfold er_infmul.
      destruct (Rltb_spec 0 theta); [|lra]. reflexivity. }
    assert (E0 : st_og_ss c = fv (rzeros n)) by exact sb_og_ss.
    destruct (main_uncut O n x g H D dv delta theta lb ub P sd Hsd c (rzeros n) 1 Hm E0 Lz Nw Ha ltac:(lra)) as [K1 K2].
    split; [|split; [|split; [|split; [exact K1|]]]].
    - unfold candidates. rewrite Hm. cbn [rbind]. rewrite Ha.
      assert (E : ((n1 : ER) <? n1)%num = false) by (cbn; destruct (Rltb_spec 1 1); [lra|reflexivity]). rewrite E. reflexivity.
    - rewrite sb_s, Ha. apply vscaler_1.
    - rewrite sb_s0. apply (zeros_rA n x g H D dv delta theta lb ub P).
    - rewrite K2, zero_form. f_equal. unfold rform. rewrite rdot_zeros_l. lra.
  Qed.

  Lemma zero_full strat : solvable (so_sub O) n B -> exists c, candidates O A "full" strat = Ok [c] /\ st_s c = fv (rzeros n) /\ st_s0 c = fv (rzeros n)
    /\ vadd (st_ss c) (st_ss0 c) = fv (rzeros n) /\ st_qpval c = Fin 0.
  Proof using P Z PB.
    intros Hs. pose proof P as Q. destruct Q. assert (Lz : length (rzeros n) = n) by apply rzeros_length.
    pose proof (rB_mat n g H D dv) as MB. pose proof (sg_len O n x g H D dv delta theta lb ub P) as Lsg.
    destruct (free_full O n x sg B delta theta) with (strat := "reflect"%string) as (c' & w & _ & E1 & E2 & E3 & E4 & _); auto.
    { apply (B_sym O n x g H D dv delta theta lb ub P). }
    assert (Lw : length w = n) by apply E2.
    assert (Ew : w = rzeros n).
    { destruct (nonzero_dec w) as [Hnz|Hz]; [|rewrite <- Lw; now apply all0_zeros]. exfalso.
      specialize (E4 (rzeros n) Lz ltac:(rewrite zero_norm; lra)). rewrite !zero_form in E4. pose proof (PB w Lw Hnz).
      unfold rform in E4 at 2. rewrite rdot_zeros_l in E4. lra. }
    assert (Hm' : main_step O A' "full" = Ok c').
    { unfold candidates in E1. destruct (main_step O A' "full") as [m|]; [|discriminate]. cbn [rbind] in E1.
      match type of E1 with context [if ?b then _ else _] => destruct b end; [|apply Ok_inj in E1; now injection E1 as <-].
      apply rbind_ok in E1 as (ex & _ & E1). apply Ok_inj in E1. now injection E1 as <-. }
    assert (Hm : exists c, main_step O A "full" = Ok c).
    { assert (M1 : forall Q, main_step O Q "full" = calculate O (tr_step_full Q)) by (intros; reflexivity).
      rewrite M1 in Hm'. rewrite M1.
      assert (F : forall Q : sargs ER, st_subspace (tr_step_full Q) = eye (length (a_hess Q)) /\ st_shess (tr_step_full Q) = shess_of (a_scaling Q) (a_hess Q) (a_gd Q)
         /\ st_sg (tr_step_full Q) = a_sg Q /\ st_delta (tr_step_full Q) = a_delta Q /\ st_ss0 (tr_step_full Q) = zeros_of Q /\ st_s0 (tr_step_full Q) = zeros_of Q)
        by (intros; repeat split; reflexivity).
      destruct (F A) as (F1 & F2 & F3 & F4 & F5 & F6). destruct (F A') as (G1 & G2 & G3 & G4 & G5 & G6). clear F M1.
      refine (same_ok O (tr_step_full A') (tr_step_full A) c' Hm' _ _ _ _ _ _).
      - rewrite F1, G1. change (a_hess A) with (fm H). change (a_hess A') with (fm B). rewrite !fm_length, (proj1 MB), (proj1 pb_H). reflexivity.
      - rewrite F2, G2. rewrite (shess_A' O n x g H D dv delta theta lb ub P). symmetry. apply (rA_shess n x g H D dv delta theta lb ub P).
      - rewrite F3, G3. rewrite (sg_A' O n x g H D dv delta theta lb ub P). symmetry. apply rA_sg.
      - rewrite F4, G4. reflexivity.
      - rewrite F5, G5, (zeros_rA n x g H D dv delta theta lb ub P). apply (zeros_rA n x sg B (rones n) (rzeros n) delta theta (no_lb n) (no_ub n) (P' O n x g H D dv delta theta lb ub P)).
      - rewrite F6, G6, (zeros_rA n x g H D dv delta theta lb ub P). f_equal. apply (zeros_rA n x sg B (rones n) (rzeros n) delta theta (no_lb n) (no_ub n) (P' O n x g H D dv delta theta lb ub P)). }
    destruct Hm as (c & Hm). exists c. apply zero_proposed; auto.
    rewrite (main_og O n x g H D dv delta theta lb ub P "full" c c'); auto; [|discriminate].
    rewrite (free_og O n x g H D dv delta theta lb ub P "full" c' w); auto. now rewrite Ew.
  Qed.

  Lemma zero_2d strat : exact_2d O n B -> exists c, candidates O A "2D" strat = Ok [c] /\ st_s c = fv (rzeros n) /\ st_s0 c = fv (rzeros n)
    /\ vadd (st_ss c) (st_ss0 c) = fv (rzeros n) /\ st_qpval c = Fin 0.
  Proof using P Z PB.
    intros EX. pose proof P as Q. destruct Q. assert (Lz : length (rzeros n) = n) by apply rzeros_length.
    pose proof (rB_mat n g H D dv) as MB. pose proof EX as ((vals & V & HD & Ee) & Hls & _).
    destruct (Hls (rzeros n) Lz) as (l & El & Ll & Eg).
    assert (l = rzeros n) as ->.
    { destruct (nonzero_dec l) as [Hnz|Hz]; [|rewrite <- Ll; now apply all0_zeros]. exfalso. pose proof (PB l Ll Hnz) as K.
      unfold rform in K. rewrite Eg, rdot_zeros_r in K. lra. }
    assert (Esub : exists pd nw, tr_step_2d O A = Ok (new_step "2d" A (a_x A) [fv (rzeros n)] (zeros_of A) (zeros_of A) [] [] pd nw)).
    { unfold tr_step_2d. cbv zeta. rewrite (rA_shess n x g H D dv delta theta lb ub P), rA_sg, (zero_sg n x g H D dv delta theta lb ub P Z), El, Ee.
      rewrite (eig_posdef O n x g H D dv delta theta lb ub P (fv vals) (fv (map Rabs vals)) (fm V)) by auto.
      destruct n as [|[|k]] eqn:En; [lia| |].
      - cbn [rzeros repeat fv map]. destruct MB as [LB FB]. rewrite <- En in *.
        assert (Hb : exists b, B = [[b]]).
        { assert (LB1 : length B = 1%nat) by congruence. assert (FB1 : Forall (fun r => length r = 1%nat) B) by (eapply Forall_impl; [|exact FB]; cbv beta; intros; congruence).
          clear -LB1 FB1. destruct B as [|[|b [|b' r]] [|r' B']]; try discriminate LB1; inversion FB1 as [|? ? K]; try discriminate K. eauto. }
        destruct Hb as (b & Hb). assert (0 < b).
        { assert (K : 0 < rform B [1] [1]) by (apply PB; [now rewrite En|exists 0%nat; simpl; lra]).
          rewrite Hb in K. unfold rform, rmv, rdot in K. simpl in K. lra. }
        rewrite Hb. cbn [fm fv map nth]. cbn [nopp ndiv ERNum er_opp er_div]. destruct (Reqb_spec b 0); [lra|].
        replace (- 0 / b) with 0 by (field; lra). eauto.
      - cbn [rzeros repeat fv map]. change (Fin 0 :: Fin 0 :: map Fin (repeat 0 k)) with (fv (rzeros (S (S k)))). rewrite <- En in *.
        assert (Eo : vopp (fv (rzeros n)) = fv (rzeros n)).
        { rewrite h_vopp. f_equal. apply rvec_ext; [unfold rzeros; now rewrite rscale_length|]. intros i. rewrite nth_rscale. unfold rzeros. rewrite nth_repeat. ring. }
        rewrite Eo, h_norm, zero_norm. change (a_delta A) with (Fin delta). cbn [nltb ERNum er_ltb]. destruct (Rltb_spec 0 delta); [|lra]. cbn [andb].
        unfold normalize. rewrite h_norm, zero_norm. cbn [nltb ERNum er_ltb Num.n0 nofZ]. destruct (Rltb_spec 0 0); [lra|]. eauto. }
    destruct Esub as (pd & nw & Es).
    destruct (calculate_small O (new_step "2d" A (a_x A) [fv (rzeros n)] (zeros_of A) (zeros_of A) [] [] pd nw)) as (c & Hc); [cbn [new_step st_subspace length]; lia|].
    assert (Hm : main_step O A "2D" = Ok c) by (unfold main_step; cbn [String.eqb Ascii.eqb Bool.eqb]; rewrite Es; cbn [rbind]; exact Hc).
    exists c. apply zero_proposed; auto.
    apply calculate_fields in Hc as (sc & ss & s & Hsol & Elc & _ & Hst & _). rewrite (sb_og_ss _ _ _ _ _ Hst), Elc.
    unfold solved in Hsol. cbn [new_step st_subspace st_shess st_sg st_delta st_ss0 st_s0] in Hsol |- *.
    unfold solve_1d_trust_region_subproblem in Hsol. change (a_delta A) with (Fin delta) in Hsol. cbn [neqb ERNum er_eqb Num.n0 nofZ] in Hsol.
    destruct (Reqb_spec delta 0); [lra|].
    assert (Vz : vall_zero (fv (rzeros n)) = true).
    { unfold vall_zero, rzeros, fv. apply forallb_forall. intros q Hq. rewrite in_map_iff in Hq. destruct Hq as (r & <- & Hr). apply repeat_spec in Hr. subst r.
      cbn [neqb ERNum er_eqb Num.n0 nofZ]. destruct (Reqb_spec 0 0); [reflexivity|congruence]. }
    rewrite Vz in Hsol. subst sc. rewrite (zeros_rA n x g H D dv delta theta lb ub P), fv_length, rzeros_length.
    cbn [lincomb]. unfold vzeros, rzeros, fv, vadd, vscale. clear. induction n as [|k IH]; [reflexivity|].
    cbn [repeat map map2]. rewrite IH. f_equal. cbn. f_equal. ring.
  Qed.
End ZeroStep.
