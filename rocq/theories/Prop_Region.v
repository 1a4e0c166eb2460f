(** C33: candidate steps and the trust region (exact arithmetic) *)
From Coq Require Import String ZArith List Bool Reals Lra Lia Psatz.
From Verif Require Import Num Subproblem Steps TrustRegion ER NumFacts RVec Ortho SubNd Prop_SubNd RShess Argmin Cand StepFacts Prop_Sub1d Prop_Pred Prop_Box Prop_Cand TRErr RealStep Prop_Grad GradEx Region Prop_Trunc Prop_CG Prop_Stepback Prop_TwoD.
Import ListNotations.
Local Open Scope R_scope.
Local Open Scope list_scope.

(** the full scaled step of a candidate is finite and no longer than rho *)
Definition in_region (rho : R) (c : step ER) : Prop :=
  exists v, vadd (st_ss c) (st_ss0 c) = fv v /\ rnorm v <= rho.
(** every coordinate of the candidate's step is NaN *)
Definition nan_step (n : nat) (c : step ER) : Prop := length (st_ss c) = n /\ Forall (fun v => v = NaN) (st_ss c).
(** the external routines solve the candidate's reduced problem (attributes chess, cg of the step) exactly *)
Definition solved_exactly (O : StepOracles ER) (delta : R) (c : step ER) : Prop :=
  (2 <= length (st_subspace c))%nat ->
  exists k Bc gc vals vecs, st_chess c = fm Bc /\ st_cg c = fv gc
    /\ nd_problem k Bc gc delta vals vecs (so_sub O) /\ roots_found (so_sub O) gc delta vals vecs.

Lemma in_region_le rho rho' c : rho <= rho' -> in_region rho c -> in_region rho' c.
Proof. intros Hl (v & E & Hv). exists v. split; [exact E|lra]. Qed.
Lemma two26 : 0 < / IZR (2 ^ 26). Proof. apply Rinv_0_lt_compat, IZR_lt. reflexivity. Qed.

(** two orthogonal columns of length at most one *)
Lemma lincomb2_le n u v sc : length u = n -> length v = n -> length sc = 2%nat -> rnorm u <= 1 -> rnorm v <= 1 -> rdot u v = 0 ->
  rnorm (rlincomb n sc [u; v]) <= rnorm sc.
Proof.
  intros Lu Lv Ls Nu Nv Huv. destruct sc as [|a [|b [|]]]; try (simpl in Ls; lia).
  replace (rlincomb n [a; b] [u; v]) with (radd (rscale a u) (rscale b v)).
  2:{ cbn [rlincomb]. assert (Z : length (repeat 0 n) = n) by apply repeat_length. change (repeat 0 n) with (rzeros n) in *. apply rvec_ext; [rlen|]. intros i. rewrite !nth_radd, nth_rzeros by rlen. ring. }
  apply rnorm_le; [apply rnorm_nonneg|]. rewrite rnorm_sq, rdot_radd_l, !rdot_radd_r by rlen.
  rewrite !rdot_rscale_l, !rdot_rscale_r. rewrite (rdot_comm v u), Huv, <- (rnorm_sq u), <- (rnorm_sq v).
  unfold rdot. cbn [combine map fold_right fst snd].
  pose proof (rnorm_nonneg u). pose proof (rnorm_nonneg v).
  assert (rnorm u * rnorm u <= 1) by nra. assert (rnorm v * rnorm v <= 1) by nra.
  pose proof (Rle_0_sqr a) as Sa. pose proof (Rle_0_sqr b) as Sb. unfold Rsqr in *. simpl. nra.
Qed.

Section Region33.
  Variables (O : StepOracles ER) (n : nat) (x g : rvec) (H : rmat) (D dv : rvec) (delta theta : R) (lb ub : list ER).
  Hypothesis P : problem n x g H D dv delta theta lb ub.
  Local Notation A := (rA x g H D dv delta theta lb ub).
  Local Notation B := (rB n g H D dv).
  Local Notation sg := (rsg g D).
  Local Notation fc := (fcand n x g H D dv delta theta lb ub).
  Local Notation nc := (ncand n x g H D dv delta theta lb ub).
  Local Notation rho := (delta + / IZR (2 ^ 26)).

  Lemma fcand_in r c w z : fc r c w z -> in_region r c.
  Proof. intros Hc. apply (fcand_norm n x g H D dv delta theta lb ub P) in Hc as (a & _ & _ & E & Hn). eexists. eauto. Qed.
  Lemma fcand_mono r r' c w z : r <= r' -> fc r c w z -> fc r' c w z.
  Proof. intros Hr (a1 & a2 & a3 & a4 & a5 & a6 & a7 & a8 & a9). unfold fcand. repeat (split; auto). all: lra. Qed.
  Lemma zlen : length (rzeros n) = n. Proof. apply repeat_length. Qed.
  Lemma znorm : rnorm (rzeros n) = 0. Proof. unfold rnorm. rewrite rdot_zeros_l. apply sqrt_0. Qed.
  Lemma start_eq : a_x A = vadd (a_x A) (fv (rzeros n)).
  Proof. rewrite <- (zeros_rA n x g H D dv delta theta lb ub P). symmetry. apply x_zeros. apply (A_len n x g H D dv delta theta lb ub P). Qed.

  (** a one-column subspace, from the start *)
  Lemma start_line typ u refl tr pd nw c : length u = n ->
    calculate O (new_step typ A (a_x A) (fm [u]) (fv (rzeros n)) (fv (rzeros n)) refl tr pd nw) = Ok c -> exists w z, fc delta c w z.
  Proof.
    intros Lu Hc. pose proof P as P'. destruct P'.
    apply (line_calc O n x g H D dv delta theta lb ub P delta) in Hc; auto using start_eq, zlen; rewrite ?znorm; try lra.
    - destruct Hc as [(tau & Ht)|[_ K]]; [eauto|]. rewrite znorm in K. lra.
    - apply (A_box n x g H D dv delta theta lb ub P).
  Qed.

  Theorem C33_gradient : forall c, calculate O (gradient_step A) = Ok c -> in_region delta c.
  Proof.
    intros c Hc. unfold gradient_step in Hc. rewrite rA_sg, h_normalize, (zeros_rA n x g H D dv delta theta lb ub P) in Hc.
    pose proof (rsg_length n x g H D dv delta theta lb ub P) as Lsg.
    set (u := if Rltb 0 (rnorm sg) then rscale (/ rnorm sg) sg else sg) in *.
    assert (Lu : length u = n) by (unfold u; destruct (Rltb 0 (rnorm sg)); rlen).
    change [fv u] with (fm [u]) in Hc.
    apply start_line in Hc as (w & z & Hf); [|exact Lu]. eapply fcand_in; eauto.
  Qed.

  (** two or more columns, from the start *)
  Lemma start_nd typ sub refl tr pd nw c : (2 <= length sub)%nat -> Forall (fun u => length u = n) sub ->
    (forall sc, length sc = length sub -> rnorm (rlincomb n sc sub) <= rnorm sc) ->
    calculate O (new_step typ A (a_x A) (fm sub) (fv (rzeros n)) (fv (rzeros n)) refl tr pd nw) = Ok c ->
    solved_exactly O delta c -> exists w z, fc rho c w z.
  Proof.
    intros Hk Hsub Hn Hc Hex. pose proof P as P'. destruct P'. pose proof two26 as He.
    apply calculate_fields in Hc as (sc & ss & s & Hsol & Ess & Es & Hst & _ & Ech & Ecg).
    assert (Bx : boxed A theta c).
    { eapply stepped_boxed; [reflexivity|apply start_eq|apply (A_box n x g H D dv delta theta lb ub P)|exact Hst]. }
    cbn [new_step st_s0 st_subspace st_scaling] in Ess, Es. change (a_scaling A) with (fv D) in Es. rewrite fv_length, zlen in Ess.
    destruct Hex as (k & Bc & gc & vals & vecs & Eb & Eg & HP & HN).
    { destruct Hst. rewrite sb_subspace. cbn [new_step st_subspace]. unfold fm. now rewrite map_length. }
    rewrite Ech in Eb. rewrite Ecg in Eg. unfold solved in Hsol. rewrite Eb, Eg in Hsol.
    cbn [new_step st_subspace st_delta st_ss0] in Hsol. change (a_delta A) with (Fin delta) in Hsol.
    assert (Ed : nsqrt (pymax (nsq (Fin delta) - nsq (norm (fv (rzeros n))))%num n0) = Fin delta).
    { rewrite h_norm, znorm. unfold nsq, pymax. cbn [nsub nmul nltb nsqrt ERNum er_sub er_add er_opp er_mul er_ltb n0 nofZ].
      destruct (Rltb_spec (delta * delta + - (0 * 0)) 0); [nra|]. cbn [er_sqrt].
      destruct (Rltb_spec (delta * delta + - (0 * 0)) 0); [nra|]. f_equal. replace (delta * delta + - (0 * 0)) with (delta * delta) by ring. apply sqrt_square. lra. }
    rewrite Ed in Hsol.
    assert (Lk : k = length sub).
    { destruct HP as ([Lb _] & _). apply (f_equal (@List.length _)) in Eb. unfold subspace_hess, fm in Eb.
      cbn [new_step st_subspace] in Eb. unfold fm in Eb. rewrite !map_length in Eb. congruence. }
    destruct sub as [|u1 [|u2 sub]]; try (simpl in Hk; lia). cbn [fm map] in Hsol, Es. destruct Hsol as (lab & Hsol).
    destruct (C27_with_newton k Bc gc delta vals vecs (so_sub O) sc lab HP HN Hsol) as (r & -> & Lr & Nr & _).
    rewrite h_lincomb in Ess. set (S0 := u1 :: u2 :: sub) in *. subst ss. rewrite h_vmul in Es. subst s.
    assert (Lw : length (rlincomb n r S0) = n).
    { pose proof (lincomb_len n (fv r) S0 Hsub) as K. rewrite h_lincomb, fv_length in K. exact K. }
    exists (rlincomb n r S0), (rzeros n). destruct Hst. cbn [new_step st_s0 st_ss0] in *.
    split; [exact Bx|]. split; [exact Lw|]. split; [exact zlen|]. split; [exact sb_og_ss|]. split; [exact sb_ss0|].
    split; [exists (rmul D (rlincomb n r S0)), (rzeros n); repeat split; auto using zlen; now apply rmul_length|].
    split; [now rewrite sb_og_ss|]. split; [rewrite znorm; lra|].
    replace (radd (rzeros n) (rlincomb n r S0)) with (rlincomb n r S0).
    - eapply Rle_trans; [apply Hn; congruence|exact Nr].
    - apply rvec_ext; [rewrite radd_length; rewrite zlen; congruence|]. intros i. rewrite nth_radd, nth_rzeros by (rewrite zlen; congruence). ring.
  Qed.

  Lemma rnormalize_le v : rnorm (rnormalize v) <= 1.
  Proof.
    unfold rnormalize. destruct (Rltb_spec 0 (rnorm v)) as [Hp|Hp].
    - rewrite rnorm_rscale, Rabs_pos_eq by (left; now apply Rinv_0_lt_compat). right. field. lra.
    - lra.
  Qed.

  (** what is assumed of the external routines for the main step computed by solver [sd] *)
  Definition main_assumptions (sd : string) (c : step ER) : Prop :=
    (sd = "2D"%string -> (1 < n)%nat /\ finite_2d O n /\ solved_exactly O delta c)
    /\ (sd = "full"%string -> solved_exactly O delta c)
    /\ (sd = "scg"%string -> nonzero g /\ (n <= so_cgfuel O)%nat).

  Lemma twod_fc r c : (1 < n)%nat -> finite_2d O n -> solved_exactly O delta c -> tr_step_2d O A = Ok r -> calculate O r = Ok c -> exists w z, fc rho c w z.
  Proof.
    intros Hn [Hls Heg] Hex Hr Hc. pose proof two26 as He.
    destruct (so_lstsq O (fm B) (fv sg)) as [ls|] eqn:Els.
    2:{ unfold tr_step_2d in Hr. cbv zeta in Hr. rewrite (rA_shess n x g H D dv delta theta lb ub P), rA_sg, Els in Hr. discriminate. }
    destruct (so_eig O (fm B)) as [[[re ab] v]|] eqn:Eeg.
    2:{ unfold tr_step_2d in Hr. cbv zeta in Hr. rewrite (rA_shess n x g H D dv delta theta lb ub P), rA_sg, Els, Eeg in Hr. discriminate. }
    destruct (Hls _ _ _ Els) as (l & -> & Ll). destruct (Heg _ _ _ _ Eeg) as (V & -> & LV & Lre & FV).
    destruct (twod_cases O n x g H D dv delta theta lb ub P l re ab V Hn Els Ll Eeg LV Lre FV) as (w & sub & pd & nw & Er & Lw & _ & Hsub).
    rewrite Hr in Er. apply Ok_inj in Er. subst r. rewrite (zeros_rA n x g H D dv delta theta lb ub P) in Hc.
    assert (L1 : length (rnormalize w) = n) by now rewrite rnormalize_length.
    destruct Hsub as [->|(q & Lq & Hq & ->)].
    - apply start_line in Hc as (w' & z' & Hf); auto. exists w', z'. eapply fcand_mono; [|exact Hf]. lra.
    - assert (Lo : length (rorth (rnormalize w) q) = n) by (unfold rorth; rlen).
      assert (L2 : length (rnormalize (rorth (rnormalize w) q)) = n) by now rewrite rnormalize_length.
      apply start_nd in Hc; auto.
      + intros sc Ls. apply lincomb2_le; auto using rnormalize_le. apply rnormalize_dot.
        destruct (nonzero_dec w) as [Hw|Hw].
        * apply (rorth_orth n); auto. rewrite <- rnorm_sq. unfold rnormalize. destruct (Rltb_spec 0 (rnorm w)).
          -- rewrite rnorm_unit by auto. ring.
          -- pose proof (nonzero_norm _ Hw). lra.
        * assert (Ez : rnormalize w = rzeros n).
          { apply rvec_ext; [rewrite L1; symmetry; apply zlen|]. intros i. rewrite nth_rzeros. unfold rnormalize.
            destruct (Rltb 0 (rnorm w)); rewrite ?nth_rscale, Hw; ring. }
          rewrite Ez. apply rdot_zeros_l.
  Qed.

  Lemma lincomb_eye_norm sc : length sc = n -> rnorm (rlincomb n sc (reye n)) = rnorm sc.
  Proof. intros Ls. unfold rnorm. f_equal. apply (dot_lincomb n); auto using is_mat_eye, orthonormal_eye. Qed.

  Lemma main_fc sd c : main_assumptions sd c -> main_step O A sd = Ok c -> exists w z, fc rho c w z.
  Proof.
    intros (H2 & Hfu & Hcg) Hm. pose proof P as P'. destruct P'. pose proof two26 as He.
    apply main_step_cases in Hm as [(E & r & Hr & Hc)|[(E & Hc)|(E & Hc)]].
    - destruct (H2 E) as (Hn & Hf2 & Hex). eapply twod_fc; eauto.
    - unfold tr_step_full in Hc. change (a_hess A) with (fm H) in Hc. destruct pb_H as [LH _].
      rewrite fm_length, LH, h_eye, (zeros_rA n x g H D dv delta theta lb ub P) in Hc.
      assert (Le : length (reye n) = n) by apply is_mat_eye.
      destruct (Nat.eq_dec n 1) as [En|Hn1].
      + destruct (reye n) as [|u [|u' l]] eqn:Ee; try (simpl in Le; lia).
        apply start_line in Hc as (w' & z' & Hf).
        * exists w', z'. eapply fcand_mono; [|exact Hf]. lra.
        * pose proof (proj2 (is_mat_eye n)) as F. rewrite Ee in F. now inversion F.
      + apply start_nd in Hc; auto.
        * lia.
        * apply is_mat_eye.
        * intros sc Ls. right. apply lincomb_eye_norm. congruence.
    - destruct (Hcg E) as [Hnz Hf]. destruct (C31_step O n x g H D dv delta theta lb ub P Hnz Hf) as (c' & u & t & z & Ec & Hst & Lu & Lz & Nz & Nn & _).
      rewrite Hc in Ec. apply Ok_inj in Ec. subst c'.
      assert (Bx : boxed A theta c).
      { eapply (start_boxed A theta); [reflexivity|apply (A_len n x g H D dv delta theta lb ub P)|apply (A_box n x g H D dv delta theta lb ub P)|exact Hst]. }
      exists (rscale t u), z. destruct Hst. cbn [new_step st_s0 st_ss0] in *.
      split; [exact Bx|]. split; [rlen|]. split; [exact Lz|]. split; [exact sb_og_ss|]. split; [exact sb_ss0|].
      split; [exists (rmul D (radd (rscale t u) z)), (rzeros n); repeat split; auto using zlen|].
      { apply rmul_length; auto. rlen. }
      { rewrite sb_s0. apply (zeros_rA n x g H D dv delta theta lb ub P). }
      split; [now rewrite sb_og_ss|]. split; [lra|].
      replace (radd z (rscale t u)) with (radd (rscale t u) z); [lra|].
      apply rvec_ext; [rlen|]. intros i. rewrite !nth_radd by rlen. ring.
  Qed.

  Theorem C33_main : forall sd c, main_assumptions sd c -> main_step O A sd = Ok c ->
    in_region rho c.
  Proof. intros sd c Ha Hm. destruct (main_fc sd c Ha Hm) as (w & z & Hf). eapply fcand_in; eauto. Qed.

  Definition region_or_nan (c : step ER) : Prop := in_region rho c \/ nan_step n c.
  Lemma ncand_nan c : nc c -> nan_step n c.
  Proof. intros (_ & _ & L & F). split; auto. Qed.
  Lemma ncand_stops c : nc c -> (st_alpha c =? n1)%num = true.
  Proof. intros (_ & E & _). rewrite E. cbn [neqb ERNum n1 nofZ er_eqb]. destruct (Reqb_spec 1 1); [auto|lra]. Qed.

  Lemma reflected_next p c w z : fc rho p w z -> calculate O (tr_step_reflected A p) = Ok c -> (exists w' z', fc rho c w' z') \/ nc c.
  Proof. intros Hp Hc. pose proof two26. eapply (reflected_region O n x g H D dv delta theta lb ub P); eauto. lra. Qed.
  Lemma reflect_loop_region : forall k p l w z, fc rho p w z -> reflect_loop k O A p = Ok l -> Forall region_or_nan l.
  Proof.
    induction k; intros p l w z Hp Hl; cbn [reflect_loop] in Hl; [apply Ok_inj in Hl; subst l; constructor|].
    destruct (st_alpha p =? n1)%num; [apply Ok_inj in Hl; subst l; constructor|].
    destruct (calculate O (tr_step_reflected A p)) as [r|] eqn:Er; [|discriminate].
    destruct (reflect_loop k O A r) as [l'|] eqn:El; [|discriminate]. apply Ok_inj in Hl. subst l.
    destruct (reflected_next p r w z Hp Er) as [(w' & z' & Hr)|Hr].
    - constructor; [left; eapply fcand_in; eauto|]. eapply IHk; eauto.
    - constructor; [right; now apply ncand_nan|].
      destruct k; cbn [reflect_loop] in El; [apply Ok_inj in El; subst l'; constructor|]. rewrite (ncand_stops r Hr) in El. apply Ok_inj in El; subst l'; constructor.
  Qed.
  Lemma stepback_reflect_region p l w z : fc rho p w z -> stepback_reflect O A p = Ok l -> Forall region_or_nan l.
  Proof.
    intros Hp Hl. unfold stepback_reflect in Hl. destruct (calculate O (tr_step_reflected A p)) as [r|] eqn:Er; [|discriminate].
    destruct (reflect_loop _ O A r) as [l'|] eqn:El; [|discriminate]. apply Ok_inj in Hl. subst l.
    destruct (reflected_next p r w z Hp Er) as [(w' & z' & Hr)|Hr].
    - constructor; [left; eapply fcand_in; eauto|]. eapply reflect_loop_region; eauto.
    - constructor; [right; now apply ncand_nan|].
      destruct (length (a_x A) - 1)%nat; cbn [reflect_loop] in El; [apply Ok_inj in El; subst l'; constructor|]. rewrite (ncand_stops r Hr) in El. apply Ok_inj in El; subst l'; constructor.
  Qed.

  (** With the strategies reflect and reflect_single every candidate considered stays in the trust region, up to the
      tolerance 2^-26 of the subproblem solver, or is NaN throughout (see C26, C39) *)
  Theorem C33_candidates : forall sd strat l,
    strat = "reflect"%string \/ strat = "reflect_single"%string ->
    (forall c, main_step O A sd = Ok c -> main_assumptions sd c) ->
    candidates O A sd strat = Ok l ->
    Forall (fun c => in_region (delta + / IZR (2 ^ 26)) c \/ nan_step n c) l.
  Proof.
    intros sd strat l Hs Ha Hl. change (Forall region_or_nan l). pose proof two26 as He.
    unfold candidates in Hl. destruct (main_step O A sd) as [tr|] eqn:Em; [|discriminate]. cbn [rbind] in Hl.
    destruct (main_fc sd tr (Ha _ eq_refl) Em) as (w & z & Hf).
    assert (Hm : region_or_nan tr) by (left; eapply fcand_in; eauto).
    match type of Hl with context [if ?c then _ else _] => destruct c end; [|apply Ok_inj in Hl; subst l; auto].
    unfold extra_steps in Hl. destruct (calculate O (gradient_step A)) as [gs|] eqn:Eg; [|discriminate]. cbn [rbind] in Hl.
    assert (Hg : region_or_nan gs). { left. eapply in_region_le; [|apply C33_gradient; exact Eg]. lra. }
    destruct Hs as [-> | ->]; cbn [String.eqb Ascii.eqb Bool.eqb orb andb rbind] in Hl.
    - destruct (stepback_reflect O A tr) as [rf|] eqn:Er; [|discriminate]. cbn [rbind app] in Hl. apply Ok_inj in Hl. subst l.
      rewrite !app_nil_r. constructor; [exact Hm|]. constructor; [exact Hg|]. eapply stepback_reflect_region; eauto.
    - destruct (calculate O (tr_step_reflected A tr)) as [r|] eqn:Er; [|discriminate]. cbn [rbind app] in Hl. apply Ok_inj in Hl. subst l.
      constructor; [exact Hm|]. constructor; [exact Hg|]. constructor; [|constructor]. destruct (reflected_next tr r w z Hf Er) as [(w' & z' & Hr)|Hr]; [left; eapply fcand_in; eauto|right; now apply ncand_nan].
  Qed.
End Region33.

(** *** the hypotheses are met by a concrete indefinite problem with an active radius, solved in the full space *)
Definition r3_la : StepOracles ER :=
  mkStepOracles ER (oracles_with [-1; 1] (reye 2) (fun _ _ _ => Root (Fin 4)) (fun _ _ _ _ => NoConv)) (fun _ => None)
    (fun _ _ => None) (fun _ _ _ _ _ _ _ => None) 10 10.
Definition r3_A := rA [0; 0] [3; 0] (diag2 (-1) 1) [1; 1] [0; 0] 1 (/ 2) [NInf; NInf] [PInf; PInf].
Lemma r3_problem : problem 2 [0; 0] [3; 0] (diag2 (-1) 1) [1; 1] [0; 0] 1 (/ 2) [NInf; NInf] [PInf; PInf].
Proof.
  constructor; try reflexivity; try lra; auto.
  - split; [reflexivity|]. repeat constructor.
  - intros i j. unfold entry, diag2. destruct i as [|[|[|i]]], j as [|[|[|j]]]; reflexivity.
  - repeat constructor; lra.
  - intros i Hi. destruct i as [|[|]]; [| |lia]; split; reflexivity.
Qed.
Example C33_ex : exists c, main_step r3_la r3_A "full" = Ok c /\ length (st_subspace c) = 2%nat
  /\ main_assumptions r3_la 2 [3; 0] 1 "full" c /\ in_region (1 + / IZR (2 ^ 26)) c.
Proof.
  destruct C28_ex_newton as (HP & HN & Hsm & Hg).
  destruct (C28_solves 2 (diag2 (-1) 1) [3; 0] 1 [-1; 1] (reye 2) (so_sub r3_la) (-1) HP Hsm (or_introl HN)) as (r & lab & Es & _).
  { right. right. exists 0%nat. repeat split; [lia|exact Hg]. }
  pose proof r3_problem as P. pose proof (rA_shess 2 _ _ _ _ _ _ _ _ _ P) as Esh. pose proof (rA_sg [0; 0] [3; 0] (diag2 (-1) 1) [1; 1] [0; 0] 1 (/ 2) [NInf; NInf] [PInf; PInf]) as Esg.
  fold r3_A in Esh, Esg.
  assert (EB : rB 2 [3; 0] (diag2 (-1) 1) [1; 1] [0; 0] = diag2 (-1) 1).
  { unfold rB, rshess, diag2, rabsv, rmul, entry. simpl. repeat f_equal; lra. }
  assert (Eg : rsg [3; 0] [1; 1] = [3; 0]) by (unfold rsg, rmul; simpl; repeat f_equal; lra).
  rewrite EB in Esh. rewrite Eg in Esg.
  set (st := tr_step_full r3_A).
  assert (Esub : st_subspace st = fm (reye 2)) by (unfold st, tr_step_full; cbn [new_step st_subspace]; change (length (a_hess r3_A)) with 2%nat; apply h_eye).
  assert (E1 : st_shess st = fm (diag2 (-1) 1)) by exact Esh.
  assert (E2 : st_sg st = fv [3; 0]) by exact Esg.
  assert (Ech : subspace_hess st = fm (diag2 (-1) 1)).
  { unfold subspace_hess. rewrite Esub, E1. unfold fm at 1 3. rewrite map_map. unfold diag2 at 2, fm.
    cbn [reye map seq]. change (map fv (diag2 (-1) 1)) with (fm (diag2 (-1) 1)). rewrite !h_matvec, !h_dot.
    unfold rmv, rdot, diag2. simpl. repeat f_equal; lra. }
  assert (Ecg : tmatvec (st_subspace st) (st_sg st) = fv [3; 0]).
  { rewrite Esub, E2, h_tmatvec. f_equal. unfold rmv, reye, rdot. simpl. repeat f_equal; lra. }
  assert (Hex : exists c, calculate r3_la st = Ok c).
  { unfold calculate. assert (K : exists c, compute_step r3_la (reduce_to_subspace st) = Ok c); [|destruct K as (c & ->); eexists; reflexivity].
    unfold compute_step. change (st_subspace (reduce_to_subspace st)) with (st_subspace st). rewrite Esub. cbn [fm map reye seq].
    change (st_chess (reduce_to_subspace st)) with (subspace_hess st). change (st_cg (reduce_to_subspace st)) with (tmatvec (st_subspace st) (st_sg st)).
    rewrite Ech, Ecg.
    match goal with |- context [solve_nd_trust_region_subproblem _ _ _ ?d] => assert (Ed : d = Fin 1) end.
    { change (st_delta (reduce_to_subspace st)) with (Fin 1). change (st_ss0 (reduce_to_subspace st)) with (zeros_of r3_A).
      unfold r3_A. rewrite (zeros_rA 2 _ _ _ _ _ _ _ _ _ P), h_norm.
      replace (rnorm (rzeros 2)) with 0 by (unfold rnorm; rewrite rdot_zeros_l, sqrt_0; reflexivity).
      unfold nsq, pymax. cbn [nsub nmul nltb nsqrt ERNum er_sub er_add er_opp er_mul er_ltb n0 nofZ].
      destruct (Rltb_spec (1 * 1 + - (0 * 0)) 0); [lra|]. cbn [er_sqrt].
      destruct (Rltb_spec (1 * 1 + - (0 * 0)) 0); [lra|]. f_equal. replace (1 * 1 + - (0 * 0)) with 1 by ring. apply sqrt_1. }
    rewrite Ed, Es. eexists. reflexivity. }
  destruct Hex as (c & Hc). exists c. split; [exact Hc|].
  pose proof (calculate_fields r3_la st c Hc) as (sc & ss & s & _ & _ & _ & Hst & _ & Kch & Kcg).
  assert (Esc : st_subspace c = fm (reye 2)) by (destruct Hst; now rewrite sb_subspace).
  split; [rewrite Esc; reflexivity|].
  assert (MA : main_assumptions r3_la 2 [3; 0] 1 "full" c).
  { split; [discriminate|]. split; [|discriminate]. intros _ _. exists 2%nat, (diag2 (-1) 1), [3; 0], [-1; 1], (reye 2).
    rewrite Kch, Kcg. split; [exact Ech|]. split; [exact Ecg|]. split; [exact HP|]. left. exact HN. }
  split; [exact MA|]. apply (C33_main r3_la 2 _ _ _ _ _ _ _ _ _ P "full"%string c MA). exact Hc.
Qed.
