(** C63, part 2: the step proposed at a point inside the bounds (exact arithmetic) *)
From Coq Require Import String ZArith List Bool Reals Lra Lia Psatz.
From Verif Require Import Num Subproblem Steps TrustRegion ER NumFacts RVec SubNd RShess Argmin Cand StepFacts Prop_Sub1d Prop_Pred Prop_Box Prop_Cand TRErr RealStep Prop_Grad Region
  Prop_SubNd Prop_TwoD Prop_Region Converge BoundedGrad Unbounded UnboundedFull Unbounded2D.
Import ListNotations.
Local Open Scope R_scope.
Local Open Scope list_scope.

Section BStep.
  Variables (O : StepOracles ER) (n : nat) (x g : rvec) (H : rmat) (D dv : rvec) (delta theta : R) (lb ub : list ER).
  Hypothesis P : problem n x g H D dv delta theta lb ub.
  Local Notation A := (rA x g H D dv delta theta lb ub).
  Local Notation B := (rB n g H D dv).
  Local Notation sg := (rsg g D).
  Local Notation fc := (fcand n x g H D dv delta theta lb ub).
  Local Notation rho := (delta + / IZR (2 ^ 26)).
  Variables (sd strat : string).
  Hypothesis Hsd : sd = "full"%string \/ sd = "2D"%string.

  (** the main step starts at x *)
  Lemma main_calc c : main_step O A sd = Ok c ->
    exists typ sub pd nw, calculate O (new_step typ A (a_x A) sub (zeros_of A) (zeros_of A) [] [] pd nw) = Ok c /\ sub <> [].
  Proof using P Hsd.
    intros Hm. apply main_step_cases in Hm as [(E & r & Hr & Hc)|[(E & Hc)|(E & Hc)]].
    - unfold tr_step_2d in Hr. cbv zeta in Hr.
      destruct (so_lstsq _ _ _); [|discriminate]. destruct (so_eig _ _) as [[[e1 e2] v]|]; [|discriminate].
      repeat match type of Hr with
      | context [match ?t with _ => _ end] => destruct t
      end; try discriminate; apply Ok_inj in Hr; subst r; eexists _, _, _, _; (split; [exact Hc|discriminate]).
    - unfold tr_step_full in Hc. eexists _, _, _, _. split; [exact Hc|]. change (a_hess A) with (fm H). rewrite fm_length.
      destruct P. rewrite (proj1 pb_H), h_eye. pose proof (proj1 (is_mat_eye n)) as Le. intros K. apply (f_equal (@length _)) in K. rewrite fm_length, Le in K. simpl in K. lia.
    - destruct Hsd as [-> | ->]; discriminate.
  Qed.
  Lemma main_fcand c w : main_step O A sd = Ok c -> st_og_ss c = fv w -> length w = n -> rnorm w <= rho -> fc rho c w (rzeros n).
  Proof using P Hsd.
    intros Hm Hw Lw Nw. destruct (main_calc c Hm) as (typ & sub & pd & nw & Hc & Hs). pose proof P as P'. destruct P'. pose proof two26 as He.
    assert (Lz : length (rzeros n) = n) by apply rzeros_length.
    rewrite (zeros_rA n x g H D dv delta theta lb ub P) in Hc.
    apply calculate_fields in Hc as (sc & ss & s & _ & _ & Es & Hst & _).
    assert (Bx : boxed A theta c).
    { eapply stepped_boxed; [reflexivity|apply (start_eq n x g H D dv delta theta lb ub P)|apply (A_box n x g H D dv delta theta lb ub P)|exact Hst]. }
    destruct Hst. cbn [new_step st_s0 st_ss0 st_subspace st_scaling] in *. rewrite sb_og_ss in Hw. subst ss.
    change (a_scaling A) with (fv D) in Es.
    assert (Es' : s = fv (rmul D w)) by (destruct sub; [congruence|]; rewrite Es; apply h_vmul).
    split; [exact Bx|]. split; [exact Lw|]. split; [exact Lz|]. split; [exact sb_og_ss|]. split; [exact sb_ss0|].
    split; [exists (rmul D w), (rzeros n); repeat split; auto; try (now apply rmul_length); congruence|].
    split; [now rewrite sb_og_ss|]. rewrite znorm. split; [lra|]. rewrite (radd_zeros_l n) by auto. exact Nw.
  Qed.
  (** not cut at a bound, the main step is the step the solver found *)
  Lemma main_uncut c w a : main_step O A sd = Ok c -> st_og_ss c = fv w -> length w = n -> rnorm w <= rho ->
    st_alpha c = Fin a -> ~ a < 1 -> vadd (st_ss c) (st_ss0 c) = fv w /\ st_qpval c = Fin (qmodel B sg w).
  Proof using P Hsd.
    intros Hm Hw Lw Nw Ea Ha. pose proof (main_fcand c w Hm Hw Lw Nw) as Hf.
    destruct (fcand_norm n x g H D dv delta theta lb ub P _ _ _ _ Hf) as (a' & Ea' & Ha' & Ev & _).
    rewrite Ea in Ea'. injection Ea' as <-. assert (a = 1) by lra. subst a.
    assert (Lz : length (rzeros n) = n) by apply rzeros_length.
    assert (Er : radd (rzeros n) (rscale 1 w) = w).
    { apply rvec_ext; [rlen|]. intros i. rewrite nth_radd, nth_rzeros, nth_rscale by rlen. ring. }
    rewrite Er in Ev. split; [exact Ev|].
    destruct (main_calc c Hm) as (typ & sub & pd & nw & Hc & _).
    apply calculate_fields in Hc as (sc & ss & s & _ & _ & _ & Hst & Eq & _).
    rewrite Eq. cbn [new_step st_ss0 st_shess st_sg]. destruct Hst. cbn [new_step st_ss0] in sb_ss0. rewrite <- sb_ss0, Ev.
    rewrite (rA_shess n x g H D dv delta theta lb ub P), rA_sg. apply (h_quadratic n); auto. apply rB_mat.
  Qed.

  Hypothesis Hstrat : strat = "reflect"%string \/ strat = "reflect_single"%string.

  (** every candidate lies in the trust region or is NaN throughout *)
  Lemma candidates_region l : (forall c, main_step O A sd = Ok c -> exists w z, fc rho c w z) -> candidates O A sd strat = Ok l ->
    Forall (region_or_nan n delta) l.
  Proof using P Hstrat.
    intros Ha Hl. pose proof two26 as He.
    unfold candidates in Hl. destruct (main_step O A sd) as [tr|] eqn:Em; [|discriminate]. cbn [rbind] in Hl.
    destruct (Ha _ eq_refl) as (w & z & Hf).
    assert (Hm : region_or_nan n delta tr) by (left; eapply fcand_in; eauto).
    match type of Hl with context [if ?c then _ else _] => destruct c end; [|apply Ok_inj in Hl; subst l; auto].
    unfold extra_steps in Hl. destruct (calculate O (gradient_step A)) as [gs|] eqn:Eg; [|discriminate]. cbn [rbind] in Hl.
    assert (Hg : region_or_nan n delta gs).
    { left. eapply in_region_le; [|eapply (C33_gradient O n x g H D dv delta theta lb ub P); exact Eg]. lra. }
    destruct Hstrat as [-> | ->]; cbn [String.eqb Ascii.eqb Bool.eqb orb andb rbind] in Hl.
    - destruct (stepback_reflect O A tr) as [rf|] eqn:Er; [|discriminate]. cbn [rbind app] in Hl. apply Ok_inj in Hl. subst l.
      rewrite !app_nil_r. constructor; [exact Hm|]. constructor; [exact Hg|]. eapply stepback_reflect_region; eauto.
    - destruct (calculate O (tr_step_reflected A tr)) as [r|] eqn:Er; [|discriminate]. cbn [rbind app] in Hl. apply Ok_inj in Hl. subst l.
      constructor; [exact Hm|]. constructor; [exact Hg|]. constructor; [|constructor].
      destruct (reflected_next O n x g H D dv delta theta lb ub P tr r w z Hf Er) as [(w' & z' & Hr)|Hr]; [left; eapply fcand_in; eauto|right; eapply ncand_nan; eauto].
  Qed.

  (** what the subspace solver is relied upon for: a step of at most the radius (up to 2^-26) that decreases the model by a fraction
      [chi] of what the steepest descent direction allows *)
  Definition delivers (chi M2 : R) : Prop :=
    forall c, main_step O A sd = Ok c -> exists w, length w = n /\ st_og_ss c = fv w /\ rnorm w <= rho
      /\ chi * (rnorm sg / 2 * Rmin delta (rnorm sg / M2)) <= - qmodel B sg w.

  Hypothesis RM : room n lb ub x g D.
  Hypothesis Hn2 : (2 <= n)%nat.
  Hypothesis SH : shaped O g (fm H) D (fv dv) n.

  Lemma nth_vmul_nan (a b : list ER) i : nth i (vmul a b) NaN = er_mul (nth i a NaN) (nth i b NaN).
  Proof using. apply nth_map2_nan; intros []; reflexivity. Qed.
  Lemma sum_nan (a : R) (s s0 : ER) : er_add s s0 = NaN -> er_add (er_add (Fin a) s) s0 = NaN.
  Proof using. destruct s, s0; simpl; intros; try discriminate; reflexivity. Qed.

  Lemma bounded_step chi M2 sp y : trust_region O (fv x) (fv g) (fm H) (fv D) (Fin delta) (fv dv) (Fin theta) lb ub sd strat = Ok sp ->
    length (st_s sp) = n -> length (st_s0 sp) = n ->
    vadd (vadd (fv x) (st_s sp)) (st_s0 sp) = fv y ->
    0 < chi <= 1 -> 0 < rnorm sg -> 0 < M2 -> rform B sg sg <= M2 * rdot sg sg -> (forall i, (i < n)%nat -> Rabs (nth i g 0) <= theta * M2) ->
    delivers chi M2 ->
    exists z, length z = n /\ vadd (st_ss sp) (st_ss0 sp) = fv z /\ rnorm z <= rho /\ y = radd x (rmul D z)
      /\ st_qpval sp = Fin (qmodel B sg z) /\ chi * (rnorm sg / 2 * Rmin delta (rnorm sg / M2)) <= - qmodel B sg z.
  Proof using All.
    intros Htr Ls Ls0 Ey Hchi Np HM HB Hg Hd. pose proof P as P'. destruct P'.
    destruct (C34_best_candidate O (fv x) (fv g) (fm H) (fv D) (Fin delta) (fv dv) (Fin theta) lb ub sd strat sp Htr) as (l & Hl & Hin & Hbest & Hnan).
    change (candidates O A sd strat = Ok l) in Hl.
    assert (Hsd' : sd <> "scg"%string) by (destruct Hsd as [-> | ->]; discriminate).
    assert (Val : forall c, In c l -> vadd (st_s c) (st_s0 c) = vmul (fv D) (vadd (st_ss c) (st_ss0 c))
              /\ st_qpval c = quadratic_form (fm B) (fv sg) (vadd (st_ss c) (st_ss0 c))).
    { intros c Hc. destruct (C32_model_value_of_step_taken O (fv x) g (fm H) D (Fin delta) (fv dv) (Fin theta) lb ub n sd strat l c) as [V1 V2]; auto.
      split; [exact V1|]. rewrite V2. rewrite h_vmul. f_equal. rewrite h_vabs, h_vmul. now apply h_shess. }
    assert (Reg : Forall (region_or_nan n delta) l).
    { apply (candidates_region l); auto. intros c Hc. destruct (Hd c Hc) as (w & Lw & Ew & Nw & _). exists w, (rzeros n). now apply main_fcand. }
    rewrite Forall_forall in Reg.
    assert (Hfin : forall c v, In c l -> vadd (st_ss c) (st_ss0 c) = fv v -> rnorm v <= rho -> length v = n -> st_qpval c = Fin (qmodel B sg v)).
    { intros c v Hc Ev _ Lv. rewrite (proj2 (Val c Hc)), Ev. apply (h_quadratic n); auto. apply rB_mat. }
    destruct (Val sp Hin) as [V1 V2].
    assert (Lss : length (vadd (st_ss sp) (st_ss0 sp)) = n).
    { pose proof (all_in_scale O (fv x) g (fm H) D (Fin delta) (fv dv) (Fin theta) lb ub n pb_pos pb_D pb_g sd strat l SH Hsd' Hl) as HF.
      rewrite Forall_forall in HF. specialize (HF sp Hin). destruct HF as [_ _ _ _ E5 E6 _ _ _ _].
      unfold vadd. rewrite map2_length. lia. }
    assert (Rs : in_region rho sp).
    { destruct (Reg sp Hin) as [|[Ln Fn]]; [auto|exfalso].
      assert (K0 : nth 0 (vadd (vadd (fv x) (st_s sp)) (st_s0 sp)) NaN = NaN).
      { rewrite !nth_vadd_nan, h_nth by lia. apply sum_nan.
        pose proof (f_equal (fun q => nth 0 q NaN) V1) as K. cbn beta in K. rewrite !nth_vadd_nan, nth_vmul_nan, nth_vadd_nan in K.
        rewrite K. rewrite Forall_forall in Fn. rewrite (Fn (nth 0 (st_ss sp) NaN)) by (apply nth_In; lia).
        destruct (nth 0 (fv D) NaN); reflexivity. }
      assert (Ly : length y = n). { rewrite <- (fv_length y), <- Ey. unfold vadd. rewrite !map2_length, fv_length, Ls, Ls0. lia. }
      rewrite Ey, h_nth in K0 by lia. discriminate. }
    destruct Rs as (z & Ez & Nz). assert (Lz : length z = n) by (now rewrite <- (fv_length z), <- Ez).
    exists z. split; [exact Lz|]. split; [exact Ez|]. split; [exact Nz|].
    assert (Eq : st_qpval sp = Fin (qmodel B sg z)) by (apply Hfin; auto).
    split.
    { assert (Lm : length (rmul D z) = n) by now apply rmul_length.
      rewrite Ez, h_vmul in V1. apply fv_inj. rewrite <- Ey, <- h_vadd, <- V1. apply (nth_ext _ _ NaN NaN).
      - unfold vadd. rewrite !map2_length, fv_length, Ls, Ls0. lia.
      - intros i Hi. assert (Hi' : (i < n)%nat) by (unfold vadd in Hi; rewrite !map2_length, fv_length, Ls, Ls0 in Hi; lia).
        pose proof (f_equal (fun q => nth i q NaN) V1) as K. cbn beta in K.
        rewrite !nth_vadd_nan in *. rewrite !h_nth in * by lia.
        destruct (nth i (st_s sp) NaN), (nth i (st_s0 sp) NaN); cbn in K |- *; try discriminate. injection K as K. f_equal. lra. }
    split; [exact Eq|].
    assert (NN : forall c, In c l -> nisnan (st_qpval c) = false).
    { intros c Hc. destruct (nisnan (st_qpval c)) eqn:En; [|reflexivity]. assert (K : nisnan (st_qpval sp) = true) by eauto. rewrite Eq in K. discriminate. }
    specialize (Hbest NN).
    assert (Best : forall c q, In c l -> st_qpval c = Fin q -> qmodel B sg z <= q).
    { intros c q Hc Hq. specialize (Hbest c Hc). rewrite Eq, Hq in Hbest. cbn [nleb ERNum er_leb] in Hbest. now apply Rleb_true. }
    assert (Nn : 0 <= rnorm sg / 2 * Rmin delta (rnorm sg / M2)).
    { apply Rmult_le_pos; [lra|]. apply Rmin_glb; [lra|]. left. now apply Rdiv_lt_0_compat. }
    assert (Em : exists main, main_step O A sd = Ok main).
    { unfold candidates in Hl. destruct (main_step O A sd) as [m|]; [eauto|discriminate]. }
    destruct Em as (main & Em). destruct (Hd main Em) as (w & Lw & Ew & Nw & Cw).
    destruct (fcand_norm n x g H D dv delta theta lb ub P _ _ _ _ (main_fcand main w Em Ew Lw Nw)) as (a & Ea & Ha & _ & _).
    destruct (Rlt_dec a 1) as [Hlt|Hge].
    - destruct (C34_no_worse_than_gradient O (fv x) (fv g) (fm H) (fv D) (Fin delta) (fv dv) (Fin theta) lb ub sd strat sp main Htr Em)
        as (gs & l' & Egs & El & Hgin & _).
      { rewrite Ea. cbn. destruct (Rltb_spec a 1); [reflexivity|lra]. }
      { rewrite h_vmul, fv_length, (rmul_length D g n) by auto. lia. }
      change (candidates O A sd strat = Ok l') in El. rewrite Hl in El. apply Ok_inj in El. subst l'.
      destruct (gradient_decrease O n x g H D dv delta theta lb ub P RM M2 Np HM HB Hg) as (c & q & Ec & Eqc & Hq).
      change (calculate O (gradient_step A) = Ok gs) in Egs. rewrite Ec in Egs. apply Ok_inj in Egs. subst gs.
      specialize (Best c q Hgin Eqc). nra.
    - destruct (main_uncut main w a Em Ew Lw Nw Ea Hge) as [Em1 Em2].
      assert (Him : In main l).
      { unfold candidates in Hl. rewrite Em in Hl. cbn [rbind] in Hl.
        match type of Hl with context [if ?b then _ else _] => destruct b end; [|apply Ok_inj in Hl; subst l; now left].
        apply rbind_ok in Hl as (ex & _ & E). apply Ok_inj in E. subst l. now left. }
      specialize (Best main _ Him Em2). lra.
  Qed.
End BStep.
