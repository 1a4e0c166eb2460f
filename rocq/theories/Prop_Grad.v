(** C35: the scaled-gradient candidate predicts a decrease (exact arithmetic) *)
From Coq Require Import String ZArith List Bool Reals Lra Lia Psatz.
From Verif Require Import Num Subproblem Steps TrustRegion ER NumFacts RVec SubNd RShess Argmin Cand StepFacts Prop_Sub1d Prop_Pred Prop_Box Prop_Cand RealStep.
Import ListNotations.
Local Open Scope R_scope.
Local Open Scope list_scope.

Lemma h_normalize v : normalize (fv v) = fv (if Rltb 0 (rnorm v) then rscale (/ rnorm v) v else v).
Proof.
  unfold normalize. rewrite h_norm. cbn [nltb ERNum n0 nofZ er_ltb].
  destruct (Rltb_spec 0 (rnorm v)); [|reflexivity]. apply h_vdivs. lra.
Qed.
Lemma rnorm_unit v : nonzero v -> rnorm (rscale (/ rnorm v) v) = 1.
Proof.
  intros H. apply nonzero_dot in H. pose proof (rnorm_pos v H) as Hp.
  unfold rnorm at 1. rewrite rdot_rscale_l, rdot_rscale_r, <- (rnorm_sq v).
  replace (/ rnorm v * (/ rnorm v * (rnorm v * rnorm v))) with 1 by (field; lra). apply sqrt_1.
Qed.
Lemma nonzero_norm v : nonzero v -> 0 < rnorm v.
Proof. intros H. apply rnorm_pos, nonzero_dot, H. Qed.
Lemma not_nonzero_norm v : ~ nonzero v -> rnorm v = 0.
Proof.
  intros H. unfold rnorm. replace (rdot v v) with 0; [apply sqrt_0|].
  assert (~ 0 < rdot v v) by (intros K; apply H; now apply nonzero_dot).
  pose proof (rdot_self_nonneg v). lra.
Qed.

(** everything a real-valued problem consists of *)
Record problem (n : nat) (x g : rvec) (H : rmat) (D dv : rvec) (delta theta : R) (lb ub : list ER) : Prop := mkProblem {
  pb_n : (1 <= n)%nat;
  pb_x : length x = n;
  pb_g : length g = n;
  pb_H : is_mat n n H;
  pb_sym : symmetric H;
  pb_D : length D = n;
  pb_pos : Forall (fun d => 0 < d) D;
  pb_dv : length dv = n;
  pb_delta : 0 < delta;
  pb_theta : 0 < theta <= 1;
  pb_lb : length lb = n;
  pb_ub : length ub = n;
  pb_box : box_in n lb ub x
}.

Section Real.
  Variables (O : StepOracles ER) (n : nat) (x g : rvec) (H : rmat) (D dv : rvec) (delta theta : R) (lb ub : list ER).
  Hypothesis P : problem n x g H D dv delta theta lb ub.
  Definition rA := tr_args (fv x) (fv g) (fm H) (fv D) (Fin delta) (fv dv) (Fin theta) lb ub.
  (** scaled gradient and scaled Hessian *)
  Definition rsg := rmul D g.
  Definition rB := rshess n D H (rmul (rabsv g) dv).

  Lemma rA_sg : a_sg rA = fv rsg.
  Proof. apply h_vmul. Qed.
  Lemma rA_gd : a_gd rA = fv (rmul (rabsv g) dv).
  Proof. unfold rA, tr_args. cbn [a_gd]. now rewrite h_vabs, h_vmul. Qed.
  Lemma rA_shess : shess_of (a_scaling rA) (a_hess rA) (a_gd rA) = fm rB.
  Proof. rewrite rA_gd. apply h_shess. apply (pb_H _ _ _ _ _ _ _ _ _ _ P). Qed.
  Lemma rsg_length : length rsg = n.
  Proof. destruct P. now apply rmul_length. Qed.
  Lemma rB_mat : is_mat n n rB.
  Proof. apply is_mat_rshess. Qed.
  Lemma rB_sym : symmetric rB.
  Proof. destruct P. now apply symmetric_rshess. Qed.
  Lemma zeros_rA : zeros_of rA = fv (rzeros n).
  Proof. unfold zeros_of. rewrite rA_sg, fv_length, rsg_length. apply h_vzeros. Qed.
  Lemma rsg_nonzero : nonzero g -> nonzero rsg.
  Proof.
    destruct P. intros (i & Hi). exists i. unfold rsg. rewrite (nth_rmul D g n) by auto.
    assert (Hl : (i < n)%nat) by (destruct (Nat.lt_ge_cases i n); auto; rewrite nth_overflow in Hi; [contradiction|lia]).
    assert (0 < nth i D 0). { rewrite Forall_forall in pb_pos0. apply pb_pos0, nth_In. lia. }
    apply Rmult_integral_contrapositive_currified; lra.
  Qed.

  (** a finite step computed from a finite point inside the box *)
  Lemma calc_real typ y sub s0 ss0 refl tr pd nw c r :
    length y = n -> box_in n lb ub y -> Forall (fun col => length col = n) sub -> sub <> [] -> length s0 = n -> length ss0 = n ->
    let st := new_step typ rA (fv y) (fm sub) s0 (fv ss0) refl tr pd nw in
    calculate O st = Ok c -> solved O st (fv r) ->
    (forall r', solved O st r' -> r' = fv r) ->
    let ss := rlincomb n r sub in
    stepped st (fv (rmul D ss)) (fv ss) (fv r) c
    /\ back n theta lb ub y (rmul D ss) (st_br c) (st_minbr c) (st_alpha c)
    /\ exists a, st_alpha c = Fin a /\ 0 <= a <= 1 /\ st_ss c = fv (rscale a ss)
         /\ st_qpval c = Fin (qmodel rB rsg (radd (rscale a ss) ss0)).
  Proof.
    intros Hy Hbox Hsub Hne Hs0 Hss0 st Hc _ Hu ss. destruct P.
    apply calculate_fields in Hc as (sc & ss' & s & Hsol & Ess & Es & Hst & Hq & _).
    apply Hu in Hsol. subst sc. subst st. cbn [new_step st_s0 st_subspace st_scaling st_ss0] in Ess, Es, Hq.
    rewrite Hs0, h_lincomb in Ess. fold ss in Ess. subst ss'.
    assert (Lss : length ss = n) by (apply rlincomb_length; exact Hsub).
    assert (Es' : s = fv (rmul D ss)).
    { rewrite Es. destruct sub; [congruence|]. cbn [fm map]. apply h_vmul. }
    clear Es. subst s. split; [exact Hst|]. pose proof Hst as Hst'. destruct Hst.
    cbn [new_step st_x st_lb st_ub st_theta st_shess st_sg] in *.
    assert (Bk : back n theta lb ub y (rmul D ss) (st_br c) (st_minbr c) (st_alpha c)).
    { rewrite sb_alpha, sb_minbr. cbn [a_theta rA tr_args]. apply back_real; auto; now apply rmul_length. }
    split; [exact Bk|]. destruct Bk as [_ (a & Ea & Ha & _) _]. exists a. split; [exact Ea|]. split; [exact Ha|].
    rewrite Ea, h_vscaler in sb_ss. split; [exact sb_ss|]. rewrite Hq, sb_ss, h_vadd.
    rewrite rA_shess, rA_sg. apply (h_quadratic n); [apply rB_mat|]. rlen.
  Qed.

  Lemma radd_zeros_r v : length v = n -> radd v (rzeros n) = v.
  Proof.
    intros Hv. assert (Z : length (rzeros n) = n) by apply repeat_length. apply rvec_ext; [rlen|].
    intros i. rewrite nth_radd by lia. rewrite nth_rzeros. lra.
  Qed.
  Lemma radd_zeros_l v : length v = n -> radd (rzeros n) v = v.
  Proof.
    intros Hv. assert (Z : length (rzeros n) = n) by apply repeat_length. apply rvec_ext; [rlen|].
    intros i. rewrite nth_radd by lia. rewrite nth_rzeros. lra.
  Qed.

  Theorem C35_gradient_candidate :
    exists c q, calculate O (gradient_step rA) = Ok c /\ st_qpval c = Fin q /\ q <= 0
      /\ (nonzero g -> box_strict n lb ub x -> q < 0).
  Proof.
    destruct (calculate O (gradient_step rA)) as [c|e] eqn:Hc.
    2:{ exfalso. unfold calculate in Hc. cbn [compute_step reduce_to_subspace gradient_step new_step set_st_chess set_st_cg st_subspace] in Hc. discriminate. }
    exists c. pose proof P as P'. destruct P'. pose proof rsg_length as Lsg.
    unfold gradient_step in Hc. rewrite rA_sg, h_normalize, zeros_rA in Hc.
    set (u := if Rltb 0 (rnorm rsg) then rscale (/ rnorm rsg) rsg else rsg) in *.
    assert (Lu : length u = n) by (unfold u; destruct (Rltb 0 (rnorm rsg)); rlen).
    change [fv u] with (fm [u]) in Hc. change (a_x rA) with (fv x) in Hc.
    assert (Z : length (rzeros n) = n) by apply repeat_length.
    assert (NZ : rnorm (rzeros n) = 0).
    { apply not_nonzero_norm. intros (i & Hi). rewrite nth_rzeros in Hi. lra. }
    assert (Cl : forall r, solve_1d_trust_region_subproblem (fm rB) (fv rsg) (fv u) (Fin delta) (fv (rzeros n)) = [Fin r] ->
        exists q, st_qpval c = Fin q /\ exists a, 0 <= a <= 1 /\ (box_strict n lb ub x -> 0 < a) /\ q = qmodel rB rsg (rscale (a * r) u)).
    { intros r Hr.
      destruct (calc_real "g" x [u] (fv (rzeros n)) (rzeros n) [] [] None None c [r]) as (_ & Bk & a & Ea & Ha & _ & Eq); auto.
      - discriminate.
      - now rewrite fv_length.
      - unfold solved. cbn [new_step st_subspace fm map st_shess st_sg st_delta st_ss0]. change (a_delta rA) with (Fin delta). rewrite rA_shess, rA_sg, Hr. auto.
      - intros r'. unfold solved. cbn [new_step st_subspace fm map st_shess st_sg st_delta st_ss0]. change (a_delta rA) with (Fin delta). rewrite rA_shess, rA_sg, Hr. auto.
      - exists (qmodel rB rsg (rscale (a * r) u)). split.
        + rewrite Eq. do 2 f_equal. cbn [rlincomb].
          rewrite radd_zeros_r by rlen. rewrite radd_zeros_r by rlen.
          apply rvec_ext; [rlen|]. intros i. rewrite !nth_rscale. ring.
        + exists a. split; [exact Ha|]. split; [|reflexivity].
          destruct Bk as [_ (a' & Ea' & _ & _ & K) _]. rewrite Ea in Ea'. injection Ea' as <-. exact K. }
    destruct (nonzero_dec rsg) as [Hnz|Hz].
    - (* non-zero scaled gradient *)
      pose proof (nonzero_norm _ Hnz) as Np.
      assert (Eu : u = rscale (/ rnorm rsg) rsg) by (unfold u; destruct (Rltb_spec 0 (rnorm rsg)); [auto|lra]).
      assert (Hu1 : rnorm u = 1) by (rewrite Eu; now apply rnorm_unit).
      assert (Hunz : nonzero u) by (apply nonzero_dot; rewrite <- rnorm_sq, Hu1; lra).
      destruct (C25_exact_line_minimizer n rB rsg u (rzeros n) delta) as (tau & Ht & Hf & Hopt); auto using rB_mat, rB_sym.
      { left. rewrite NZ. auto. }
      destruct (Cl _ Ht) as (q & Eq & a & Ha & Hpos & Evq). exists q. split; [reflexivity|]. split; [exact Eq|].
      assert (Ns : forall t, rnorm (rscale t u) = Rabs t).
      { intros t. unfold rnorm. rewrite rdot_rscale_l, rdot_rscale_r, <- rnorm_sq, Hu1.
        replace (t * (t * (1 * 1))) with (Rsqr t) by (unfold Rsqr; ring). apply sqrt_Rsqr_abs. }
      assert (Hopt' : forall t, Rabs t <= delta -> qmodel rB rsg (rscale tau u) <= qmodel rB rsg (rscale t u)).
      { intros t Hle. specialize (Hopt t). rewrite !radd_zeros_l in Hopt by rlen. apply Hopt. now rewrite Ns. }
      assert (Hf' : Rabs tau <= delta) by (rewrite radd_zeros_l in Hf by rlen; now rewrite Ns in Hf).
      set (b := rdot rsg u). set (k := / 2 * rform rB u u).
      assert (Q : forall t, qmodel rB rsg (rscale t u) = t * b + t * t * k).
      { intros t. unfold qmodel. rewrite rform_rscale_l, rform_rscale_r, rdot_rscale_r. unfold b, k. ring. }
      assert (Hb : 0 < b).
      { unfold b. rewrite Eu, rdot_rscale_r, <- rnorm_sq. replace (/ rnorm rsg * (rnorm rsg * rnorm rsg)) with (rnorm rsg) by (field; lra). auto. }
      assert (Hneg : tau * b + tau * tau * k < 0).
      { (* compare with a short step along -gradient *)
        set (e := Rmin delta (b / (2 * (Rabs k + 1)))).
        assert (Kp : 0 < Rabs k + 1) by (pose proof (Rabs_pos k); lra).
        assert (He : 0 < e). { unfold e. apply Rmin_glb_lt; auto. apply Rdiv_lt_0_compat; lra. }
        assert (He1 : e <= delta) by apply Rmin_l.
        assert (He2 : e * (Rabs k + 1) <= b / 2).
        { apply Rle_trans with (b / (2 * (Rabs k + 1)) * (Rabs k + 1)); [apply Rmult_le_compat_r; [lra|apply Rmin_r]|right; field; lra]. }
        specialize (Hopt' (- e)). rewrite Rabs_Ropp, Rabs_pos_eq in Hopt' by lra. specialize (Hopt' He1).
        rewrite !Q in Hopt'. apply Rle_lt_trans with (1 := Hopt').
        assert (k <= Rabs k) by apply Rle_abs.
        assert (e * k < b). { apply Rle_lt_trans with (e * (Rabs k + 1)); [apply Rmult_le_compat_l; lra|lra]. }
        replace (- e * b + - e * - e * k) with (e * (e * k - b)) by ring. nra. }
      assert (Htb : tau * b <= 0).
      { specialize (Hopt' (- tau)). rewrite Rabs_Ropp in Hopt'. specialize (Hopt' Hf'). rewrite !Q in Hopt'. lra. }
      assert (Hta : tau * b < 0).
      { destruct Htb as [|E]; auto. exfalso. assert (tau = 0) by nra. subst tau. lra. }
      assert (Hall : 0 < a -> q < 0).
      { intros Hap. rewrite Evq, Q. replace (a * tau * b + a * tau * (a * tau) * k) with (a * (tau * b + a * (tau * tau * k))) by ring.
        assert (tau * b + a * (tau * tau * k) < 0); [|nra].
        destruct (Rle_dec 0 (tau * tau * k)); nra. }
      split; [|auto].
      destruct (Req_dec a 0) as [->|Hne]; [|left; apply Hall; lra]. right. rewrite Evq, Q. ring.
    - (* zero scaled gradient *)
      assert (Hnn : ~ nonzero rsg) by (intros (i & Hi); now apply Hi).
      assert (Hun : ~ nonzero u).
      { intros (i & Hi). apply Hi. unfold u. destruct (Rltb 0 (rnorm rsg)); [rewrite nth_rscale, Hz; ring|apply Hz]. }
      destruct (Cl 0) as (q & Eq & a & Ha & _ & Evq).
      { apply C25_degenerate. now right. }
      exists q. split; [reflexivity|]. split; [exact Eq|].
      assert (q = 0). { rewrite Evq. unfold qmodel. rewrite Rmult_0_r, rform_rscale_l, rdot_rscale_r. ring. }
      split; [lra|]. intros Hg. exfalso. apply Hnn. now apply rsg_nonzero.
  Qed.
End Real.

(** whenever the main step was stepped back at a bound, the step chosen predicts a strict decrease of the model,
    provided no candidate value is NaN *)
Theorem C35_predicted_decrease : forall (O : StepOracles ER) n x g H D dv delta theta lb ub sd strat sp main,
  problem n x g H D dv delta theta lb ub -> nonzero g -> box_strict n lb ub x -> (1 < n)%nat ->
  let A := tr_args (fv x) (fv g) (fm H) (fv D) (Fin delta) (fv dv) (Fin theta) lb ub in
  trust_region O (fv x) (fv g) (fm H) (fv D) (Fin delta) (fv dv) (Fin theta) lb ub sd strat = Ok sp ->
  main_step O A sd = Ok main -> (st_alpha main <? n1)%num = true ->
  exists l, candidates O A sd strat = Ok l
    /\ ((forall c, In c l -> nisnan (st_qpval c) = false) -> (st_qpval sp <? n0)%num = true).
Proof.
  intros O n x g H D dv delta theta lb ub sd strat sp main P Hg Hb Hn A Htr Hm Ha.
  pose proof P as P'. destruct P'.
  destruct (C34_no_worse_than_gradient O (fv x) (fv g) (fm H) (fv D) (Fin delta) (fv dv) (Fin theta) lb ub sd strat sp main)
    as (gs & l & Egs & El & Hin & _ & Hmin); auto.
  { rewrite h_vmul, fv_length, (rmul_length D g n) by auto. exact Hn. }
  exists l. split; [exact El|]. intros Hnan. destruct (Hmin Hnan) as [Hle _].
  destruct (C35_gradient_candidate O n x g H D dv delta theta lb ub P) as (c & q & Ec & Eq & _ & Hq).
  unfold rA in Ec. rewrite Ec in Egs. injection Egs as <-. rewrite Eq in Hle. specialize (Hq Hg Hb).
  destruct (st_qpval sp) as [v| | |]; cbn [nleb ERNum er_leb] in Hle; try discriminate.
  - apply Rleb_true in Hle. cbn [nltb ERNum n0 nofZ er_ltb]. destruct (Rltb_spec v 0); [auto|lra].
  - reflexivity.
Qed.
