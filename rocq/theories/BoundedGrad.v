(** C63, part 1: how much the scaled-gradient candidate decreases the model at a point inside the bounds (exact arithmetic) *)
From Coq Require Import String ZArith List Bool Reals Lra Lia Psatz.
From Verif Require Import Num Subproblem Steps TrustRegion ER NumFacts RVec SubNd RShess Argmin Cand StepFacts Prop_Sub1d Prop_Pred Prop_Box Prop_Cand RealStep Prop_Grad Region Converge.
Import ListNotations.
Local Open Scope R_scope.
Local Open Scope list_scope.

(** the breakpoint of a coordinate that moves *)
Lemma breakpoint_up l b u s : inside l b u -> 0 < s ->
  breakpoint (Fin b) (Fin s) l u = match u with Fin u' => Fin ((u' - b) / s) | _ => PInf end.
Proof.
  intros [Hl Hu] Hs. unfold breakpoint. cbn [nabs ERNum nltb n0 nofZ er_abs er_ltb].
  rewrite (Rabs_pos_eq s) by lra. destruct (Rltb_spec 0 s) as [_|]; [|lra].
  assert (Is : 0 < / s) by now apply Rinv_0_lt_compat.
  destruct u as [u'| | |]; cbn in Hu; try discriminate; destruct l as [l'| | |]; cbn in Hl; try discriminate;
    cbn [nsub ERNum er_sub er_add er_opp ndiv]; rewrite ?er_div_fin by lra; cbn [er_div];
    repeat match goal with |- context [Rltb s 0] => destruct (Rltb_spec s 0); [lra|] end;
    try (apply Rleb_true in Hl); try (apply Rleb_true in Hu); unfold npmax2; cbn [nisnan ERNum er_isnan nltb er_ltb]; try reflexivity.
  destruct (Rltb_spec ((u' + - b) / s) ((l' + - b) / s)) as [C|_]; [|f_equal; unfold Rdiv; ring].
  exfalso. unfold Rdiv in C. apply Rmult_lt_reg_r in C; lra.
Qed.
Lemma breakpoint_down l b u s : inside l b u -> s < 0 ->
  breakpoint (Fin b) (Fin s) l u = match l with Fin l' => Fin ((b - l') / - s) | _ => PInf end.
Proof.
  intros [Hl Hu] Hs. unfold breakpoint. cbn [nabs ERNum nltb n0 nofZ er_abs er_ltb].
  rewrite (Rabs_left s) by lra. destruct (Rltb_spec 0 (- s)) as [_|]; [|lra].
  assert (Is : 0 < / - s) by (apply Rinv_0_lt_compat; lra).
  assert (Eq : forall a, (a + - b) / s = (b - a) / - s) by (intros a; field; lra).
  destruct u as [u'| | |]; cbn in Hu; try discriminate; destruct l as [l'| | |]; cbn in Hl; try discriminate;
    cbn [nsub ERNum er_sub er_add er_opp ndiv]; rewrite ?er_div_fin by lra; cbn [er_div];
    repeat match goal with |- context [Rltb s 0] => destruct (Rltb_spec s 0); [|lra] end;
    try (apply Rleb_true in Hl); try (apply Rleb_true in Hu); unfold npmax2; cbn [nisnan ERNum er_isnan nltb er_ltb]; rewrite ?Eq; try reflexivity.
  destruct (Rltb_spec ((b - u') / - s) ((b - l') / - s)) as [_|C]; [reflexivity|].
  f_equal. apply Rle_antisym; [|lra]. unfold Rdiv. apply Rmult_le_compat_r; lra.
Qed.

(** D_i^2 is the distance of x_i to the bound the negative gradient points at, whenever that bound is finite *)
Definition room (n : nat) (lb ub : list ER) (x g D : rvec) : Prop :=
  forall i, (i < n)%nat ->
    (nth i g 0 < 0 -> forall u, nth i ub NaN = Fin u -> nth i D 0 * nth i D 0 = u - nth i x 0)
    /\ (0 < nth i g 0 -> forall l, nth i lb NaN = Fin l -> nth i D 0 * nth i D 0 = nth i x 0 - l).

Lemma Rmin_mono a b c : b <= c -> Rmin a b <= Rmin a c.
Proof. intros H. apply Rmin_glb; [apply Rmin_l|eapply Rle_trans; [apply Rmin_r|exact H]]. Qed.

Section BGrad.
  Variables (O : StepOracles ER) (n : nat) (x g : rvec) (H : rmat) (D dv : rvec) (delta theta : R) (lb ub : list ER).
  Hypothesis P : problem n x g H D dv delta theta lb ub.
  Hypothesis RM : room n lb ub x g D.
  Local Notation A := (rA x g H D dv delta theta lb ub).
  Local Notation B := (rB n g H D dv).
  Local Notation sg := (rsg g D).

  (** breakpoints of a step along the scaled gradient: -tau D^2 g / N *)
  Lemma grad_breakpoint s (t : R) i m : length s = n -> 0 < t -> (forall j, (j < n)%nat -> nth j s 0 = - t * (nth j D 0 * nth j D 0) * nth j g 0) -> (i < n)%nat ->
    nth i (breakpoints (fv x) (fv s) lb ub) NaN = Fin m -> nth i g 0 <> 0 /\ m = / (t * Rabs (nth i g 0)).
  Proof using P RM.
    intros Ls Ht Hs Hi Em. pose proof P as P'. destruct P'.
    assert (Eb : nth i (breakpoints (fv x) (fv s) lb ub) NaN = breakpoint (Fin (nth i x 0)) (Fin (nth i s 0)) (nth i lb NaN) (nth i ub NaN)).
    { destruct (nth_breakpoints (fv x) (fv s) lb ub i) as [[E _]|[E _]].
      - rewrite E, !h_nth by lia. reflexivity.
      - rewrite (breakpoints_length n lb ub) with (k := n) in E; rewrite ?fv_length; auto. lia. }
    rewrite Eb in Em. clear Eb.
    assert (Dp : 0 < nth i D 0) by (rewrite Forall_forall in pb_pos; apply pb_pos, nth_In; lia).
    assert (D2 : 0 < nth i D 0 * nth i D 0) by nra.
    destruct (RM i Hi) as [Ru Rl]. specialize (pb_box i Hi). specialize (Hs i Hi).
    assert (T2 : 0 < t * (nth i D 0 * nth i D 0)) by nra.
    destruct (Rtotal_order (nth i g 0) 0) as [Hg|[Hg|Hg]].
    - assert (Sp : 0 < nth i s 0) by (rewrite Hs; nra).
      rewrite breakpoint_up in Em by auto. destruct (nth i ub NaN) as [u| | |]; try discriminate. injection Em as <-.
      split; [lra|]. rewrite <- (Ru Hg u eq_refl), Hs, (Rabs_left _ Hg). field. repeat split; lra.
    - rewrite Hs, Hg, Rmult_0_r, breakpoint_zero in Em. discriminate.
    - assert (Sn : nth i s 0 < 0) by (rewrite Hs; nra).
      rewrite breakpoint_down in Em by auto. destruct (nth i lb NaN) as [l| | |]; try discriminate. injection Em as <-.
      split; [lra|]. rewrite <- (Rl Hg l eq_refl), Hs, Rabs_pos_eq by lra. field. repeat split; lra.
  Qed.

  (** how far the minimizer of a parabola on an interval is, and how much a shortened step decreases it *)
  Lemma parabola (k N tau M' : R) : 0 < N -> 0 < M' -> 2 * k <= M' -> 0 < tau <= delta ->
    (forall t, Rabs t <= delta -> - tau * N + tau * tau * k <= t * N + t * t * k) ->
    Rmin delta (N / M') <= tau /\ forall a, 0 <= a <= 1 -> a * tau * (N / 2) <= - (- (a * tau) * N + (a * tau) * (a * tau) * k).
  Proof using.
    intros HN HM Hk [Ht0 Ht] Hopt. clear P RM.
    assert (Op : forall s, 0 <= s <= delta -> (tau - s) * (- N + k * (tau + s)) <= 0).
    { intros s Hs. specialize (Hopt (- s)). rewrite Rabs_Ropp, Rabs_pos_eq in Hopt by lra. specialize (Hopt (proj2 Hs)). lra. }
    split.
    - apply Rnot_lt_le. intros C. set (s := Rmin delta (N / M')) in *.
      assert (S1 : s <= delta) by apply Rmin_l. assert (S2 : s <= N / M') by apply Rmin_r.
      assert (S3 : s * M' <= N). { apply (Rmult_le_compat_r M') in S2; [|lra]. unfold Rdiv in S2. rewrite Rmult_assoc, Rinv_l in S2 by lra. lra. }
      specialize (Op s ltac:(lra)). assert (K : 0 <= - N + k * (tau + s)) by nra.
      assert (k * (tau + s) < N); [|lra]. destruct (Rle_dec k 0); nra.
    - intros a Ha. assert (K : 2 * k * tau <= N).
      { apply Rnot_lt_le. intros C. assert (Kp : 0 < k) by nra.
        assert (Q : N / (2 * k) * (2 * k) = N) by (field; lra). set (s := N / (2 * k)) in *.
        assert (0 < s). { unfold s. apply Rmult_lt_0_compat; [lra|apply Rinv_0_lt_compat; lra]. }
        assert (s < tau) by nra. specialize (Op s ltac:(lra)). nra. }
      assert (0 <= a * tau) by nra. assert (a * tau * (2 * k * (a * tau)) <= a * tau * N); [|lra].
      apply Rmult_le_compat_l; [lra|]. destruct (Rle_dec k 0); nra.
  Qed.

  (** the decrease the gradient candidate achieves after it was cut at the bounds *)
  Lemma gradient_decrease M2 : 0 < rnorm sg -> 0 < M2 -> rform B sg sg <= M2 * rdot sg sg ->
    (forall i, (i < n)%nat -> Rabs (nth i g 0) <= theta * M2) ->
    exists c q, calculate O (gradient_step A) = Ok c /\ st_qpval c = Fin q
      /\ rnorm sg / 2 * Rmin delta (rnorm sg / M2) <= - q.
  Proof using P RM.
    intros Np HM HB Hg. destruct (calculate O (gradient_step A)) as [c|e] eqn:Hc.
    2:{ exfalso. unfold calculate in Hc. cbn [compute_step reduce_to_subspace gradient_step new_step set_st_chess set_st_cg st_subspace] in Hc. discriminate. }
    exists c. pose proof P as P'. destruct P'. pose proof (rsg_length n x g H D dv delta theta lb ub P) as Lsg.
    unfold gradient_step in Hc. rewrite rA_sg, h_normalize, (zeros_rA n x g H D dv delta theta lb ub P) in Hc.
    destruct (Rltb_spec 0 (rnorm sg)); [|lra].
    set (u := rscale (/ rnorm sg) sg) in *.
    assert (Lu : length u = n) by (unfold u; rlen).
    assert (Hnz : nonzero sg) by (apply nonzero_dot; rewrite <- rnorm_sq; nra).
    change [fv u] with (fm [u]) in Hc. change (a_x A) with (fv x) in Hc.
    assert (Z : length (rzeros n) = n) by apply repeat_length.
    assert (NZ : rnorm (rzeros n) = 0).
    { apply not_nonzero_norm. intros (i & Hi). rewrite nth_rzeros in Hi. lra. }
    assert (Hu1 : rnorm u = 1) by (now apply rnorm_unit).
    assert (Hunz : nonzero u) by (apply nonzero_dot; rewrite <- rnorm_sq, Hu1; lra).
    destruct (C25_exact_line_minimizer n B sg u (rzeros n) delta) as (tau & Ht & Hf & Hopt); auto using rB_mat.
    { eapply rB_sym; eauto. }
    { left. rewrite NZ. auto. }
    destruct (calc_real O n x g H D dv delta theta lb ub P "g" x [u] (fv (rzeros n)) (rzeros n) [] [] None None c [tau]) as (Hst & Bk & a & Ea & Ha & _ & Eq); auto.
    { discriminate. }
    { now rewrite fv_length. }
    { unfold solved. cbn [new_step st_subspace fm map st_shess st_sg st_delta st_ss0]. change (a_delta A) with (Fin delta). rewrite (rA_shess n x g H D dv delta theta lb ub P), rA_sg, Ht. auto. }
    { intros r'. unfold solved. cbn [new_step st_subspace fm map st_shess st_sg st_delta st_ss0]. change (a_delta A) with (Fin delta). rewrite (rA_shess n x g H D dv delta theta lb ub P), rA_sg, Ht. auto. }
    assert (El : rlincomb n [tau] [u] = rscale tau u).
    { cbn [rlincomb]. change (repeat 0 n) with (rzeros n). apply rvec_ext; [rlen|]. intros i. rewrite nth_radd, nth_rzeros by rlen. ring. }
    rewrite El in Eq, Bk, Hst.
    set (N := rnorm sg) in *. set (k := / 2 * rform B u u).
    assert (Eb : rdot sg u = N).
    { unfold u. rewrite rdot_rscale_r, <- rnorm_sq. fold N. field. lra. }
    assert (Q : forall t, qmodel B sg (rscale t u) = t * N + t * t * k).
    { intros t. unfold qmodel. rewrite rform_rscale_l, rform_rscale_r, rdot_rscale_r, Eb. unfold k. ring. }
    assert (Ns : forall t, rnorm (rscale t u) = Rabs t) by (intros t; rewrite rnorm_rscale, Hu1; ring).
    assert (Hopt' : forall t, Rabs t <= delta -> tau * N + tau * tau * k <= t * N + t * t * k).
    { intros t Hle. specialize (Hopt t). rewrite !(radd_zeros_l n) in Hopt by rlen. rewrite <- !Q. apply Hopt. now rewrite Ns. }
    assert (Hf' : Rabs tau <= delta) by (rewrite (radd_zeros_l n) in Hf by rlen; now rewrite Ns in Hf).
    assert (Hk : 2 * k <= M2).
    { unfold k, u. rewrite rform_rscale_l, rform_rscale_r. rewrite <- rnorm_sq in HB. fold N in HB.
      replace (2 * (/ 2 * (/ N * (/ N * rform B sg sg)))) with (rform B sg sg * (/ N * / N)) by (field; lra).
      assert (0 < / N) by now apply Rinv_0_lt_compat.
      apply Rle_trans with (M2 * (N * N) * (/ N * / N)); [apply Rmult_le_compat_r; nra|right; field; lra]. }
    assert (Tn : tau < 0).
    { set (e := Rmin delta (N / M2)).
      assert (He : 0 < e). { unfold e. apply Rmin_glb_lt; auto. apply Rdiv_lt_0_compat; lra. }
      assert (He1 : e <= delta) by apply Rmin_l.
      assert (He2 : e * M2 <= N).
      { assert (e <= N / M2) by apply Rmin_r. apply (Rmult_le_compat_r M2) in H0; [|lra]. unfold Rdiv in H0. rewrite Rmult_assoc, Rinv_l in H0 by lra. lra. }
      pose proof (Hopt' (- e)) as K1. rewrite Rabs_Ropp, Rabs_pos_eq in K1 by lra. specialize (K1 He1).
      pose proof (Hopt' (- tau)) as K2. rewrite Rabs_Ropp in K2. specialize (K2 Hf').
      destruct (Rlt_dec tau 0) as [|C]; [auto|]. exfalso. assert (E0 : tau = 0) by nra. rewrite E0 in K1. assert (e * k < N) by nra. nra. }
    set (t := - tau) in *.
    assert (Td : 0 < t <= delta). { unfold t. rewrite Rabs_left in Hf' by lra. lra. }
    destruct (parabola k N t M2) as [P1 P2]; auto.
    { intros s Hs. specialize (Hopt' s Hs). unfold t. lra. }
    exists (qmodel B sg (rscale (a * tau) u)). split; [reflexivity|]. split.
    { rewrite Eq. do 2 f_equal. rewrite (radd_zeros_r n) by rlen. apply rvec_ext; [rlen|]. intros i. rewrite !nth_rscale. ring. }
    rewrite Q. replace (a * tau) with (- (a * t)) by (unfold t; ring).
    replace (- (a * t) * - (a * t)) with (a * t * (a * t)) by ring.
    eapply Rle_trans; [|apply P2; exact Ha].
    rewrite (Rmult_comm (N / 2)). apply Rmult_le_compat_r; [lra|].
    (* the cut step is still long *)
    assert (Nm : 0 < N / M2) by (apply Rdiv_lt_0_compat; lra).
    destruct Bk as [_ (a' & Ea' & _ & Hm & _) _]. rewrite Ea in Ea'. injection Ea' as <-.
    destruct Hm as [[_ ->]|(m & Em & Hm0 & Eam & i & Hi & Ei)]; [rewrite Rmult_1_l; exact P1|].
    assert (Lm : length (rmul D (rscale tau u)) = n) by (apply rmul_length; rlen).
    rewrite (sb_br _ _ _ _ _ Hst) in Ei. cbn [new_step st_x st_lb st_ub] in Ei. change (a_lb A) with lb in Ei. change (a_ub A) with ub in Ei.
    destruct (grad_breakpoint (rmul D (rscale tau u)) (t * / N) i m) as [Gn Gm]; auto.
    { apply Rmult_lt_0_compat; [lra|now apply Rinv_0_lt_compat]. }
    { intros j Hj. rewrite (nth_rmul _ _ n) by rlen. unfold u. rewrite !nth_rscale. unfold rsg. rewrite (nth_rmul _ _ n) by auto. unfold t. ring. }
    rewrite Eam. destruct (Rle_dec 1 (theta * m)) as [C|C].
    { rewrite (Rmin_left 1) by lra. rewrite Rmult_1_l. exact P1. }
    rewrite (Rmin_right 1) by lra. eapply Rle_trans; [apply Rmin_r|].
    assert (Gp : 0 < Rabs (nth i g 0)) by now apply Rabs_pos_lt.
    rewrite Gm. replace (theta * / (t * / N * Rabs (nth i g 0)) * t) with (theta * (N * / Rabs (nth i g 0))) by (field; repeat split; lra).
    unfold Rdiv. specialize (Hg i Hi).
    apply (Rmult_le_reg_r (M2 * Rabs (nth i g 0))); [nra|].
    replace (N * / M2 * (M2 * Rabs (nth i g 0))) with (N * Rabs (nth i g 0)) by (field; lra).
    replace (theta * (N * / Rabs (nth i g 0)) * (M2 * Rabs (nth i g 0))) with (N * (theta * M2)) by (field; lra).
    apply Rmult_le_compat_l; lra.
  Qed.
End BGrad.
