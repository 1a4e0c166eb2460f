(** C60: minimize on strictly convex quadratics (exact arithmetic, no bounds, the exact subspace solvers): every trial point is
    accepted, the radius never shrinks, and once the Newton step fits into the trust region the next trial point is the minimizer *)
From Coq Require Import String ZArith List Bool Reals Lra Lia Psatz.
From Verif Require Import Num Constants Subproblem HessApprox Steps TrustRegion Minimize
  ER NumFacts MonadFacts MinFacts Spec Run RunInv RunFrame RVec SubNd RShess Argmin Cand StepFacts Prop_Sub1d Prop_Pred Prop_Box
  Prop_Cand TRErr RealStep Prop_Grad Region Prop_CG Prop_Run Prop_Run2 Prop_Nudge Prop_BoxRun Prop_BoxRun2 HessDim Ortho Prop_SubNd Unbounded UnboundedFull Prop_TwoD Unbounded2D Converge Prop_Converge Prop_Converge2.
Import ListNotations.
Local Open Scope R_scope.
Local Open Scope list_scope.

(** the curvature of a matrix is bounded *)
Fixpoint row_norms (A : rmat) : R := match A with [] => 0 | r :: A => rnorm r + row_norms A end.
Lemma row_norms_nonneg A : 0 <= row_norms A.
Proof. induction A as [|r A IH]; cbn; [lra|]. pose proof (rnorm_nonneg r). lra. Qed.
Lemma dot_le a b : Rabs (rdot a b) <= rnorm a * rnorm b.
Proof.
  pose proof (rnorm_nonneg a). pose proof (rnorm_nonneg b).
  apply Rsqr_incr_0_var; [|now apply Rmult_le_pos]. rewrite <- Rsqr_abs. unfold Rsqr.
  replace (rnorm a * rnorm b * (rnorm a * rnorm b)) with ((rnorm a * rnorm a) * (rnorm b * rnorm b)) by ring. rewrite !rnorm_sq. apply cauchy_schwarz.
Qed.
Lemma rnorm_cons a z : Rabs a <= rnorm (a :: z) /\ rnorm z <= rnorm (a :: z).
Proof.
  unfold rnorm. cbn [rdot]. pose proof (rdot_self_nonneg z). split.
  - rewrite <- sqrt_Rsqr_abs. apply sqrt_le_1_alt. unfold Rsqr. lra.
  - apply sqrt_le_1_alt. nra.
Qed.
Lemma form_bound A z : forall z', Rabs (rdot z' (rmv A z)) <= row_norms A * rnorm z' * rnorm z.
Proof.
  pose proof (rnorm_nonneg z) as Nz.
  induction A as [|r A IH]; intros [|a z']; cbn [rmv map rdot row_norms]; rewrite ?Rabs_R0.
  - pose proof (rnorm_nonneg []). nra.
  - pose proof (rnorm_nonneg (a :: z')). lra.
  - pose proof (rnorm_nonneg []). pose proof (row_norms_nonneg A). pose proof (rnorm_nonneg r).
    apply Rmult_le_pos; [|exact Nz]. apply Rmult_le_pos; lra.
  - eapply Rle_trans; [apply Rabs_triang|]. rewrite Rabs_mult. specialize (IH z'). fold (rmv A z).
    pose proof (rnorm_cons a z') as [K1 K2]. pose proof (dot_le r z) as K3. set (N := rnorm (a :: z')) in *.
    pose proof (Rabs_pos a). pose proof (Rabs_pos (rdot r z)). pose proof (row_norms_nonneg A). pose proof (rnorm_nonneg r). pose proof (rnorm_nonneg z').
    assert (Rabs a * Rabs (rdot r z) <= N * (rnorm r * rnorm z)) by (apply Rmult_le_compat; lra).
    assert (row_norms A * rnorm z' * rnorm z <= row_norms A * N * rnorm z).
    { apply Rmult_le_compat_r; [exact Nz|]. apply Rmult_le_compat_l; lra. }
    lra.
Qed.
Lemma curvature_exists n A : exists M, 0 < M /\ curvature_le n M A.
Proof.
  exists (row_norms A + 1). pose proof (row_norms_nonneg A). split; [lra|]. intros z _. unfold rform.
  eapply Rle_trans; [apply form_bound|]. rewrite Rmult_assoc, rnorm_sq. pose proof (rdot_self_nonneg z). nra.
Qed.

(** all five tolerances are zero *)
Definition no_tolerance (C : cfg ER) : Prop :=
  op_fatol (c_opts C) = Fin 0 /\ op_frtol (c_opts C) = Fin 0 /\ op_xtol (c_opts C) = Fin 0 /\ op_gatol (c_opts C) = Fin 0 /\ op_grtol (c_opts C) = Fin 0.
Lemma conv_none (C : cfg ER) s sp f a v c : no_tolerance C -> o_fval s = Fin a -> fo_fval f = Fin v -> norm (fo_grad f) = Fin c -> 0 < c ->
  conv_result C s sp f = None.
Proof.
  intros (T1 & T2 & T3 & T4 & T5) Ea Ev Ec Hc. unfold conv_result. rewrite T1, T2, T3, T4, T5, Ea, Ev, Ec.
  cbn [nsub ERNum er_sub er_opp er_add nabs er_abs nadd nmul er_mul nltb er_ltb nleb er_leb].
  pose proof (Rabs_pos (v + - a)). destruct (Rltb_spec (Rabs (v + - a)) (0 + 0 * Rabs a)); [lra|]. rewrite Bool.andb_false_r.
  assert (X : (norm (vadd (st_ss sp) (st_ss0 sp)) <? Fin 0)%num = false).
  { unfold norm. generalize (dot (vadd (st_ss sp) (st_ss0 sp)) (vadd (st_ss sp) (st_ss0 sp))). intros t. destruct t as [t| | |]; try reflexivity. cbn.
    destruct (Rltb_spec t 0); [reflexivity|]. cbn. destruct (Rltb_spec (sqrt t) 0); [|reflexivity]. pose proof (sqrt_pos t). lra. }
  cbn [nltb ERNum] in X. rewrite X, Bool.andb_false_r. destruct (Rleb_spec c 0); [lra|]. destruct (Rleb_spec c (0 * Rabs a)); [lra|]. reflexivity.
Qed.
Lemma s3_fval {T} {N : Num T} (E : env T) (C : cfg T) s sp f : o_fval (it_s3 E C s sp f) = o_fval s.
Proof. reflexivity. Qed.
Lemma still_running (E : env ER) (C : cfg ER) f s f' s' a v g :
  iteration E C f s = (Ok f', s') -> no_tolerance C -> o_fval s = Fin a -> o_fval s' = Fin v -> v <> a -> o_grad s' = fv g -> 0 < rnorm g -> o_conv s' = false.
Proof.
  intros Hi HT Ea Ev Hne Eg Hg. apply iteration_ok in Hi as (sp & fn & K). rewrite (ik_conv _ _ _ _ _ _ _ _ K).
  rewrite (ik_fval _ _ _ _ _ _ _ _ K) in Ev. rewrite (ik_grad _ _ _ _ _ _ _ _ K) in Eg.
  destruct (it_acc E C s sp fn); [|rewrite Ea in Ev; injection Ev as Ev; congruence].
  rewrite (conv_none C _ sp fn a v (rnorm g)); auto. rewrite Eg. apply h_norm.
Qed.

(** *** the objective *)
Section Quad.
  Variables (n : nat) (A : rmat) (b : rvec) (c0 : R).
  Hypothesis MA : is_mat n n A.
  Hypothesis SA : symmetric A.
  Hypothesis PA : posdef n A.
  Hypothesis Lb : length b = n.
  Definition qF (x : rvec) : R := / 2 * rform A x x + rdot b x + c0.
  Definition qG (x : rvec) : rvec := radd (rmv A x) b.
  Lemma qG_len x : length x = n -> length (qG x) = n.
  Proof using MA Lb. intros Lx. unfold qG. assert (length (rmv A x) = n) by (rewrite rmv_length; apply MA). rlen. Qed.
  Lemma qF_step x w : length x = n -> length w = n -> qF (radd x w) = qF x + qmodel A (qG x) w.
  Proof using MA SA Lb.
    intros Lx Lw. unfold qF, qmodel, qG. assert (Lm : length (rmv A x) = n) by (rewrite rmv_length; apply MA).
    rewrite rform_radd_l, !rform_radd_r, rdot_radd_r, rdot_radd_l by rlen.
    assert (Ew : rdot (rmv A x) w = rform A x w) by (rewrite rdot_comm; fold (rform A w x); now apply (rform_sym n)).
    rewrite Ew, (rform_sym n A w x) by auto. lra.
  Qed.
  Lemma qG_step x w : length x = n -> length w = n -> qG (radd x w) = radd (qG x) (rmv A w).
  Proof using MA Lb.
    intros Lx Lw. unfold qG. rewrite rmv_radd by congruence.
    assert (Lm : length (rmv A x) = n) by (rewrite rmv_length; apply MA). assert (Lm2 : length (rmv A w) = n) by (rewrite rmv_length; apply MA).
    apply rvec_ext; [rlen|]. intros i. rewrite !nth_radd by rlen. ring.
  Qed.

  Variable xs : rvec.
  Hypothesis Lxs : length xs = n.
  Hypothesis Hxs : qG xs = rzeros n.
  (** the negative of the Newton step *)
  Definition gap (x : rvec) : rvec := rsub x xs.
  Lemma gap_len x : length x = n -> length (gap x) = n.
  Proof using Lxs. intros Lx. unfold gap. rlen. Qed.
  Lemma x_gap x : length x = n -> x = radd xs (gap x).
  Proof using Lxs. intros Lx. unfold gap. apply rvec_ext; [rlen|]. intros i. rewrite nth_radd, nth_rsub by rlen. ring. Qed.
  Lemma gap_newton x : length x = n -> rmv A (gap x) = qG x.
  Proof using MA Lb Lxs Hxs.
    intros Lx. rewrite (x_gap x Lx) at 2. pose proof (gap_len x Lx) as Lg. rewrite qG_step, Hxs by auto.
    assert (Lm : length (rmv A (gap x)) = n) by (rewrite rmv_length; apply MA). assert (Lz : length (rzeros n) = n) by apply rzeros_length.
    apply rvec_ext; [rlen|]. intros i. rewrite nth_radd, nth_rzeros by rlen. ring.
  Qed.
  Lemma model_gap x y : length x = n -> length y = n ->
    qmodel A (qG x) y = / 2 * rform A (radd y (gap x)) (radd y (gap x)) - / 2 * rform A (gap x) (gap x).
  Proof using MA SA Lb Lxs Hxs.
    intros Lx Ly. pose proof (gap_len x Lx) as Lg. unfold qmodel. rewrite <- (gap_newton x Lx), (rdot_comm _ y). fold (rform A y (gap x)).
    rewrite rform_radd_l, !rform_radd_r by rlen. rewrite (rform_sym n A (gap x) y) by auto. lra.
  Qed.
  Lemma qF_gap x : length x = n -> qF x = qF xs + / 2 * rform A (gap x) (gap x).
  Proof using MA SA Lb Lxs Hxs.
    intros Lx. pose proof (gap_len x Lx) as Lg. rewrite (x_gap x Lx) at 1. rewrite qF_step by auto. unfold qmodel. rewrite Hxs, rdot_zeros_l. ring.
  Qed.
  Lemma form_nonneg z : length z = n -> 0 <= rform A z z.
  Proof using PA.
    intros Lz. destruct (nonzero_dec z) as [Hz|Hz]; [left; now apply PA|]. rewrite (all0_zeros z Hz). unfold rform. rewrite rdot_zeros_l. lra.
  Qed.
  Lemma form_0 z : length z = n -> rform A z z <= 0 -> z = rzeros n.
  Proof using PA.
    intros Lz Hz. destruct (nonzero_dec z) as [Hn|Hn]; [pose proof (PA z Lz Hn); lra|]. rewrite <- Lz. now apply all0_zeros.
  Qed.
  Lemma qF_min x y : qG x = rzeros n -> length x = n -> length y = n -> qF x <= qF y.
  Proof using MA SA PA Lb Lxs.
    intros Hx Lx Ly.
    assert (Ey : y = radd x (rsub y x)) by (apply rvec_ext; [rlen|]; intros i; rewrite nth_radd, nth_rsub by rlen; ring).
    assert (Ld : length (rsub y x) = n) by rlen.
    rewrite Ey, qF_step by auto. unfold qmodel. rewrite Hx, rdot_zeros_l. pose proof (form_nonneg _ Ld). lra.
  Qed.
  Lemma gap_zero x : length x = n -> gap x = rzeros n -> x = xs.
  Proof using Lxs.
    intros Lx E. apply rvec_ext; [congruence|]. intros i. pose proof (f_equal (fun v => nth i v 0) E) as K. cbn beta in K.
    unfold gap in K. rewrite nth_rsub, nth_rzeros in K by rlen. lra.
  Qed.
  Lemma grad_gap x : length x = n -> nonzero (qG x) -> nonzero (gap x).
  Proof using MA Lb Lxs Hxs.
    intros Lx Hx. pose proof (gap_len x Lx) as Lg. destruct (nonzero_dec (gap x)) as [|Hz]; [auto|]. exfalso.
    pose proof (gap_zero x Lx) as K. rewrite <- Lg in K at 1. rewrite (K (all0_zeros _ Hz)), Hxs in Hx. destruct Hx as [i Hi]. rewrite nth_rzeros in Hi. lra.
  Qed.

  (** a step that is no worse than the points of the ball on the segments from itself and from the origin to the Newton point *)
  Definition good_step (x w : rvec) (delta : R) : Prop :=
    length w = n /\ forall a t, rnorm (radd (rscale a w) (rscale t (gap x))) <= delta ->
      qmodel A (qG x) w <= qmodel A (qG x) (radd (rscale a w) (rscale t (gap x))).
  Lemma good_inside x w delta : length x = n -> good_step x w delta -> rnorm (gap x) <= delta -> radd x w = xs.
  Proof using MA SA PA Lb Lxs Hxs.
    intros Lx [Lw Hw] Hd. pose proof (gap_len x Lx) as Lg.
    specialize (Hw 0 (-1)). set (y := radd (rscale 0 w) (rscale (-1) (gap x))) in *.
    assert (Ey : y = rscale (-1) (gap x)) by (unfold y; apply rvec_ext; [rlen|]; intros i; rewrite nth_radd, !nth_rscale by rlen; ring).
    rewrite Ey in Hw. rewrite rnorm_rscale in Hw. replace (Rabs (-1)) with 1 in Hw by (rewrite Rabs_left; lra).
    specialize (Hw ltac:(lra)). rewrite !model_gap in Hw by rlen.
    assert (Ez : radd (rscale (-1) (gap x)) (gap x) = rzeros n).
    { apply rvec_ext; [rewrite rzeros_length; rlen|]. intros i. rewrite nth_radd, nth_rscale, nth_rzeros by rlen. ring. }
    rewrite Ez in Hw. unfold rform at 3 in Hw. rewrite rdot_zeros_l in Hw.
    assert (Z : radd w (gap x) = rzeros n) by (apply form_0; [rlen|lra]).
    apply rvec_ext; [rlen; congruence|]. intros i. pose proof (f_equal (fun v => nth i v 0) Z) as K. cbn beta in K.
    unfold gap in K. rewrite nth_radd, nth_rsub, nth_rzeros in K by rlen. rewrite nth_radd by rlen. lra.
  Qed.
  Lemma good_decreases x w delta : length x = n -> 0 < delta -> nonzero (qG x) -> good_step x w delta -> qmodel A (qG x) w < 0.
  Proof using MA SA PA Lb Lxs Hxs.
    intros Lx Hd Hx [Lw Hw]. pose proof (gap_len x Lx) as Lg. pose proof (grad_gap x Lx Hx) as Hg.
    pose proof (PA _ Lg Hg) as Pg. assert (Ng : 0 < rnorm (gap x)) by (apply rnorm_pos, nonzero_dot, Hg).
    set (t := Rmin 1 (delta / rnorm (gap x))).
    assert (Ht : 0 < t <= 1). { unfold t. split; [apply Rmin_glb_lt; [lra|apply Rmult_lt_0_compat; [lra|now apply Rinv_0_lt_compat]]|apply Rmin_l]. }
    assert (Ht2 : t * rnorm (gap x) <= delta).
    { pose proof (Rmin_r 1 (delta / rnorm (gap x))) as K. fold t in K. apply (Rmult_le_compat_r (rnorm (gap x))) in K; [|lra].
      replace (delta / rnorm (gap x) * rnorm (gap x)) with delta in K by (field; lra). exact K. }
    specialize (Hw 0 (- t)). set (y := radd (rscale 0 w) (rscale (- t) (gap x))) in *.
    assert (Ey : y = rscale (- t) (gap x)) by (unfold y; apply rvec_ext; [rlen|]; intros i; rewrite nth_radd, !nth_rscale by rlen; ring).
    rewrite Ey in Hw. rewrite rnorm_rscale, Rabs_Ropp, Rabs_pos_eq in Hw by lra. specialize (Hw Ht2).
    rewrite (model_gap x (rscale (- t) (gap x))) in Hw by rlen.
    assert (Ez : radd (rscale (- t) (gap x)) (gap x) = rscale (1 - t) (gap x)).
    { apply rvec_ext; [rlen|]. intros i. rewrite nth_radd, !nth_rscale by rlen. ring. }
    rewrite Ez, rform_rscale_l, rform_rscale_r in Hw. assert (0 < rform A (gap x) (gap x) * (t * (2 - t))) by (apply Rmult_lt_0_compat; [lra|apply Rmult_lt_0_compat; lra]). lra.
  Qed.
  Lemma good_outside x w delta : length x = n -> good_step x w delta -> delta < rnorm (gap x) -> delta <= rnorm w.
  Proof using MA SA PA Lb Lxs Hxs.
    intros Lx [Lw Hw] Hd. pose proof (gap_len x Lx) as Lg. destruct (Rle_dec delta (rnorm w)) as [|Hn]; [auto|]. exfalso.
    assert (Hn' : rnorm w < delta) by lra. pose proof (rnorm_nonneg w) as Nw.
    set (t := (delta - rnorm w) / rnorm (gap x)).
    assert (Et : t * rnorm (gap x) = delta - rnorm w) by (unfold t; field; lra).
    assert (Ht : 0 < t < 1).
    { split; [unfold t; apply Rmult_lt_0_compat; [lra|apply Rinv_0_lt_compat; lra]|].
      apply (Rmult_lt_reg_r (rnorm (gap x))); lra. }
    specialize (Hw (1 - t) (- t)). set (y := radd (rscale (1 - t) w) (rscale (- t) (gap x))) in *.
    assert (Ny : rnorm y <= delta).
    { unfold y. eapply Rle_trans; [apply rnorm_triangle; rlen|]. rewrite !rnorm_rscale, Rabs_Ropp, !Rabs_pos_eq by lra. nra. }
    specialize (Hw Ny). assert (Ly : length y = n) by (unfold y; rlen). rewrite !model_gap in Hw by auto.
    assert (Ez : radd y (gap x) = rscale (1 - t) (radd w (gap x))).
    { unfold y. apply rvec_ext; [rlen|]. intros i. rewrite nth_rscale, !nth_radd, !nth_rscale by rlen. ring. }
    rewrite Ez, rform_rscale_l, rform_rscale_r in Hw.
    assert (Ls : length (radd w (gap x)) = n) by rlen. pose proof (form_nonneg _ Ls) as Fn.
    assert (Z : radd w (gap x) = rzeros n) by (apply form_0; [rlen|];
      destruct (Rle_dec (rform A (radd w (gap x)) (radd w (gap x))) 0) as [|Hp]; [auto|];
      assert (0 < rform A (radd w (gap x)) (radd w (gap x)) * (t * (2 - t))) by (apply Rmult_lt_0_compat; [lra|apply Rmult_lt_0_compat; lra]); lra).
    assert (Ew : w = rscale (-1) (gap x)).
    { apply rvec_ext; [rlen|]. intros i. pose proof (f_equal (fun v => nth i v 0) Z) as K. cbn beta in K.
      rewrite nth_radd, nth_rzeros in K by rlen. rewrite nth_rscale. lra. }
    rewrite Ew, rnorm_rscale in Hn'. replace (Rabs (-1)) with 1 in Hn' by (rewrite Rabs_left; lra). lra.
  Qed.
End Quad.

(** *** the optimizer on such an objective *)
Record quadratic_setting (E : env ER) (C : cfg ER) (n : nat) (A : rmat) (b : rvec) (c0 mu eta g1 g2 D0 tm : R) (ndim : nat) (st : opt ER) : Prop := mkQuad {
  qs_n : (1 <= n)%nat;
  (* no bounds *)
  qs_lb : c_lb C = no_lb n;
  qs_ub : c_ub C = no_ub n;
  (* the objective: value, gradient and Hessian of x'Ax/2 + b'x + c0 with A symmetric positive definite *)
  qs_mat : is_mat n n A;
  qs_sym : symmetric A;
  qs_pos : posdef n A;
  qs_b : length b = n;
  qs_obj : forall k x, length x = n ->
    e_obj E k (fv x) = RTuple [PScal (Fin (qF A b c0 x)); PVec (fv (qG A b x)); PMat n (fm A)];
  qs_args : c_nargout C = 3%nat /\ c_resfun C = false;
  qs_happ : o_happ st = None;
  qs_dim : (ndim <= 1)%nat;
  qs_nohist : op_history (c_opts C) = None;
  (* the exact solvers, with external linear algebra that is exact for A *)
  qs_solver : (op_subspace_dim (c_opts C) = "full"%string /\ ((2 <= n)%nat -> solvable (so_sub (e_la E)) n A))
              \/ (op_subspace_dim (c_opts C) = "2D"%string /\ exact_2d (e_la E) n A);
  (* documented ranges of the options *)
  qs_mu : op_mu (c_opts C) = Fin mu /\ 0 < mu;
  qs_eta : op_eta (c_opts C) = Fin eta /\ mu < eta <= 1;
  qs_g1 : op_gamma1 (c_opts C) = Fin g1 /\ 0 < g1 < 1;
  qs_g2 : op_gamma2 (c_opts C) = Fin g2 /\ 1 <= g2;
  qs_D0 : op_delta_init (c_opts C) = Fin D0 /\ 0 < D0;
  qs_tm : op_theta_max (c_opts C) = Fin tm /\ 0 < tm <= 1
}.

Section Run.
  Variables (E : env ER) (C : cfg ER) (n : nat) (A : rmat) (b : rvec) (c0 mu eta g1 g2 D0 tm : R).
  Variables (ndim : nat) (x0 : rvec) (sid : option string) (h0 : hess0_arg ER) (st : opt ER).
  Local Notation O := (c_opts C).
  Hypothesis QS : quadratic_setting E C n A b c0 mu eta g1 g2 D0 tm ndim st.
  Hypothesis Lx0 : length x0 = n.
  Local Notation F := (qF A b c0).
  Local Notation G := (qG A b).
  Local Notation head := (loop_head E C ndim (fv x0) sid h0 st).
  Local Notation at_point := (at_point n F G).

  Lemma quad_convergence : exists M, convergence_setting E C n F G M M mu eta g1 g2 D0 tm /\ second_order E C n F G M ndim st (fun _ => A).
  Proof using QS.
    destruct (curvature_exists n A) as (M & HM & HA). exists M.
    pose proof (qs_mat _ _ _ _ _ _ _ _ _ _ _ _ _ _ QS) as MA. pose proof (qs_sym _ _ _ _ _ _ _ _ _ _ _ _ _ _ QS) as SA.
    pose proof (qs_pos _ _ _ _ _ _ _ _ _ _ _ _ _ _ QS) as PA. pose proof (qs_b _ _ _ _ _ _ _ _ _ _ _ _ _ _ QS) as Lb.
    pose proof (qs_obj _ _ _ _ _ _ _ _ _ _ _ _ _ _ QS) as Ho. destruct (qs_args _ _ _ _ _ _ _ _ _ _ _ _ _ _ QS) as [Ha1 Ha2].
    split; constructor; try (now apply QS); auto.
    - intros k x Lx. unfold value_of, gradient_of. rewrite (Ho k x Lx), Ha1, Ha2. split; reflexivity.
    - intros x s Lx Ls. split; [now apply (qG_len n)|]. rewrite (qF_step n) by auto. unfold qmodel.
      replace (F x + (/ 2 * rform A s s + rdot (G x) s) - F x - rdot (G x) s) with (/ 2 * rform A s s) by ring.
      rewrite Rabs_mult, (Rabs_pos_eq (/ 2)) by lra. pose proof (HA s Ls). lra.
    - lra.
    - right. destruct (qs_solver _ _ _ _ _ _ _ _ _ _ _ _ _ _ QS) as [[K _]|[K _]]; auto.
    - destruct (qs_mu _ _ _ _ _ _ _ _ _ _ _ _ _ _ QS), (qs_eta _ _ _ _ _ _ _ _ _ _ _ _ _ _ QS) as [K1 K2]. split; [exact K1|lra].
    - intros x _. split; [exact MA|]. split; [exact SA|]. split; [exact HA|].
      destruct (qs_solver _ _ _ _ _ _ _ _ _ _ _ _ _ _ QS) as [[K1 K2]|[K1 K2]]; split; intros K; try congruence; split; auto.
  Qed.

  Variable xs : rvec.
  Hypothesis Lxs : length xs = n.
  Hypothesis Hxs : G xs = rzeros n.

  (** the proposed step *)
  Lemma quad_step s x delta : at_point s x -> o_hess s = fm A -> o_delta s = Fin delta -> 0 < delta -> nonzero (G x) ->
    exists sp w, proposes E C s sp /\ good_step n A b xs x w delta
      /\ trial_point s sp = fv (radd x w) /\ vadd (st_ss sp) (st_ss0 sp) = fv w /\ st_qpval sp = Fin (qmodel A (G x) w)
      /\ scaling_derivative C s = fv (rzeros n).
  Proof using QS Lxs Hxs Lx0.
    intros [Lx Ex Ef Eg] EB Ed Hd Hnz.
    pose proof (qs_mat _ _ _ _ _ _ _ _ _ _ _ _ _ _ QS) as MA. pose proof (qs_sym _ _ _ _ _ _ _ _ _ _ _ _ _ _ QS) as SA.
    pose proof (qs_pos _ _ _ _ _ _ _ _ _ _ _ _ _ _ QS) as PA. pose proof (qs_b _ _ _ _ _ _ _ _ _ _ _ _ _ _ QS) as Lb.
    pose proof (qs_lb _ _ _ _ _ _ _ _ _ _ _ _ _ _ QS) as Elb. pose proof (qs_ub _ _ _ _ _ _ _ _ _ _ _ _ _ _ QS) as Eub.
    pose proof (qs_n _ _ _ _ _ _ _ _ _ _ _ _ _ _ QS) as Hn.
    destruct (qs_tm _ _ _ _ _ _ _ _ _ _ _ _ _ _ QS) as [Etm Htm].
    assert (LG : length (G x) = n) by now apply (qG_len n).
    destruct (affine_free n x (G x) Lx LG) as (v & Lv & Ev & Fv).
    unfold proposes, trial_point, scaling_derivative. cbv zeta. rewrite Ex, Eg, EB, Ed, Elb, Eub, Ev.
    rewrite (scaling_free n) by auto. rewrite (dv_free n) by auto.
    destruct (theta_free tm v (G x)) as (t & Et & Ht); auto; try lia; try lra.
    rewrite Etm, Et. specialize (Ht (proj2 Htm)).
    pose proof (gap_len n xs Lxs x Lx) as Lg.
    pose proof (gap_newton n A b MA Lb xs Lxs Hxs x Lx) as Ng.
    assert (K : exists c w, trust_region (e_la E) (fv x) (fv (G x)) (fm A) (fv (rones n)) (Fin delta) (fv (rzeros n)) (Fin t) (no_lb n) (no_ub n)
                  (op_subspace_dim O) (op_stepback O) = Ok c
      /\ free_step n (G x) A c w /\ good_step n A b xs x w delta).
    { destruct (qs_solver _ _ _ _ _ _ _ _ _ _ _ _ _ _ QS) as [[Esd Hs]|[Esd Hs]]; rewrite Esd.
      - destruct (free_full (e_la E) n x (G x) A delta t) with (strat := op_stepback O) as (c & w & E1 & _ & E2 & E3 & E4 & E5); auto.
        exists c, w. split; [exact E1|]. split; [exact E2|]. pose proof (fs_len _ _ _ _ _ E2) as Lw. split; [exact Lw|]. intros a u Hu. apply E4; [rlen|exact Hu].
      - destruct (free_2d (e_la E) n x (G x) A delta t) with (strat := op_stepback O) as (c & w & E1 & _ & E2 & E3 & E4 & E5 & E6); auto.
        exists c, w. split; [exact E1|]. split; [exact E2|]. pose proof (fs_len _ _ _ _ _ E2) as Lw. split; [exact Lw|]. intros a u Hu. now apply E6. }
    destruct K as (c & w & E1 & [L1 S1 S2 S3 S4] & N1). exists c, w. split.
    { split; [exact E1|]. rewrite S1, S2, !fv_length, rzeros_length, Lx. auto. }
    split; [exact N1|]. split; [|auto].
    rewrite S1, S2, !h_vadd. f_equal. apply rvec_ext; rewrite ?radd_length; rewrite ?radd_length; rewrite ?rzeros_length; try congruence.
    intros i. rewrite !nth_radd; rewrite ?radd_length; rewrite ?rzeros_length; try congruence. rewrite nth_rzeros. ring.
  Qed.

  (** the state at a head of the loop *)
  Record quad_at (s : opt ER) (x : rvec) (delta : R) : Prop := mkQuadAt {
    qa_point : at_point s x; qa_hess : o_hess s = fm A; qa_happ : o_happ s = None; qa_delta : o_delta s = Fin delta }.

  Lemma quad_start f s : prepare E C ndim (fv x0) sid h0 st = (Ok f, s) -> quad_at s x0 D0 /\ o_iter s = 0%Z.
  Proof using QS Lx0.
    intros Hp. destruct quad_convergence as (M & CS & SO).
    destruct (start_point E C n F G M M mu eta g1 g2 D0 tm CS ndim x0 sid h0 st f s Lx0 Hp) as (H1 & H2 & H3).
    destruct (start_hess E C n F G M M mu eta g1 g2 D0 tm CS ndim x0 sid h0 st Lx0 (fun _ => A) SO f s Hp) as [H4 H5].
    split; [now constructor|exact H2].
  Qed.

  (** one pass: the trial point is accepted with decrease ratio 1 *)
  Lemma quad_pass f s s1 f' s' x delta : head f s -> check_continue E C s = (Ok true, s1) -> iteration E C f s1 = (Ok f', s') ->
    quad_at s x delta -> 0 < delta -> nonzero (G x) ->
    exists w, good_step n A b xs x w delta
      /\ quad_at s' (radd x w) (if Rltb (rnorm w) (delta * (9 / 10)) then delta else g2 * delta)
      /\ o_tr_ratio s' = Fin 1
      /\ o_iter s' = (o_iter s + 1)%Z
      /\ o_evals s' = o_evals s ++ [(fv (radd x w), e_obj E (length (o_evals s)) (fv (radd x w)))].
  Proof using QS Lxs Hxs Lx0.
    intros HL Hc Hi [Ha EB Ehp Ed] Hd Hnz. destruct quad_convergence as (M & CS & SO).
    pose proof (qs_mat _ _ _ _ _ _ _ _ _ _ _ _ _ _ QS) as MA. pose proof (qs_sym _ _ _ _ _ _ _ _ _ _ _ _ _ _ QS) as SA.
    pose proof (qs_pos _ _ _ _ _ _ _ _ _ _ _ _ _ _ QS) as PA. pose proof (qs_b _ _ _ _ _ _ _ _ _ _ _ _ _ _ QS) as Lb.
    destruct (C15_pass E C ndim (fv x0) sid h0 st f s s1 f' s' HL Hc Hi) as (sp & r & v & g & P1 & P2 & P3 & P4 & P5 & P6).
    destruct (C14_radius_rule E C ndim (fv x0) sid h0 st f s s1 f' s' HL Hc Hi) as (sp2 & r2 & v2 & g2' & Q1 & Q2 & Q3 & Q4 & Q5 & Q6).
    destruct (C15_hessian_after_acceptance E C ndim (fv x0) sid h0 st f s s1 f' s' HL Hc Hi) as (sp3 & r3 & v3 & g3 & pf & S1 & S2 & S3 & S4 & S5 & S6).
    assert (sp2 = sp) as -> by (destruct P1 as [P1 _], Q1 as [Q1 _]; rewrite P1 in Q1; now apply Ok_inj in Q1).
    assert (sp3 = sp) as -> by (destruct P1 as [P1 _], S1 as [S1 _]; rewrite P1 in S1; now apply Ok_inj in S1).
    assert (r2 = r) as -> by (rewrite P2 in Q2; apply app_inv_head in Q2; injection Q2; auto).
    assert (r3 = r) as -> by (rewrite P2 in S2; apply app_inv_head in S2; injection S2; auto).
    rewrite P4 in Q3, S4. injection Q3 as <-. injection S4 as <-. rewrite P5 in Q4, S5. injection Q4 as <-. injection S5 as <-.
    destruct (quad_step s x delta Ha EB Ed Hd Hnz) as (sp' & w & T0 & T1 & T2 & T3 & T4 & T5).
    assert (sp' = sp) as -> by (destruct P1 as [P1 _], T0 as [T0 _]; rewrite P1 in T0; now apply Ok_inj in T0).
    pose proof (ap_len _ _ _ _ _ Ha) as Lx. pose proof (proj1 T1) as Lw.
    assert (Lt : length (radd x w) = n) by rlen.
    pose proof (good_decreases n A b MA SA PA Lb xs Lxs Hxs x w delta Lx Hd Hnz T1) as Hq.
    pose proof (se_eval E C n F G M ndim st (fun _ => A) SO (length (o_evals s)) (radd x w) Lt) as Ev.
    rewrite P3, T2 in P4, P5, S3. rewrite Ev in S3. injection S3 as <-.
    unfold value_of in P4. unfold gradient_of in P5. rewrite Ev in P4, P5. cbn [pf_fval pf_grad] in P4, P5.
    injection P4 as <-. injection P5 as <-.
    destruct (ratio_free E C n F G M M mu eta g1 g2 D0 tm CS sp s x w A Ha Lw T3 T4 Hq T5) as [R1 R2].
    assert (Hr : rho F G x w A = 1) by (unfold rho; rewrite (qF_step n A b c0 MA SA Lb) by auto; field; lra).
    rewrite Hr in R1, R2. assert (Ra : Rltb 0 1 = true) by (destruct (Rltb_spec 0 1); [reflexivity|lra]). rewrite Ra in R2.
    rewrite Ehp in S6. rewrite R2 in P6, S6. destruct P6 as (A1 & A2 & A3 & A4). destruct (S6 eq_refl) as (nc & S7 & S8). cbn [pf_hess] in S7.
    exists w. split; [exact T1|]. split; [constructor|].
    - constructor; auto. rewrite A3, T2. apply (nudge_free C n); auto; apply QS.
    - now injection S7.
    - exact S8.
    - rewrite Q6, R1, Ed. rewrite (radius_free E C n F G M M mu eta g1 g2 D0 tm CS sp w _ 1 delta Hd T3). f_equal.
      destruct (qs_eta _ _ _ _ _ _ _ _ _ _ _ _ _ _ QS) as [_ He]. destruct (Rleb_spec eta 1); [|lra]. destruct (Rleb_spec 1 mu); [lra|].
      cbn [andb]. destruct (Rltb (rnorm w) (delta * (9 / 10))); reflexivity.
    - split; [rewrite Q5; exact R1|]. split.
      + apply check_continue_true in Hc as (-> & _). apply iteration_ok in Hi as (sp' & fn & K). apply (ik_iter _ _ _ _ _ _ _ _ K).
      + rewrite P2, P3, T2. reflexivity.
  Qed.

  Variable ga : R.
  Hypothesis Hga : op_gatol O = Fin ga /\ 0 <= ga.
  Hypothesis Hg0 : nonzero (G x0).
  (** after k enlargements the trust region contains the minimizer, from wherever the run can be *)
  Definition reach (k : nat) : Prop :=
    forall x, length x = n -> F x <= F x0 -> (k = 0%nat -> x = x0) -> rnorm (rsub x xs) <= D0 * g2 ^ k.

  (** at the minimizer, with the convergence flag set *)
  Definition arrived (s : opt ER) (x : rvec) : Prop := x = xs /\ o_conv s = true /\ (1 <= o_iter s)%Z.
  (** not yet *)
  Definition under_way (s : opt ER) (x : rvec) (delta : R) : Prop :=
    nonzero (G x) /\ F x <= F x0 /\ (0 <= o_iter s)%Z /\ D0 * g2 ^ Z.to_nat (o_iter s) <= delta /\ (no_tolerance C -> o_conv s = false)
    /\ (o_iter s = 0%Z -> x = x0 /\ o_conv s = false).

  Lemma quad_inv k f s : head f s -> exists x delta, quad_at s x delta /\ D0 <= delta /\ (arrived s x \/ under_way s x delta)
    /\ (reach k -> (o_iter s <= Z.of_nat k + 1)%Z /\ (under_way s x delta -> (o_iter s <= Z.of_nat k)%Z)).
  Proof using QS Lx0 Lxs Hxs Hga Hg0.
    pose proof (qs_mat _ _ _ _ _ _ _ _ _ _ _ _ _ _ QS) as MA. pose proof (qs_sym _ _ _ _ _ _ _ _ _ _ _ _ _ _ QS) as SA.
    pose proof (qs_pos _ _ _ _ _ _ _ _ _ _ _ _ _ _ QS) as PA. pose proof (qs_b _ _ _ _ _ _ _ _ _ _ _ _ _ _ QS) as Lb.
    destruct (qs_D0 _ _ _ _ _ _ _ _ _ _ _ _ _ _ QS) as [_ HD]. destruct (qs_g2 _ _ _ _ _ _ _ _ _ _ _ _ _ _ QS) as [_ Hg2].
    induction 1 as [f s Hp|f s s1 f' s' HL IH Hc Hi].
    - destruct (quad_start f s Hp) as [K1 K2]. exists x0, D0. split; [exact K1|]. split; [lra|].
      assert (Hcv : o_conv s = false).
      { apply prepare_inv in Hp. inversion Hp as [| | | | | |pf hess h' f1 D1 D2 D3 D4 D5 D6 D7 Ef Es0]. unfold pr_s4. destruct better; reflexivity. }
      rewrite K2. split; [|intros _; split; [lia|intros _; lia]]. right. unfold under_way. rewrite K2. cbn [Z.to_nat pow].
      split; [exact Hg0|]. split; [lra|]. split; [lia|]. split; [lra|]. split; auto.
    - destruct IH as (x & delta & Hq & Hd & [(_ & Hcv & _)|Hw] & Hr).
      { pose proof (check_continue_true _ _ _ _ Hc) as (_ & Hcv' & _). congruence. }
      pose proof Hw as (Hnz & HF & Hi0 & Hdel & Hcv & Hx0).
      destruct (quad_pass f s s1 f' s' x delta HL Hc Hi Hq ltac:(lra) Hnz) as (w & Hgs & Hq' & _ & Hit & _).
      pose proof (ap_len _ _ _ _ _ (qa_point _ _ _ Hq)) as Lx. pose proof (proj1 Hgs) as Lw. assert (Lt : length (radd x w) = n) by rlen.
      pose proof (good_decreases n A b MA SA PA Lb xs Lxs Hxs x w delta Lx ltac:(lra) Hnz Hgs) as Hdec.
      pose proof (qF_step n A b c0 MA SA Lb x w Lx Lw) as HFs.
      exists (radd x w). eexists. split; [exact Hq'|]. split.
      { destruct (Rltb _ _); [lra|]. nra. }
      destruct (nonzero_dec (G (radd x w))) as [Hn'|Hz].
      + assert (Hout : delta < rnorm (gap xs x)).
        { destruct (Rle_lt_dec (rnorm (gap xs x)) delta) as [Hle|]; [|auto]. exfalso.
          rewrite (good_inside n A b MA SA PA Lb xs Lxs Hxs x w delta Lx Hgs Hle), Hxs in Hn'. destruct Hn' as [i Hn']. rewrite nth_rzeros in Hn'. lra. }
        pose proof (good_outside n A b MA SA PA Lb xs Lxs Hxs x w delta Lx Hgs Hout) as Hlong.
        destruct (Rltb_spec (rnorm w) (delta * (9 / 10))) as [|_]; [lra|].
        assert (Hun : under_way s' (radd x w) (g2 * delta)).
        { split; [exact Hn'|]. split; [lra|]. split; [lia|]. split; [|split; [|lia]].
          - rewrite Hit. replace (Z.to_nat (o_iter s + 1)) with (S (Z.to_nat (o_iter s))) by lia. cbn [pow].
            replace (D0 * (g2 * g2 ^ Z.to_nat (o_iter s))) with (g2 * (D0 * g2 ^ Z.to_nat (o_iter s))) by ring. apply Rmult_le_compat_l; lra.
          - intros HT. apply check_continue_true in Hc as (-> & _).
            apply (still_running E C f _ f' s' (F x) (F (radd x w)) (G (radd x w)) Hi HT).
            + apply Hq.
            + apply Hq'.
            + lra.
            + apply Hq'.
            + apply rnorm_pos, nonzero_dot, Hn'. }
        split; [right; exact Hun|]. intros HR. destruct (Hr HR) as [_ Hr2]. specialize (Hr2 Hw).
        assert (Hlt : (o_iter s < Z.of_nat k)%Z).
        { destruct (Z_lt_le_dec (o_iter s) (Z.of_nat k)) as [|Hge]; [auto|]. exfalso.
          assert (Ek : o_iter s = Z.of_nat k) by lia. rewrite Ek, Nat2Z.id in Hdel.
          assert (K : rnorm (rsub x xs) <= D0 * g2 ^ k) by (apply HR; auto; intros ->; apply Hx0; lia). unfold gap in Hout. lra. }
        split; [lia|]. intros _. lia.
      + assert (Ez : G (radd x w) = rzeros n) by (rewrite <- (qG_len n A b MA Lb _ Lt); now apply all0_zeros).
        assert (Ex : radd x w = xs).
        { pose proof (gap_len n xs Lxs _ Lt) as Lg. apply (gap_zero n xs Lxs); [exact Lt|]. apply (form_0 n A PA); [exact Lg|]. unfold rform.
          rewrite (gap_newton n A b MA Lb xs Lxs Hxs _ Lt), Ez, rdot_zeros_r. lra. }
        assert (Hcv' : o_conv s' = true).
        { destruct (o_conv s') eqn:Ecv; [reflexivity|]. exfalso.
          apply check_continue_true in Hc as (-> & _).
          destruct (unconverged_gradient E C f _ f' s' Hi Ecv) as [Eg|Eg].
          - change (o_grad s' = o_grad s) in Eg. rewrite (ap_g _ _ _ _ _ (qa_point _ _ _ Hq')), (ap_g _ _ _ _ _ (qa_point _ _ _ Hq)) in Eg.
            apply fv_inj in Eg. rewrite <- Eg, Ez in Hnz. destruct Hnz as [i Hi']. rewrite nth_rzeros in Hi'. lra.
          - rewrite (ap_g _ _ _ _ _ (qa_point _ _ _ Hq')), h_norm, (proj1 Hga), Ez in Eg. cbn [nleb ERNum er_leb] in Eg.
            assert (Nz : rnorm (rzeros n) = 0) by (unfold rnorm; rewrite rdot_zeros_l; apply sqrt_0). rewrite Nz in Eg.
            destruct (Rleb_spec 0 ga); [discriminate|]. destruct Hga. lra. }
        split; [left; split; [exact Ex|]; split; [exact Hcv'|lia]|]. intros HR. destruct (Hr HR) as [_ Hr2]. specialize (Hr2 Hw).
        split; [lia|]. intros (Hn' & _). exfalso. rewrite Ez in Hn'. destruct Hn' as [i Hi']. rewrite nth_rzeros in Hi'. lra.
  Qed.

  (** every pass: the trial point is accepted with decrease ratio 1, and the radius does not shrink *)
  Theorem C60_every_pass f s s1 f' s' : head f s -> check_continue E C s = (Ok true, s1) -> iteration E C f s1 = (Ok f', s') ->
    exists x x' d d', deref s (o_x s) = fv x /\ o_fval s = Fin (F x) /\ o_delta s = Fin d
      /\ deref s' (o_x s') = fv x' /\ o_fval s' = Fin (F x') /\ o_grad s' = fv (G x') /\ o_delta s' = Fin d'
      /\ o_tr_ratio s' = Fin 1 /\ F x' < F x /\ D0 <= d <= d'
      /\ (rnorm (rsub x xs) <= d -> x' = xs)                       (* the Newton step if it fits *)
      /\ (d < rnorm (rsub x xs) -> d <= rnorm (rsub x' x) /\ d' = g2 * d) (* otherwise a full-length step, and the radius grows *).
  Proof using QS Lx0 Lxs Hxs Hga Hg0.
    intros HL Hc Hi. destruct (quad_inv 0 f s HL) as (x & delta & Hq & Hd & [(_ & Hcv & _)|Hw] & _).
    { pose proof (check_continue_true _ _ _ _ Hc) as (_ & Hcv' & _). congruence. }
    pose proof (qs_mat _ _ _ _ _ _ _ _ _ _ _ _ _ _ QS) as MA. pose proof (qs_sym _ _ _ _ _ _ _ _ _ _ _ _ _ _ QS) as SA.
    pose proof (qs_pos _ _ _ _ _ _ _ _ _ _ _ _ _ _ QS) as PA. pose proof (qs_b _ _ _ _ _ _ _ _ _ _ _ _ _ _ QS) as Lb.
    destruct (qs_D0 _ _ _ _ _ _ _ _ _ _ _ _ _ _ QS) as [_ HD]. destruct (qs_g2 _ _ _ _ _ _ _ _ _ _ _ _ _ _ QS) as [_ Hg2].
    destruct Hw as (Hnz & _).
    destruct (quad_pass f s s1 f' s' x delta HL Hc Hi Hq ltac:(lra) Hnz) as (w & Hgs & Hq' & Hra & _ & _).
    pose proof (ap_len _ _ _ _ _ (qa_point _ _ _ Hq)) as Lx. pose proof (proj1 Hgs) as Lw.
    pose proof (good_decreases n A b MA SA PA Lb xs Lxs Hxs x w delta Lx ltac:(lra) Hnz Hgs) as Hdec.
    pose proof (qF_step n A b c0 MA SA Lb x w Lx Lw) as HFs.
    exists x, (radd x w), delta, (if Rltb (rnorm w) (delta * (9 / 10)) then delta else g2 * delta).
    split; [apply Hq|]. split; [apply Hq|]. split; [apply Hq|]. split; [apply Hq'|]. split; [apply Hq'|]. split; [apply Hq'|]. split; [apply Hq'|].
    split; [exact Hra|]. split; [lra|]. split; [split; [lra|]; destruct (Rltb _ _); nra|]. split.
    - intros Hle. now apply (good_inside n A b MA SA PA Lb xs Lxs Hxs x w delta).
    - intros Hout. pose proof (good_outside n A b MA SA PA Lb xs Lxs Hxs x w delta Lx Hgs Hout) as Hlong.
      assert (Ew : rsub (radd x w) x = w) by (apply rvec_ext; [rlen|]; intros i; rewrite nth_rsub, nth_radd by rlen; ring).
      rewrite Ew. split; [exact Hlong|]. destruct (Rltb_spec (rnorm w) (delta * (9 / 10))) as [|_]; [lra|reflexivity].
  Qed.

  (** *** minimize returns *)
  Lemma quad_iteration_total f s s1 : head f s -> check_continue E C s = (Ok true, s1) -> exists f' s', iteration E C f s1 = (Ok f', s').
  Proof using QS Lx0 Lxs Hxs Hga Hg0.
    intros HL Hc. destruct (quad_inv 0 f s HL) as (x & delta & Hq & Hd & [(_ & Hcv & _)|Hw] & _).
    { pose proof (check_continue_true _ _ _ _ Hc) as (_ & Hcv' & _). congruence. }
    destruct (qs_D0 _ _ _ _ _ _ _ _ _ _ _ _ _ _ QS) as [_ HD]. destruct Hw as (Hnz & _).
    destruct Hq as [Ha EB Ehp Ed].
    destruct (quad_step s x delta Ha EB Ed ltac:(lra) Hnz) as (sp & w & T0 & T1 & T2 & _).
    destruct quad_convergence as (M & CS & SO). pose proof (proj1 T1) as Lw.
    pose proof (ap_len _ _ _ _ _ Ha) as Lx. assert (Lt : length (radd x w) = n) by rlen.
    pose proof (check_continue_true _ _ _ _ Hc) as (Es1 & _).
    assert (Itr : it_tr E C s1 = Ok sp) by (rewrite Es1; now apply proposes_it_tr).
    assert (Itl : it_trial s1 sp = fv (radd x w)) by (rewrite Es1; exact T2).
    assert (Lxx : length (deref s1 (o_x s1)) = n) by (rewrite Es1; change (length (deref s (o_x s)) = n); rewrite (ap_x _ _ _ _ _ Ha), fv_length; apply Ha).
    assert (Cur : all_finite (o_fval s1) (o_grad s1) (Some (o_hess s1)) = true).
    { rewrite Es1. change (all_finite (o_fval s) (o_grad s) (Some (o_hess s)) = true).
      rewrite (ap_f _ _ _ _ _ Ha), (ap_g _ _ _ _ _ Ha), EB. unfold all_finite. rewrite vfinite_fv, mfinite_fm. reflexivity. }
    assert (Hp1 : o_happ s1 = None) by (rewrite Es1; exact Ehp).
    clear Hc Ha EB Ehp Ed T0 T2 HL Es1.
    exact (iteration_total_aux E C n F G M M mu eta g1 g2 D0 tm CS ndim st (fun _ => A) SO f s1 sp (radd x w) Itr Itl Lt Lxx Cur Hp1).
  Qed.
  Lemma quad_loop_total k : reach k -> forall m f s, head f s -> (k + 1 - Z.to_nat (o_iter s) < m)%nat -> exists s', loop E C m f s = (Ok tt, s').
  Proof using QS Lx0 Lxs Hxs Hga Hg0.
    intros HR. induction m as [|m IH]; intros f s HL Hm; [lia|].
    cbn [loop]. destruct (check_continue E C s) as [[c|e] s1] eqn:Ec.
    2:{ rewrite check_continue_run in Ec.
        destruct o_conv; [discriminate|]. destruct (_ <=? _)%Z; [discriminate|].
        cbv zeta in Ec. destruct out_of_time; [discriminate|]. destruct (_ <? _)%num; discriminate. }
    rewrite (bind_ok _ _ _ _ _ Ec). destruct c; [|eexists; reflexivity].
    destruct (quad_iteration_total f s s1 HL Ec) as (f' & s' & Hi). rewrite (bind_ok _ _ _ _ _ Hi).
    assert (HL' : head f' s') by (eapply lh_next; eauto).
    apply IH; auto. destruct (quad_inv k f' s' HL') as (x & d & _ & _ & _ & Hk). destruct (Hk HR) as [Hk1 _].
    pose proof (loop_head_frame E C _ _ _ _ _ _ _ HL) as [_ Hn].
    apply check_continue_true in Ec as (-> & _). apply iteration_ok in Hi as (sp' & fn & Ki).
    rewrite (ik_iter _ _ _ _ _ _ _ _ Ki) in Hk1 |- *. change (o_iter (set_o_clk (S (o_clk s)) s)) with (o_iter s) in *. lia.
  Qed.
  Lemma quad_returns k fuel : reach k -> (k + 1 < fuel)%nat -> exists fval x g h st', minimize E C fuel ndim (fv x0) sid h0 st = (Ok (fval, x, g, h), st').
  Proof using QS Lx0 Lxs Hxs Hga Hg0.
    intros HR Hf. destruct quad_convergence as (M & CS & SO).
    destruct (start_ok E C n F G M M mu eta g1 g2 D0 tm CS ndim x0 sid h0 st Lx0 (fun _ => A) SO) as (f & s & Ep).
    pose proof (prepare_frame E C _ _ _ _ _ _ _ Ep) as [_ Hi].
    destruct (quad_loop_total k HR fuel f s) as (s' & El); [now apply lh_start|rewrite Hi; cbn; lia|].
    unfold minimize. rewrite (bind_ok _ _ _ _ _ Ep), (bind_ok _ _ _ _ _ El).
    assert (Ew : write_history C s' = (Ok tt, s')) by (unfold write_history, bind, get; rewrite (se_nohist _ _ _ _ _ _ _ _ _ SO); reflexivity).
    rewrite (bind_ok _ _ _ _ _ Ew). rewrite (bind_ok get _ s' s' s' eq_refl). do 5 eexists. reflexivity.
  Qed.

  Lemma last_is_xs f s : head f s -> o_conv s = true -> deref s (o_x s) = fv xs -> exists evals r, o_evals s = evals ++ [(fv xs, r)].
  Proof using QS Lx0 Lxs Hxs Hga Hg0.
    intros HL Hcv Hx. inversion HL as [f1 s1 Hpr|f1 s1 s2 f2 s3 HL1 Hc Hi]; subst f1 || subst f2.
    - subst s1. apply prepare_inv in Hpr. inversion Hpr as [| | | | | |pf hess h' f1 D1 D2 D3 D4 D5 D6 D7 Ef Es0]. rewrite <- Es0 in Hcv. discriminate Hcv.
    - subst s3. destruct (quad_inv 0 f1 s1 HL1) as (x & delta & Hq & Hd & [(_ & Hcv1 & _)|Hw] & _).
      { pose proof (check_continue_true _ _ _ _ Hc) as (_ & Hcv' & _). congruence. }
      destruct (qs_D0 _ _ _ _ _ _ _ _ _ _ _ _ _ _ QS) as [_ HD]. destruct Hw as (Hnz & _).
      destruct (quad_pass f1 s1 s2 f s x delta HL1 Hc Hi Hq ltac:(lra) Hnz) as (w & _ & Hq' & _ & _ & Hev).
      rewrite (ap_x _ _ _ _ _ (qa_point _ _ _ Hq')) in Hx. rewrite Hx in Hev. eauto.
  Qed.

  Lemma quad_final k fuel : reach k -> (k + 1 < fuel)%nat -> op_maxtime O = PInf -> (Z.of_nat k < op_maxiter O)%Z -> / 2 ^ 52 <= D0 ->
    exists x st', minimize E C fuel ndim (fv x0) sid h0 st = (Ok (Fin (F x), o_x st', fv (G x), fm A), st')
      /\ deref st' (o_x st') = fv x /\ length x = n /\ o_conv st' = true /\ (1 <= o_iter st' <= Z.of_nat k + 1)%Z
      /\ In (o_flag st') [FTOL; XF_XTOL; GTOL]
      /\ ((x = xs /\ exists evals r, o_evals st' = evals ++ [(fv xs, r)]) \/ (~ no_tolerance C /\ (o_iter st' <= Z.of_nat k)%Z)).
  Proof using QS Lx0 Lxs Hxs Hga Hg0.
    intros HR Hfu Hmt Hmi Hsp. destruct (quad_returns k fuel HR Hfu) as (fval & xr & g & h & st' & Hm).
    pose proof (C07_exit_flag E C fuel ndim (fv x0) sid h0 st _ _ _ _ _ Hm) as SR.
    pose proof Hm as Hm2. apply minimize_ok_inv in Hm2 as (f & s & s1 & HL & Hc & Hw & V1 & V2 & V3 & V4).
    assert (Es : st' = s1).
    { apply write_history_inv in Hw as [(_ & _ & ->)|[(file & Hf & _)|(file & Hf & _)]]; [reflexivity|rewrite (qs_nohist _ _ _ _ _ _ _ _ _ _ _ _ _ _ QS) in Hf; discriminate..]. }
    subst st'. clear Hw.
    destruct (quad_inv k f s HL) as (x & delta & Hq & Hd & Hcase & Hk). destruct (Hk HR) as [Hk1 Hk2].
    assert (Hcv : o_conv s = true).
    { destruct (o_conv s) eqn:Ecv; [reflexivity|]. exfalso. destruct Hcase as [(_ & K & _)|Hun]; [congruence|]. specialize (Hk2 Hun).
      rewrite check_continue_run, Ecv in Hc. destruct (Z.leb_spec (op_maxiter O) (o_iter s)) as [|_]; [lia|]. cbv zeta in Hc.
      assert (Ot : out_of_time E C s = false).
      { unfold out_of_time. rewrite Hmt. generalize (elapsed E s) as t1. intros t1.
        match goal with |- (_ <? ?q)%num = _ => generalize q end. intros t2. destruct t1, t2; reflexivity. }
      rewrite Ot, (qa_delta _ _ _ Hq), spacing_fin in Hc. cbn [nltb ERNum er_ltb] in Hc.
      assert (E52 : IZR (2 ^ 52) = 2 ^ 52) by (rewrite (pow_IZR 2 52); f_equal). rewrite E52 in Hc.
      destruct (Rltb_spec delta (/ 2 ^ 52)); [lra|]. apply pair_equal_spec in Hc as [Hc _]. discriminate Hc. }
    assert (s1 = s) as ->.
    { rewrite check_continue_run, Hcv in Hc. apply pair_equal_spec in Hc as [_ Hc]. now symmetry. }
    exists x, s. destruct Hq as [[Lx Ex Ef Eg] EB _ _].
    split; [rewrite Hm, V1, V2, V3, V4, Ef, Eg, EB; reflexivity|].
    split; [exact Ex|]. split; [exact Lx|]. split; [exact Hcv|]. split; [|split].
    - split; [|exact Hk1]. destruct Hcase as [(_ & _ & K)|(_ & _ & K1 & _ & _ & K2)]; [exact K|].
      destruct (Z.eq_dec (o_iter s) 0) as [K3|]; [|lia]. destruct (K2 K3). congruence.
    - destruct (o_flag s) eqn:Efl; cbn [stop_reason] in SR; try contradiction; cbn; try tauto; cbv zeta in SR; destruct SR as [SR _]; congruence.
    - destruct Hcase as [(K & _)|Hun].
      + left. split; [exact K|]. apply (last_is_xs f s); auto. now rewrite Ex, K.
      + right. split; [|now apply Hk2]. intros HT. destruct Hun as (_ & _ & _ & _ & K & _). rewrite (K HT) in Hcv. discriminate.
  Qed.

  (** all tolerances zero: minimize returns the minimizer, value and gradient included, after at most k + 1 iterations *)
  Theorem C60_minimizer_found k fuel :
    no_tolerance C -> reach k -> op_maxtime O = PInf -> (Z.of_nat k < op_maxiter O)%Z -> / 2 ^ 52 <= D0 -> (k + 1 < fuel)%nat ->
    exists st', minimize E C fuel ndim (fv x0) sid h0 st = (Ok (Fin (F xs), o_x st', fv (rzeros n), fm A), st')
      /\ deref st' (o_x st') = fv xs /\ o_flag st' = GTOL /\ (1 <= o_iter st' <= Z.of_nat k + 1)%Z
      /\ (exists evals r, o_evals st' = evals ++ [(fv xs, r)])
      /\ (forall y, length y = n -> F xs <= F y).
  Proof using QS Lx0 Lxs Hxs Hga Hg0.
    intros HT HR Hmt Hmi Hsp Hfu. destruct (quad_final k fuel HR Hfu Hmt Hmi Hsp) as (x & st' & K1 & K2 & K3 & K4 & K5 & K6 & K7).
    destruct K7 as [[-> K7]|[K7 _]]; [|contradiction]. exists st'. rewrite Hxs in K1. split; [exact K1|]. split; [exact K2|].
    split; [|split; [exact K5|split; [exact K7|]]].
    2:{ intros y Ly. apply (qF_min n A b c0) with (xs := xs); auto; apply QS. }
    pose proof (C07_exit_flag E C fuel ndim (fv x0) sid h0 st _ _ _ _ _ K1) as SR.
    pose proof (fun s f HL => iv_fin _ _ _ _ _ _ _ (loop_head_Inv E C ndim (fv x0) sid h0 st f s HL)) as If.
    destruct HT as (T1 & T2 & T3 & T4 & T5). cbn in K6. destruct K6 as [K6|[K6|[K6|[]]]]; [| |now symmetry]; exfalso; rewrite <- K6 in SR; cbn [stop_reason] in SR.
    - destruct SR as (_ & f3 & s3 & sp & pp & r & v & gg & ev & B1 & B2 & B3 & B4 & B5 & B6 & B7 & B8 & _).
      destruct K7 as (evals & r1 & K7). rewrite K7 in B4. apply app_inj_tail in B4 as [-> B4]. injection B4 as <- <-.
      destruct (If s3 f3 B1) as [If1 _]. destruct (o_fval s3) as [fs| | |]; try discriminate If1.
      rewrite T1, T2 in B8. destruct v as [v| | |]; cbn [nabs ERNum er_abs nmul er_mul nsub nadd er_sub er_opp er_add nltb er_ltb] in B8; try discriminate.
      destruct (Rltb_spec (Rabs (v + - fs)) (0 + 0 * Rabs fs)) as [K|K]; [|discriminate]. pose proof (Rabs_pos (v + - fs)). lra.
    - destruct SR as (_ & f3 & s3 & sp & pp & r & v & gg & ev & B1 & B2 & B3 & B4 & B5 & B6 & B7 & B8 & _).
      rewrite T3 in B8. unfold scaled_length, norm in B8. revert B8. generalize (dot (vadd (st_ss sp) (st_ss0 sp)) (vadd (st_ss sp) (st_ss0 sp))).
      intros t. destruct t as [t| | |]; cbn; try discriminate.
      destruct (Rltb_spec t 0); [discriminate|]. cbn. destruct (Rltb_spec (sqrt t) 0); [|discriminate]. pose proof (sqrt_pos t). lra.
  Qed.

  (** the Newton step from the start fits into the initial trust region: whatever the tolerances (gatol not negative), minimize
      evaluates the start and the minimizer, and nothing else *)
  Theorem C60_one_iteration fuel :
    rnorm (rsub x0 xs) <= D0 -> op_maxtime O = PInf -> (0 < op_maxiter O)%Z -> / 2 ^ 52 <= D0 -> (1 < fuel)%nat ->
    exists st' r0 r1, minimize E C fuel ndim (fv x0) sid h0 st = (Ok (Fin (F xs), o_x st', fv (rzeros n), fm A), st')
      /\ deref st' (o_x st') = fv xs /\ In (o_flag st') [FTOL; GTOL] /\ o_iter st' = 1%Z
      /\ o_evals st' = o_evals st ++ [(fv x0, r0); (fv xs, r1)]
      /\ (forall y, length y = n -> F xs <= F y).
  Proof using QS Lx0 Lxs Hxs Hga Hg0.
    intros Hd Hmt Hmi Hsp Hfu.
    assert (HR : reach 0) by (intros x Lx _ Ex; rewrite (Ex eq_refl); cbn [pow]; lra).
    destruct (quad_final 0 fuel HR Hfu Hmt Hmi Hsp) as (x & st' & K1 & K2 & K3 & K4 & K5 & K6 & K7).
    destruct K7 as [[-> (evals & r1 & K7)]|[_ K7]]; [|cbn in K7, K5; lia]. cbn in K5. assert (Hit : o_iter st' = 1%Z) by lia. rewrite Hxs in K1.
    destruct (C06_evaluations_counted E C fuel ndim (fv x0) sid h0 st _ _ _ _ _ K1) as (new & N1 & N2).
    destruct (C08_never_worse_than_start E C fuel ndim (fv x0) sid h0 st _ _ _ _ _ K1) as (r0 & v0 & rest & R1 & _).
    assert (Hx : nudge C (fv x0) = fv x0) by (apply (nudge_free C n); auto; apply QS). rewrite Hx in R1.
    assert (En : new = (fv x0, r0) :: rest) by (rewrite N1 in R1; now apply app_inv_head in R1).
    subst new. cbn [length] in N2. rewrite Hit in N2. destruct rest as [|p1 [|p2 rest]]; cbn [length] in N2; try lia.
    assert (Ep : p1 = (fv xs, r1)).
    { rewrite R1 in K7. change (o_evals st ++ [(fv x0, r0); p1]) with (o_evals st ++ [(fv x0, r0)] ++ [p1]) in K7. rewrite app_assoc in K7.
      apply app_inj_tail in K7 as [_ K7]. exact K7. }
    subst p1. exists st', r0, r1. split; [exact K1|]. split; [exact K2|]. split; [|split; [exact Hit|split; [exact R1|]]].
    2:{ intros y Ly. apply (qF_min n A b c0) with (xs := xs); auto; apply QS. }
    cbn in K6 |- *. destruct K6 as [K6|[K6|[K6|[]]]]; auto. exfalso.
    pose proof (C07_exit_flag E C fuel ndim (fv x0) sid h0 st _ _ _ _ _ K1) as SR. rewrite <- K6 in SR. cbn [stop_reason] in SR.
    destruct SR as (_ & f3 & s3 & sp & pp & r & v & gg & ev & B1 & B2 & B3 & B4 & B5 & B6 & B7 & B8 & B9). lia.
  Qed.

  (** with A at least m I: the number of enlargements that suffices, and that it exists *)
  Lemma strong_reach m k : 0 < m -> (forall z, length z = n -> m * rdot z z <= rform A z z) ->
    rform A (rsub x0 xs) (rsub x0 xs) <= m * ((D0 * g2 ^ k) * (D0 * g2 ^ k)) -> reach k.
  Proof using QS Lx0 Lxs Hxs.
    intros Hm HA Hk x Lx HF _.
    pose proof (qs_mat _ _ _ _ _ _ _ _ _ _ _ _ _ _ QS) as MA. pose proof (qs_sym _ _ _ _ _ _ _ _ _ _ _ _ _ _ QS) as SA.
    pose proof (qs_b _ _ _ _ _ _ _ _ _ _ _ _ _ _ QS) as Lb.
    rewrite (qF_gap n A b c0 MA SA Lb xs Lxs Hxs x Lx), (qF_gap n A b c0 MA SA Lb xs Lxs Hxs x0 Lx0) in HF. unfold gap in HF.
    assert (Lr : length (rsub x xs) = n) by rlen. pose proof (HA _ Lr) as K.
    destruct (qs_D0 _ _ _ _ _ _ _ _ _ _ _ _ _ _ QS) as [_ HD]. destruct (qs_g2 _ _ _ _ _ _ _ _ _ _ _ _ _ _ QS) as [_ Hg2].
    assert (0 < g2 ^ k) by (apply pow_lt; lra). assert (0 < D0 * g2 ^ k) by (apply Rmult_lt_0_compat; lra).
    apply Rsqr_incr_0_var; [|lra]. unfold Rsqr. rewrite rnorm_sq. apply (Rmult_le_reg_l m); [exact Hm|]. lra.
  Qed.
End Run.

(** if the radius can grow at all (gamma2 > 1), a sufficient number of enlargements exists *)
Theorem C60_bound_exists E C n A b c0 mu eta g1 g2 D0 tm ndim x0 st xs m :
  quadratic_setting E C n A b c0 mu eta g1 g2 D0 tm ndim st -> length x0 = n -> length xs = n -> qG A b xs = rzeros n ->
  0 < m -> (forall z, length z = n -> m * rdot z z <= rform A z z) -> 1 < g2 ->
  exists k, reach n A b c0 g2 D0 x0 xs k.
Proof.
  intros QS Lx0 Lxs Hxs Hm HA Hg.
  destruct (qs_D0 _ _ _ _ _ _ _ _ _ _ _ _ _ _ QS) as [_ HD].
  set (V := rform A (rsub x0 xs) (rsub x0 xs)).
  assert (HV : 0 <= V). { assert (Lr : length (rsub x0 xs) = n) by rlen. pose proof (HA _ Lr). pose proof (rdot_self_nonneg (rsub x0 xs)). unfold V. nra. }
  destruct (pow_small (/ g2) (D0 / (V / m + 1))) as (k & Hk).
  { split; [apply Rinv_0_lt_compat; lra|]. rewrite <- Rinv_1. apply Rinv_lt_contravar; lra. }
  { apply Rmult_lt_0_compat; [lra|]. apply Rinv_0_lt_compat. assert (0 <= V / m) by (apply Rmult_le_pos; [lra|left; now apply Rinv_0_lt_compat]). lra. }
  exists k. apply (strong_reach E C n A b c0 mu eta g1 g2 D0 tm ndim x0 st QS Lx0 xs Lxs Hxs m k Hm HA). fold V.
  assert (Hv : 0 <= V / m) by (apply Rmult_le_pos; [lra|left; now apply Rinv_0_lt_compat]).
  assert (Pk : 0 < g2 ^ k) by (apply pow_lt; lra).
  assert (K : V / m + 1 < D0 * g2 ^ k).
  { rewrite pow_inv in Hk by lra. apply (Rmult_lt_compat_r (g2 ^ k * (V / m + 1))) in Hk; [|apply Rmult_lt_0_compat; lra].
    replace (/ g2 ^ k * (g2 ^ k * (V / m + 1))) with (V / m + 1) in Hk by (field; lra).
    replace (D0 / (V / m + 1) * (g2 ^ k * (V / m + 1))) with (D0 * g2 ^ k) in Hk by (field; lra). exact Hk. }
  assert (EV : V = m * (V / m)) by (field; lra). rewrite EV at 1. apply Rmult_le_compat_l; [lra|]. nra.
Qed.

(** *** a concrete case: x^2 + y^2 from (3,4) with radius 1 and all tolerances zero takes at most four iterations, from (0.3,0.4) one *)
Definition qy_C (sd : string) : cfg ER :=
  mkCfg (mkOpts 1000 PInf (Fin 0) (Fin 0) (Fin 0) (Fin 0) (Fin 0) sd "reflect" (Fin (/ 2)) (Fin 1) (Fin (/ 4)) (Fin (3 / 4)) (Fin (/ 4)) (Fin 2) None)
    [NInf; NInf] [PInf; PInf] 3 false.
Lemma qy_setting sd : sd = "full"%string \/ sd = "2D"%string ->
  quadratic_setting cy_E (qy_C sd) 2 I2 [0; 0] 0 (/ 4) (3 / 4) (/ 4) 2 1 (/ 2) 1 cx_st.
Proof.
  intros Hsd. constructor; try reflexivity; try lia; try (split; [reflexivity|lra]); auto using I2_mat, I2_sym, I2_posdef.
  - intros k x Hx. apply two_vec in Hx as (a & b & ->). unfold qF, qG, rform, rmv, rdot, radd, I2. cbn.
    do 2 f_equal; [do 2 f_equal; lra|]. f_equal. f_equal. f_equal; [f_equal; ring|]. f_equal. f_equal. ring.
  - destruct Hsd as [-> | ->]; [left|right]; split; auto using I2_solvable, I2_exact.
Qed.
Lemma qy_min : qG I2 [0; 0] [0; 0] = rzeros 2.
Proof. unfold qG, rmv, radd, rdot, I2, rzeros. cbn. f_equal; [ring|]. f_equal. ring. Qed.
Lemma qy_start a b : 0 < a -> nonzero (qG I2 [0; 0] [a; b]).
Proof. intros Ha. exists 0%nat. unfold qG, rmv, radd, rdot, I2. cbn. lra. Qed.
Example C60_ex sd : sd = "full"%string \/ sd = "2D"%string -> exists st',
  minimize cy_E (qy_C sd) 5 1 (fv [3; 4]) None H0None cx_st = (Ok (Fin (qF I2 [0; 0] 0 [0; 0]), o_x st', fv [0; 0], fm I2), st')
  /\ deref st' (o_x st') = fv [0; 0] /\ o_flag st' = GTOL /\ (1 <= o_iter st' <= 4)%Z.
Proof.
  intros Hsd. pose proof (qy_setting sd Hsd) as QS.
  destruct (C60_minimizer_found cy_E (qy_C sd) 2 I2 [0; 0] 0 (/ 4) (3 / 4) (/ 4) 2 1 (/ 2) 1 [3; 4] None H0None cx_st QS eq_refl [0; 0] eq_refl qy_min 0
    ltac:(split; [reflexivity|lra]) (qy_start 3 4 ltac:(lra)) 3 5) as (st' & K1 & K2 & K3 & K4 & _); try reflexivity; try lra; try lia.
  - repeat split.
  - apply (strong_reach cy_E (qy_C sd) 2 I2 [0; 0] 0 (/ 4) (3 / 4) (/ 4) 2 1 (/ 2) 1 [3; 4] cx_st QS eq_refl [0; 0] eq_refl qy_min 2); [lra| |].
    + intros z Lz. rewrite I2_form by auto. lra.
    + rewrite I2_form by reflexivity. unfold rdot, rsub, radd, rscale. cbn. lra.
  - exists st'. auto.
Qed.
Example C60_ex1 sd : sd = "full"%string \/ sd = "2D"%string -> exists st' r0 r1,
  minimize cy_E (qy_C sd) 2 1 (fv [3 / 10; 4 / 10]) None H0None cx_st = (Ok (Fin (qF I2 [0; 0] 0 [0; 0]), o_x st', fv [0; 0], fm I2), st')
  /\ o_evals st' = [(fv [3 / 10; 4 / 10], r0); (fv [0; 0], r1)].
Proof.
  intros Hsd. pose proof (qy_setting sd Hsd) as QS.
  destruct (C60_one_iteration cy_E (qy_C sd) 2 I2 [0; 0] 0 (/ 4) (3 / 4) (/ 4) 2 1 (/ 2) 1 [3 / 10; 4 / 10] None H0None cx_st QS eq_refl [0; 0] eq_refl qy_min 0
    ltac:(split; [reflexivity|lra]) (qy_start (3 / 10) (4 / 10) ltac:(lra)) 2) as (st' & r0 & r1 & K1 & _ & _ & _ & K2 & _); try reflexivity; try lra; try lia.
  - unfold rnorm, rdot, rsub, radd, rscale. cbn. rewrite <- sqrt_1. apply sqrt_le_1_alt. lra.
  - exists st', r0, r1. auto.
Qed.
