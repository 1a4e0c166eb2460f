(** C73, whole runs: with hess0 the exact Hessian of a quadratic, the run is the run of the optimizer that gets exact Hessians *)
From Coq Require Import String ZArith List Bool Reals Lra Lia Psatz.
From Verif Require Import Num Constants Subproblem HessApprox Steps TrustRegion Minimize
  ER NumFacts MonadFacts MinFacts Spec Run RunInv HessRun RVec Prop_Newton Unbounded Unbounded2D Prop_SR1 Prop_Grad Prop_Converge Prop_Converge2 Prop_Quadratic Prop_ExactStart Prop_ExactQuad.
Import ListNotations.
Local Open Scope R_scope.
Local Open Scope list_scope.

(** the parts of two runs that a user can compare: the points evaluated, the counters, the exit flag, the arrays, the current
    point, value and gradient, the best point, value and gradient, the trust-region radius *)
Record same_trace (s s' : opt ER) : Prop := mkSame {
  sm_points : map fst (o_evals s) = map fst (o_evals s');
  sm_iter : o_iter s = o_iter s';
  sm_flag : o_flag s = o_flag s';
  sm_converged : o_conv s = o_conv s';
  sm_arrays : o_heap s = o_heap s';
  sm_x : o_x s = o_x s';
  sm_fval : o_fval s = o_fval s';
  sm_grad : o_grad s = o_grad s';
  sm_xmin : o_xmin s = o_xmin s';
  sm_fval_min : o_fval_min s = o_fval_min s';
  sm_grad_min : o_grad_min s = o_grad_min s';
  sm_delta : o_delta s = o_delta s'
}.

Lemma rect_fm n A : is_mat n n A -> rect n n (fm A) = true.
Proof.
  intros [L F]. unfold rect. unfold fm. rewrite map_length, L, Nat.eqb_refl. cbn [andb]. apply forallb_forall.
  intros r Hr. apply in_map_iff in Hr as (r0 & <- & Hr). rewrite Forall_forall in F. rewrite fv_length. apply Nat.eqb_eq. now apply F.
Qed.

Section Runs.
  Variables (E : env ER) (C : cfg ER) (n : nat) (A : rmat) (b : rvec).
  Variables (ndim : nat) (x0 : list ER) (sid : option string) (st : opt ER) (i0 : ihapp ER).
  Hypothesis Hn : (1 <= n)%nat.
  Hypothesis MA : is_mat n n A.
  Hypothesis Lb : length b = n.
  Hypothesis H2 : c_nargout C = 2%nat.
  Hypothesis Hr : c_resfun C = false.
  Hypothesis Hno : op_history (c_opts C) = None.
  Hypothesis Hg : linear_gradient E C n A b.
  Hypothesis Elb : c_lb C = no_lb n.
  Hypothesis Eub : c_ub C = no_ub n.
  Hypothesis Lx0 : length x0 = n.
  Hypothesis Hh : o_happ st = Some (HIter i0).
  Hypothesis Hk : keeps_exact E C i0.

  (** the same optimizer, on the same objective with its exact Hessian, without any approximation *)
  Theorem C73_same_run fuel :
    let run := minimize E C fuel ndim x0 sid (H0Mat (fm A)) st in
    let exact := minimize (with_hessian n (fm A) E) (three_outputs C) fuel ndim x0 sid H0None (set_o_happ None st) in
    fst run = fst exact /\ same_trace (snd run) (snd exact).
  Proof using Hn MA Lb H2 Hr Hno Hg Elb Eub Lx0 Hh Hk.
    cbv zeta. assert (LA : length x0 = length (fm A)) by (unfold fm; rewrite map_length; destruct MA as [-> _]; exact Lx0).
    assert (Hst : rel (o_hess st) st (set_o_happ None st)).
    { replace (set_o_happ None st) with (bare (o_hess st) (o_evals st) st) by (destruct st; reflexivity). apply rel_i; [reflexivity|exists i0; exact Hh]. }
    pose proof (sim_minimize E C n (fm A) H2 Hr (rect_fm n A MA) (mfinite_fm A) Hno ndim x0 sid st (set_o_happ None st)) as K.
    specialize (K fuel (o_hess st)).
    assert (K' : sim (fm A) eq (minimize E C fuel ndim x0 sid (H0Mat (fm A)) st)
       (minimize (with_hessian n (fm A) E) (three_outputs C) fuel ndim x0 sid H0None (set_o_happ None st))).
    { refine (K Hst LA _ _). intros f s HL. exact (C73_stays_exact E C n A b ndim x0 sid st i0 Hn MA Lb Hg Elb Eub Lx0 Hh Hk f s HL). }
    clear K. revert K'. generalize (minimize E C fuel ndim x0 sid (H0Mat (fm A)) st).
    generalize (minimize (with_hessian n (fm A) E) (three_outputs C) fuel ndim x0 sid H0None (set_o_happ None st)).
    intros [r' s'] [r s]. unfold sim. cbn [fst snd]. intros K.
    assert (K2 : r = r' /\ exists B, rel B s s').
    { destruct r, r'; try contradiction; destruct K as [K1 K2]; [subst; eauto|subst; eauto]. }
    destruct K2 as [-> (B & [ev He _])]. split; [reflexivity|]. constructor; try reflexivity. now symmetry.
  Qed.
End Runs.

(** consequences: with hess0 the exact Hessian of a strictly convex quadratic, a quasi-Newton run that only ever sees values and
    gradients returns the minimizer after finitely many iterations, and after one iteration when the minimizer is within the initial
    trust region *)
Section Finite.
  Variables (E : env ER) (C : cfg ER) (n : nat) (A : rmat) (b : rvec) (c0 mu eta g1 g2 D0 tm : R).
  Variables (ndim : nat) (x0 : rvec) (sid : option string) (st : opt ER) (i0 : ihapp ER) (xs : rvec) (ga : R) (fuel : nat).
  Hypothesis H2 : c_nargout C = 2%nat.
  Hypothesis Hh : o_happ st = Some (HIter i0).
  Hypothesis Hk : keeps_exact E C i0.
  Hypothesis Hg : linear_gradient E C n A b.
  (* the objective is x'Ax/2 + b'x + c0, the solvers are exact, the options are in their documented ranges *)
  Hypothesis QS : quadratic_setting (with_hessian n (fm A) E) (three_outputs C) n A b c0 mu eta g1 g2 D0 tm ndim (set_o_happ None st).
  Hypothesis Lx0 : length x0 = n.
  Hypothesis Lxs : length xs = n.
  Hypothesis Hxs : qG A b xs = rzeros n.
  Hypothesis Hg0 : nonzero (qG A b x0).
  Hypothesis Hga : op_gatol (c_opts C) = Fin ga /\ 0 <= ga.
  Hypothesis Hmt : op_maxtime (c_opts C) = PInf.
  Hypothesis HD0 : / 2 ^ 52 <= D0.

  Lemma exact_facts : fst (minimize E C fuel ndim (fv x0) sid (H0Mat (fm A)) st)
      = fst (minimize (with_hessian n (fm A) E) (three_outputs C) fuel ndim (fv x0) sid H0None (set_o_happ None st))
    /\ same_trace (snd (minimize E C fuel ndim (fv x0) sid (H0Mat (fm A)) st))
         (snd (minimize (with_hessian n (fm A) E) (three_outputs C) fuel ndim (fv x0) sid H0None (set_o_happ None st))).
  Proof using H2 Hh Hk Hg QS Lx0.
    destruct QS as [q1 q2 q3 q4 _ _ q7 _ q9 _ _ q12 _ _ _ _ _ _ _]. 
    apply (C73_same_run E C n A b) with (i0 := i0); auto; [exact (proj2 q9)|now rewrite fv_length].
  Qed.

  Theorem C73_finite k : no_tolerance C -> reach n A b c0 g2 D0 x0 xs k -> (Z.of_nat k < op_maxiter (c_opts C))%Z -> (k + 1 < fuel)%nat ->
    exists st', minimize E C fuel ndim (fv x0) sid (H0Mat (fm A)) st = (Ok (Fin (qF A b c0 xs), o_x st', fv (rzeros n), fm A), st')
      /\ deref st' (o_x st') = fv xs /\ o_flag st' = GTOL /\ (1 <= o_iter st' <= Z.of_nat k + 1)%Z.
  Proof using H2 Hh Hk Hg QS Lx0 Lxs Hxs Hg0 Hga Hmt HD0.
    intros HT HR Hmi Hfu. destruct exact_facts as [F1 F2].
    destruct (C60_minimizer_found _ _ n A b c0 mu eta g1 g2 D0 tm ndim x0 sid H0None _ QS Lx0 xs Lxs Hxs ga Hga Hg0 k fuel HT HR Hmt Hmi HD0 Hfu)
      as (st' & K1 & K2 & K3 & K4 & _).
    rewrite K1 in F1, F2. destruct (minimize E C fuel ndim (fv x0) sid (H0Mat (fm A)) st) as [r s]. cbn [fst snd] in F1, F2. subst r.
    destruct F2 as [S1 S2 S3 S4 S5 S6 S7 S8 S9 S10 S11 S12]. exists s. unfold deref in *. rewrite S5, S6, S3, S2. auto.
  Qed.

  Theorem C73_one_iteration : rnorm (rsub x0 xs) <= D0 -> (0 < op_maxiter (c_opts C))%Z -> (1 < fuel)%nat ->
    exists st', minimize E C fuel ndim (fv x0) sid (H0Mat (fm A)) st = (Ok (Fin (qF A b c0 xs), o_x st', fv (rzeros n), fm A), st')
      /\ deref st' (o_x st') = fv xs /\ o_iter st' = 1%Z
      /\ map fst (o_evals st') = map fst (o_evals st) ++ [fv x0; fv xs].
  Proof using H2 Hh Hk Hg QS Lx0 Lxs Hxs Hg0 Hga Hmt HD0.
    intros Hd Hmi Hfu. destruct exact_facts as [F1 F2].
    destruct (C60_one_iteration _ _ n A b c0 mu eta g1 g2 D0 tm ndim x0 sid H0None _ QS Lx0 xs Lxs Hxs ga Hga Hg0 fuel Hd Hmt Hmi HD0 Hfu)
      as (st' & r0 & r1 & K1 & K2 & _ & K3 & K4 & _).
    rewrite K1 in F1, F2. destruct (minimize E C fuel ndim (fv x0) sid (H0Mat (fm A)) st) as [r s]. cbn [fst snd] in F1, F2. subst r.
    destruct F2 as [S1 S2 S3 S4 S5 S6 S7 S8 S9 S10 S11 S12]. exists s. unfold deref in *. rewrite S5, S6, S2, S1, K4, map_app. auto.
  Qed.
End Finite.

(** *** a concrete case: x^2 + y^2, value and gradient only, BFGS with hess0 = 2I; from (3,4) with radius 1 and all tolerances zero at
    most four iterations, from (0.3,0.4) one *)
Definition ey_E : env ER :=
  mkEnv (fun _ x => match x with
                    | [Fin a; Fin b] => RTuple [PScal (Fin (a * a + b * b)); PVec [Fin (2 * a); Fin (2 * b)]]
                    | _ => RRaise end)
    (fun k => Fin (INR k)) (fun _ => "id"%string) cy_la (fun _ => None) (fun _ => None).
Definition ey_C (sd : string) : cfg ER := mkCfg (c_opts (qy_C sd)) [NInf; NInf] [PInf; PInf] 2 false.
Definition ey_bfgs : ihapp ER := mkIhapp (IBroyden (Fin 0) true) (mkHbase [] []).
Definition ey_st : opt ER := set_o_happ (Some (HIter ey_bfgs)) cx_st.
Lemma ey_setting sd : sd = "full"%string \/ sd = "2D"%string ->
  quadratic_setting (with_hessian 2 (fm I2) ey_E) (three_outputs (ey_C sd)) 2 I2 [0; 0] 0 (/ 4) (3 / 4) (/ 4) 2 1 (/ 2) 1 (set_o_happ None ey_st).
Proof.
  intros Hsd. destruct (qy_setting sd Hsd). constructor; auto.
  intros k x Hx. apply two_vec in Hx as (a & b & ->). unfold qF, qG, rform, rmv, rdot, radd, I2. cbn.
  do 2 f_equal; [do 2 f_equal; lra|]. f_equal. f_equal. f_equal; [f_equal; ring|]. f_equal. f_equal. ring.
Qed.
Lemma ey_linear sd : linear_gradient ey_E (ey_C sd) 2 I2 [0; 0].
Proof.
  intros k p g Lp. destruct p as [|u [|v [|w p]]]; try discriminate. destruct u as [a| | |], v as [c| | |]; try discriminate.
  cbn. intros H. exists [a; c]. split; [reflexivity|]. injection H as H. destruct g as [|g0 [|g1 [|? ?]]]; try discriminate.
  cbn in H. injection H as H0 H1. subst. unfold radd, rmv, rdot, I2. cbn. f_equal; [ring|]. f_equal. ring.
Qed.
Lemma ey_keeps sd : keeps_exact ey_E (ey_C sd) ey_bfgs.
Proof. left. exists 0. reflexivity. Qed.
Example C73_ex sd : sd = "full"%string \/ sd = "2D"%string -> exists st',
  minimize ey_E (ey_C sd) 5 1 (fv [3; 4]) None (H0Mat (fm I2)) ey_st = (Ok (Fin (qF I2 [0; 0] 0 [0; 0]), o_x st', fv [0; 0], fm I2), st')
  /\ deref st' (o_x st') = fv [0; 0] /\ o_flag st' = GTOL /\ (1 <= o_iter st' <= 4)%Z.
Proof.
  intros Hsd.
  apply (C73_finite ey_E (ey_C sd) 2 I2 [0; 0] 0 (/ 4) (3 / 4) (/ 4) 2 1 (/ 2) 1 [3; 4] None ey_st ey_bfgs [0; 0] 0 5) with (k := 3%nat); try reflexivity; try lra; try lia.
  - apply ey_keeps.
  - apply ey_linear.
  - now apply ey_setting.
  - exact qy_min.
  - apply qy_start. lra.
  - split; [reflexivity|lra].
  - repeat split.
  - apply (strong_reach cy_E (qy_C sd) 2 I2 [0; 0] 0 (/ 4) (3 / 4) (/ 4) 2 1 (/ 2) 1 [3; 4] cx_st (qy_setting sd Hsd) eq_refl [0; 0] eq_refl qy_min 2); [lra| |].
    + intros z Lz. rewrite I2_form by auto. lra.
    + rewrite I2_form by reflexivity. unfold rdot, rsub, radd, rscale. cbn. lra.
Qed.
Example C73_ex1 sd : sd = "full"%string \/ sd = "2D"%string -> exists st',
  minimize ey_E (ey_C sd) 2 1 (fv [3 / 10; 4 / 10]) None (H0Mat (fm I2)) ey_st = (Ok (Fin (qF I2 [0; 0] 0 [0; 0]), o_x st', fv [0; 0], fm I2), st')
  /\ deref st' (o_x st') = fv [0; 0] /\ o_iter st' = 1%Z /\ map fst (o_evals st') = [fv [3 / 10; 4 / 10]; fv [0; 0]].
Proof.
  intros Hsd.
  apply (C73_one_iteration ey_E (ey_C sd) 2 I2 [0; 0] 0 (/ 4) (3 / 4) (/ 4) 2 1 (/ 2) 1 [3 / 10; 4 / 10] None ey_st ey_bfgs [0; 0] 0 2); try reflexivity; try lra; try lia.
  - apply ey_keeps.
  - apply ey_linear.
  - now apply ey_setting.
  - exact qy_min.
  - apply qy_start. lra.
  - split; [reflexivity|lra].
  - unfold rnorm, rdot, rsub, radd, rscale. cbn. rewrite <- sqrt_1. apply sqrt_le_1_alt. lra.
Qed.
