(** A concrete run of C63: F(x,y) = x^2 + y^2 on the box [-10,10]^2, started at (1,1), solver "full".  The scaled Hessians of this run are
    multiples of the identity, for which the external routines are exact: all eigenvalues are the diagonal entry, and the root finder
    interpolates linearly, which is exact because the secular equation of a multiple of the identity is linear *)
From Coq Require Import String ZArith List Bool Reals Lra Lia Psatz.
From Verif Require Import Num Constants Subproblem HessApprox Steps TrustRegion Minimize
  ER NumFacts MonadFacts MinFacts Spec Run RunInv RunFrame RVec SubNd RShess Argmin Cand StepFacts Prop_Sub1d Prop_Pred Prop_Box
  Prop_Cand TRErr RealStep Prop_Grad Region Prop_CG Prop_Run Prop_Run2 Prop_Nudge Prop_BoxRun Prop_BoxRun2 HessDim Ortho Prop_SubNd Prop_Region Prop_TwoD
  Unbounded UnboundedFull Unbounded2D Converge Prop_Converge Prop_Converge2 BoundedGrad BoundedStep Prop_ConvergeBox Prop_ConvergeBox2.
Import ListNotations.
Local Open Scope R_scope.
Local Open Scope list_scope.

Definition cI (c : R) : rmat := [[c; 0]; [0; c]].
Definition bx_sub : SubOracles ER :=
  mkSubOracles ER (fun A => match A with (a :: _) :: _ => Some ([a; a], fm (reye 2)) | _ => None end) interpolate (fun _ _ _ _ => NoConv).

Section Multiple.
Variable c : R.
Hypothesis Hc : 0 < c.
Lemma cI_mat : is_mat 2 2 (cI c). Proof. split; [reflexivity|repeat constructor]. Qed.
Lemma cI_sym : symmetric (cI c). Proof. intros i j. destruct i as [|[|[|i]]], j as [|[|[|j]]]; reflexivity. Qed.
Lemma cI_form x y : length x = 2%nat -> length y = 2%nat -> rform (cI c) x y = c * rdot x y.
Proof. intros Hx Hy. apply two_vec in Hx as (a & b & ->). apply two_vec in Hy as (p & q & ->). unfold rform, rmv, rdot, cI. cbn. ring. Qed.
Lemma cI_posdef : posdef 2 (cI c).
Proof. intros x Lx Hx. rewrite cI_form by auto. apply nonzero_dot in Hx. nra. Qed.
Lemma cI_eig : eig_decomposition 2 (cI c) [c; c] (reye 2).
Proof.
  split; [reflexivity|]. split; [apply is_mat_eye|]. split; [apply orthonormal_eye|].
  intros [|[|i]] Hi; [| |lia]; unfold rmv, rscale, rdot, cI; cbn; (f_equal; [ring|f_equal; ring]).
Qed.
Lemma cI_mineig : mineig [c; c] = c.
Proof.
  assert (K : (jm [c; c]%R < 2)%nat) by (apply (jm_lt 2 (cI c) [0; 0] [c; c] (reye 2)); auto using cI_eig).
  unfold mineig, ev. destruct (jm [c; c]) as [|[|k]]; [reflexivity..|lia].
Qed.
Lemma cI_sn g lam : length g = 2%nat -> c + lam <> 0 -> sn 2 g [c; c] (reye 2) lam = rnorm g / Rabs (c + lam).
Proof.
  intros Lg Hl. apply two_vec in Lg as (a & b & ->). unfold sn.
  assert (E : rslam 2 [c; c] (reye 2) lam (ww [a; b] (reye 2)) = rscale (- / (c + lam)) [a; b]).
  { unfold rslam, coefs, ww, cf, rmv, rscale, rdot. cbn. destruct (Reqb_spec (c + lam) 0); [contradiction|].
    f_equal; [field; auto|]. f_equal. field; auto. }
  rewrite E, rnorm_rscale, Rabs_Ropp, Rabs_inv. field. now apply Rabs_no_R0.
Qed.
Lemma cI_solvable : solvable bx_sub 2 (cI c).
Proof.
  exists [c; c], (reye 2). split; [exact cI_eig|]. split; [reflexivity|]. intros g delta Lg Hd.
  assert (HP : nd_problem 2 (cI c) g delta [c; c] (reye 2) bx_sub) by (repeat split; auto using cI_mat, cI_sym, cI_eig; try apply cI_mat; try apply cI_eig; try apply is_mat_eye).
  left. rewrite code_secular_eq. intros f' x0 Hx0.
  assert (Px : forall x, 0 < c + x -> 0 < rnorm g -> phiE g delta [c; c] (reye 2) (Fin x) = Fin ((c + x) / rnorm g - 1 / delta)).
  { intros x Hx Hg. change (phiE g delta [c; c] (reye 2) (Fin x)) with (phi g delta [c; c] (reye 2) x).
    rewrite (phi_eq 2 (cI c)) by (auto using cI_eig, cI_mat, cI_sym). rewrite cI_mineig. destruct (Rltb_spec x (- c)); [lra|].
    rewrite cI_sn by (auto; lra). rewrite Rabs_pos_eq by lra.
    assert (0 < rnorm g / (c + x)) by (apply Rmult_lt_0_compat; [lra|apply Rinv_0_lt_compat; lra]).
    destruct (Rltb_spec 0 (rnorm g / (c + x))); [|lra]. f_equal. field. lra. }
  assert (K : exists x, x0 = Fin x /\ - c <= x /\ delta < sn 2 g [c; c] (reye 2) x).
  { destruct x0 as [x| | |].
    - exists x. split; [reflexivity|]. apply (phi_neg' 2 (cI c) g delta [c; c] (reye 2) bx_sub HP) in Hx0. now rewrite cI_mineig in Hx0.
    - exfalso. revert Hx0. unfold phiE, secular. rewrite (npmin_vals 2 (cI c) g [c; c] (reye 2)) by auto using cI_eig.
      apply two_vec in Lg as (a & b & ->).
      assert (E : slam PInf (fv (ww [a; b] (reye 2))) (fv [c; c]) (fm (reye 2)) = fv (rlincomb 2 [0; 0] (reye 2))) by (rewrite <- h_lincomb; reflexivity).
      rewrite E, h_norm. cbn [nltb ERNum nopp er_opp er_ltb Num.n0 nofZ].
      destruct (Rltb_spec 0 (rnorm (rlincomb 2 [0; 0] (reye 2)))) as [Hx|Hx]; [|discriminate]. exfalso. revert Hx.
      unfold rnorm, rdot, rscale; simpl. match goal with |- context [sqrt ?a] => replace a with 0 by lra end. rewrite sqrt_0. lra.
    - exfalso. revert Hx0. unfold phiE, secular. rewrite (npmin_vals 2 (cI c) g [c; c] (reye 2)) by auto using cI_eig. discriminate.
    - exfalso. revert Hx0. unfold phiE, secular. rewrite (npmin_vals 2 (cI c) g [c; c] (reye 2)) by auto using cI_eig. discriminate. }
  destruct K as (x & -> & Hx1 & Hx2). clear Hx0.
  assert (Hg : 0 < rnorm g).
  { destruct (Rlt_dec 0 (rnorm g)) as [|Hn]; [auto|]. exfalso.
    assert (Zg : rnorm g = 0) by (pose proof (rnorm_nonneg g); lra).
    assert (E0 : rdot g g = 0) by (rewrite <- rnorm_sq, Zg; ring).
    revert Hx2. apply two_vec in Lg as (a & b & ->). assert (a = 0 /\ b = 0) as [-> ->] by (unfold rdot in E0; cbn in E0; split; nra).
    intros Hx2. assert (Zs : rdot (rslam 2 [c; c] (reye 2) x (ww [0; 0] (reye 2))) (rslam 2 [c; c] (reye 2) x (ww [0; 0] (reye 2))) = 0).
    { unfold rslam, coefs, ww, cf, rmv, rscale, rdot. cbn. destruct (Reqb_spec (c + x) 0); cbn; [ring|field; auto]. }
    unfold sn, rnorm in Hx2. rewrite Zs, sqrt_0 in Hx2. lra. }
  set (r := rnorm g / delta - c). assert (Hr : 0 < c + r).
  { unfold r. assert (0 < rnorm g / delta) by (apply Rmult_lt_0_compat; [lra|now apply Rinv_0_lt_compat]). lra. }
  exists r. split; [|split].
  - cbn [sp_newton bx_sub]. unfold interpolate. rewrite !Px by lra. do 2 f_equal. unfold r. field. split; lra.
  - rewrite Px by auto. f_equal. unfold r. field. split; lra.
  - cbn. destruct (Rleb_spec x r) as [|Hn]; [reflexivity|]. exfalso. rewrite cI_sn in Hx2 by (auto; lra). rewrite Rabs_pos_eq in Hx2 by lra.
    apply Hn. unfold r. assert ((c + x) * delta < rnorm g).
    { apply (Rmult_lt_compat_r (c + x)) in Hx2; [|lra]. replace (rnorm g / (c + x) * (c + x)) with (rnorm g) in Hx2 by (field; lra). lra. }
    apply (Rmult_le_reg_r delta); [exact Hd|]. replace ((rnorm g / delta - c) * delta) with (rnorm g - c * delta) by (field; lra). lra.
Qed.
End Multiple.

Definition bx_F (x : rvec) : R := nth 0 x 0 * nth 0 x 0 + nth 1 x 0 * nth 1 x 0.
Definition bx_G (x : rvec) : rvec := [2 * nth 0 x 0; 2 * nth 1 x 0].
Definition bx_la : StepOracles ER :=
  mkStepOracles ER bx_sub (fun _ => None) (fun _ _ => None) (fun _ _ _ _ _ _ _ => None) 10 10.
Definition bx_E : env ER :=
  mkEnv (fun _ x => match x with
                    | [Fin a; Fin b] => RTuple [PScal (Fin (a * a + b * b)); PVec [Fin (2 * a); Fin (2 * b)]; PMat 2 (fm (cI 2))]
                    | _ => RRaise end)
    (fun k => Fin (INR k)) (fun _ => "id"%string) bx_la (fun _ => None) (fun _ => None).
Definition bx_C : cfg ER :=
  mkCfg (mkOpts 1000 PInf (Fin 0) (Fin 0) (Fin 0) (Fin 0) (Fin 0) "full" "reflect" (Fin (/ 2)) (Fin 1) (Fin (/ 4)) (Fin (3 / 4)) (Fin (/ 4)) (Fin 2) None)
    [Fin (-10); Fin (-10)] [Fin 10; Fin 10] 3 false.

Lemma bx_box y : boxpt bx_C 2 y -> exists a b, y = [a; b] /\ -10 <= a <= 10 /\ -10 <= b <= 10.
Proof.
  intros [L B]. apply two_vec in L as (a & b & ->). exists a, b. split; [reflexivity|].
  destruct (B 0%nat ltac:(lia)) as [B1 B2], (B 1%nat ltac:(lia)) as [B3 B4]. cbn in B1, B2, B3, B4. apply Rleb_true in B1, B2, B3, B4. lra.
Qed.
Lemma bx_inside a b : -10 <= a <= 10 -> -10 <= b <= 10 -> boxpt bx_C 2 [a; b].
Proof. intros Ha Hb. split; [reflexivity|]. intros [|[|i]] Hi; [| |lia]; split; cbn; match goal with |- Rleb ?p ?q = true => destruct (Rleb_spec p q); [reflexivity|lra] end. Qed.

Lemma bx_setting : box_setting bx_E bx_C 2 bx_F bx_G 2 2 20 20 (/ 4) (3 / 4) (/ 4) 2 1 (/ 2) 1.
Proof.
  constructor; try reflexivity; try lra; try lia; try (split; [reflexivity|lra]); try (now left); try discriminate.
  - pose proof margin_1. intros [|[|i]] Hi; [| |lia]; cbn [bx_C c_lb c_ub nth er_sub er_opp er_add er_leb]; destruct (Rleb_spec (2 * margin) (10 + - -10)); auto; lra.
  - intros k y Hy. apply bx_box in Hy as (a & b & -> & _). split; reflexivity.
  - intros y s Hy Ls _. apply bx_box in Hy as (a & b & -> & _). apply two_vec in Ls as (c & d & ->).
    unfold bx_F, bx_G. unfold rdot. cbn. rewrite Rabs_right; nra.
  - intros y Hy i Hi. apply bx_box in Hy as (a & b & -> & Ha & Hb). destruct i as [|[|i]]; [| |lia]; cbn; apply Rabs_le; lra.
Qed.
Lemma bx_reach Fs : reach bx_C 2 bx_F 20 Fs.
Proof.
  intros y Hy _ i Hi. apply bx_box in Hy as (a & b & -> & Ha & Hb). destruct i as [|[|i]]; [| |lia]; cbn; split; intros k [= <-]; lra.
Qed.

(** at (a,a) with 0 < a <= 1: scaling, scaled gradient and Hessian, and the Newton step of the scaled model *)
Definition dg (a : R) : rvec := [a; a].
Lemma dg_args a : 0 < a <= 1 ->
  map (fun p : ER * ER => nsqrt (nabs (fst p))) (affine_scaling (fv (dg a)) (fv (dg (2 * a))) (c_lb bx_C) (c_ub bx_C)) = fv (dg (sqrt (a + 10)))
  /\ map snd (affine_scaling (fv (dg a)) (fv (dg (2 * a))) (c_lb bx_C) (c_ub bx_C)) = fv (dg 1).
Proof.
  intros Ha. cbn [dg fv map bx_C c_lb c_ub affine_scaling]. unfold affine1. cbn [nltb ERNum er_ltb n0 nofZ].
  destruct (Rltb_spec (2 * a) 0); [lra|]. cbn [nisfin ERNum er_isfin fst snd nsub er_sub er_opp er_add nabs er_abs nsqrt er_sqrt].
  replace (a + - -10) with (a + 10) by ring. rewrite (Rabs_pos_eq (a + 10)) by lra. destruct (Rltb_spec (a + 10) 0); [lra|]. split; reflexivity.
Qed.
Lemma dg_B a : 0 < a <= 1 -> rB 2 (dg (2 * a)) (cI 2) (dg (sqrt (a + 10))) (dg 1) = cI (4 * a + 20).
Proof.
  intros Ha. assert (S : sqrt (a + 10) * sqrt (a + 10) = a + 10) by (apply sqrt_sqrt; lra).
  unfold rB, rshess, rabsv, rmul, cI, dg, entry. cbn. rewrite (Rabs_pos_eq (2 * a)) by lra.
  set (q := sqrt (a + 10)) in *. assert (E1 : q * 2 * q + 2 * a * 1 = 4 * a + 20) by lra. assert (E2 : q * 0 * q + 0 = 0) by ring. rewrite E1, E2. reflexivity.
Qed.
Lemma dg_sg a : rsg (dg (2 * a)) (dg (sqrt (a + 10))) = dg (sqrt (a + 10) * (2 * a)).
Proof. reflexivity. Qed.
Definition zst (a : R) : R := - (sqrt (a + 10) * (2 * a)) / (4 * a + 20).
Lemma dg_newton a y : 0 < a <= 1 -> length y = 2%nat ->
  qmodel (cI (4 * a + 20)) (dg (sqrt (a + 10) * (2 * a))) y <= qmodel (cI (4 * a + 20)) (dg (sqrt (a + 10) * (2 * a))) (dg (zst a)) -> y = dg (zst a).
Proof.
  intros Ha Ly. apply two_vec in Ly as (p & q & ->). unfold qmodel. rewrite !cI_form by reflexivity.
  set (k := 4 * a + 20). set (h := sqrt (a + 10) * (2 * a)). assert (Hk : 0 < k) by (unfold k; lra).
  assert (Ez : k * zst a = - h) by (unfold zst; fold k h; field; lra). set (z := zst a) in *. clearbody z h k.
  unfold dg, rdot. cbn. intros K. replace h with (- (k * z)) in K by lra.
  assert (k * ((p - z) * (p - z) + (q - z) * (q - z)) <= 0) by nra.
  assert ((p - z) * (p - z) + (q - z) * (q - z) <= 0) by nra.
  pose proof (Rle_0_sqr (p - z)) as Q1. pose proof (Rle_0_sqr (q - z)) as Q2. unfold Rsqr in Q1, Q2.
  assert (p - z = 0) by (apply Rsqr_0_uniq; unfold Rsqr; lra). assert (q - z = 0) by (apply Rsqr_0_uniq; unfold Rsqr; lra).
  assert (p = z) as -> by lra. assert (q = z) as -> by lra. reflexivity.
Qed.
Lemma zst_step a : 0 < a <= 1 -> sqrt (a + 10) * zst a = - (a * (a + 10) / (2 * a + 10)).
Proof.
  intros Ha. assert (S : sqrt (a + 10) * sqrt (a + 10) = a + 10) by (apply sqrt_sqrt; lra).
  unfold zst. replace (sqrt (a + 10) * (- (sqrt (a + 10) * (2 * a)) / (4 * a + 20))) with (- (sqrt (a + 10) * sqrt (a + 10)) * (2 * a) / (4 * a + 20)) by (field; lra).
  rewrite S. field. lra.
Qed.
Definition nxt (a : R) : R := a * a / (2 * a + 10).
Lemma nxt_range a : 0 < a <= 1 -> 0 < nxt a <= 1.
Proof.
  intros Ha. unfold nxt. split; [apply Rdiv_lt_0_compat; nra|]. apply (Rmult_le_reg_r (2 * a + 10)); [lra|]. unfold Rdiv. rewrite Rmult_assoc, Rinv_l by lra. nra.
Qed.
Lemma nxt_point a : 0 < a <= 1 -> radd (dg a) (rmul (dg (sqrt (a + 10))) (dg (zst a))) = dg (nxt a).
Proof.
  intros Ha. unfold dg, rmul, radd. cbn. rewrite (zst_step a Ha). assert (E : a + - (a * (a + 10) / (2 * a + 10)) = nxt a) by (unfold nxt; field; lra).
  now rewrite E.
Qed.
Lemma zst_sq a : 0 < a <= 1 -> 0 < zst a * zst a <= / 2.
Proof.
  intros Ha. assert (S : sqrt (a + 10) * sqrt (a + 10) = a + 10) by (apply sqrt_sqrt; lra).
  assert (E : zst a * zst a = (a + 10) * (2 * a) * (2 * a) / ((4 * a + 20) * (4 * a + 20))).
  { unfold zst. set (q := sqrt (a + 10)) in *. transitivity ((q * q) * (2 * a) * (2 * a) / ((4 * a + 20) * (4 * a + 20))); [field; lra|]. now rewrite S. }
  rewrite E. split; [apply Rdiv_lt_0_compat; nra|]. apply (Rmult_le_reg_r ((4 * a + 20) * (4 * a + 20))); [nra|]. unfold Rdiv. rewrite Rmult_assoc, Rinv_l by nra. nra.
Qed.
Lemma zst_norm a : 0 < a <= 1 -> rnorm (dg (zst a)) <= 1.
Proof.
  intros Ha. destruct (zst_sq a Ha). unfold rnorm, rdot, dg. cbn. rewrite <- sqrt_1. apply sqrt_le_1; lra.
Qed.

(** loop heads at such points *)
Record diag (s : opt ER) (a d : R) : Prop := mkDiag {
  di_a : 0 < a <= 1;
  di_d : 1 <= d;
  di_x : deref s (o_x s) = fv (dg a);
  di_f : o_fval s = Fin (bx_F (dg a));
  di_g : o_grad s = fv (dg (2 * a));
  di_h : o_hess s = fm (cI 2);
  di_n : o_happ s = None;
  di_delta : o_delta s = Fin d
}.
Lemma diag_theta a : 0 < a <= 1 -> exists t, 0 < t <= 1 /\ / 2 <= t /\
  pymax (op_theta_max (c_opts bx_C)) (n1 - norm_inf (vmul (map fst (affine_scaling (fv (dg a)) (fv (dg (2 * a))) (c_lb bx_C) (c_ub bx_C))) (fv (dg (2 * a)))))%num = Fin t.
Proof.
  intros Ha. destruct (affine_fst (dg a) (dg (2 * a)) (c_lb bx_C) (c_ub bx_C)) as (v & Ev & Lv); try reflexivity.
  destruct (theta_real (/ 2) v (dg (2 * a))) as (t & Et & Ht); auto; try lra; try (cbn; lia).
  exists t. rewrite Ev. change (op_theta_max (c_opts bx_C)) with (Fin (/ 2)). rewrite Et. split; [apply Ht; lra|]. split; [|reflexivity].
  unfold pymax in Et. cbn [nltb ERNum] in Et.
  match type of Et with (if er_ltb _ ?Q then _ else _) = _ => destruct Q as [q| | |] end; cbn [er_ltb] in Et; try (injection Et as <-; lra); try discriminate.
  destruct (Rltb_spec (/ 2) q); injection Et as <-; lra.
Qed.
Lemma diag_problem a d t : 0 < a <= 1 -> 1 <= d -> 0 < t <= 1 ->
  problem 2 (dg a) (dg (2 * a)) (cI 2) (dg (sqrt (a + 10))) (dg 1) d t (c_lb bx_C) (c_ub bx_C).
Proof.
  intros Ha Hd Ht. constructor; try reflexivity; try lia; try lra; auto using cI_mat, cI_sym.
  - assert (0 < sqrt (a + 10)) by (apply sqrt_lt_R0; lra). repeat constructor; auto.
  - apply bx_inside; lra.
Qed.
Lemma diag_args s a d : diag s a d -> exists t, 0 < t <= 1 /\ / 2 <= t
  /\ step_args bx_C s = rA (dg a) (dg (2 * a)) (cI 2) (dg (sqrt (a + 10))) (dg 1) d t (c_lb bx_C) (c_ub bx_C).
Proof.
  intros [Ha Hd Ex Ef Eg Eh En Ed]. destruct (diag_theta a Ha) as (t & H1 & H2 & Et). exists t. split; [exact H1|]. split; [exact H2|].
  destruct (dg_args a Ha) as [E1 E2]. unfold step_args, rA. cbv zeta. rewrite Ex, Eg, Eh, Ed, E1, E2, Et. reflexivity.
Qed.
Lemma dg_pos a : 0 < a <= 1 -> 0 < rnorm (rsg (dg (2 * a)) (dg (sqrt (a + 10)))).
Proof.
  intros Ha. rewrite dg_sg. assert (0 < sqrt (a + 10)) by (apply sqrt_lt_R0; lra). unfold rnorm, rdot, dg. cbn. apply sqrt_lt_R0.
  assert (0 < sqrt (a + 10) * (2 * a)) by nra. nra.
Qed.
Lemma diag_proposal s a d sp : diag s a d -> proposes bx_E bx_C s sp ->
  vadd (st_ss sp) (st_ss0 sp) = fv (dg (zst a)) /\ trial_point s sp = fv (dg (nxt a))
  /\ st_qpval sp = Fin (- ((4 * a + 20) * (zst a * zst a))).
Proof.
  intros HD (Htr & _ & _). destruct HD as [Ha Hd Ex Ef Eg Eh En Ed]. destruct (diag_theta a Ha) as (t & H1 & H2 & Et). destruct (dg_args a Ha) as [E1 E2].
  cbv zeta in Htr. rewrite Ex, Eg, Eh, Ed, E1, E2, Et in Htr. change (op_subspace_dim (c_opts bx_C)) with "full"%string in Htr.
  pose proof (diag_problem a d t Ha Hd H1) as P.
  destruct (newton_proposed (e_la bx_E) 2 (dg a) (dg (2 * a)) (cI 2) (dg (sqrt (a + 10))) (dg 1) d t (c_lb bx_C) (c_ub bx_C) P
    (op_stepback (c_opts bx_C)) (dg (zst a)) sp) as (K1 & K2 & K3); auto.
  - rewrite dg_B by auto. apply cI_posdef. lra.
  - rewrite dg_B by auto. apply cI_solvable. lra.
  - now apply dg_pos.
  - pose proof (zst_norm a Ha). lra.
  - intros y Ly. rewrite dg_B, dg_sg by auto. now apply dg_newton.
  - intros i m Hi. assert (Hs : sqrt (a + 10) * zst a < 0).
    { rewrite (zst_step a Ha). assert (0 < a * (a + 10) / (2 * a + 10)) by (apply Rdiv_lt_0_compat; nra). lra. }
    assert (Eb : breakpoint (Fin a) (Fin (sqrt (a + 10) * zst a)) (Fin (-10)) (Fin 10) = Fin ((a - -10) / - (sqrt (a + 10) * zst a))).
    { rewrite (breakpoint_down (Fin (-10)) a (Fin 10)); auto. split; cbn; match goal with |- Rleb ?p ?q = true => destruct (Rleb_spec p q); [reflexivity|lra] end. }
    assert (Em : forall m', Fin ((a - -10) / - (sqrt (a + 10) * zst a)) = Fin m' -> 1 <= t * m').
    { intros m' [= <-]. rewrite (zst_step a Ha). replace ((a - -10) / - - (a * (a + 10) / (2 * a + 10))) with (2 + 10 / a) by (field; lra).
      assert (0 < 10 / a) by (apply Rdiv_lt_0_compat; lra). nra. }
    unfold dg, rmul. cbn [map2 fv map bx_C c_lb c_ub breakpoints]. rewrite Eb. destruct i as [|[|i]]; [| |lia]; cbn [nth]; apply Em.
  - split; [exact K1|]. split; [unfold trial_point; rewrite Ex, K3; f_equal; now apply nxt_point|].
    rewrite K2. f_equal. rewrite dg_B, dg_sg by auto. unfold qmodel. rewrite cI_form by reflexivity.
    set (h := sqrt (a + 10) * (2 * a)). assert (Ez : h = - ((4 * a + 20) * zst a)) by (unfold zst; fold h; field; lra).
    rewrite Ez. unfold rdot, dg. cbn. field.
Qed.

Lemma bx_nudge a b : -1 <= a <= 1 -> -1 <= b <= 1 -> nudge bx_C (fv [a; b]) = fv [a; b].
Proof.
  intros Ha Hb. pose proof margin_1 as Hm. assert (Hi : boxpt bx_C 2 [a; b]) by (apply bx_inside; lra).
  apply (boxpt_in_box _ _ _ _ _ _ _ _ _ _ _ _ _ _ _ _ bx_setting) in Hi. destruct (C13_moved_inside bx_C [a; b] Hi) as (y & Ey & [Ly _] & K).
  rewrite Ey. f_equal. rewrite fv_length in Ly. apply two_vec in Ly as (p & q & ->).
  destruct (K 0%nat ltac:(cbn; lia)) as (_ & K1 & _), (K 1%nat ltac:(cbn; lia)) as (_ & K2 & _). cbn [nth bx_C c_lb c_ub er_sub er_opp er_add er_leb] in K1, K2.
  assert (p = a) as ->. { apply K1; match goal with |- Rleb ?u ?v = true => destruct (Rleb_spec u v); [reflexivity|lra] end. }
  assert (q = b) as ->. { apply K2; match goal with |- Rleb ?u ?v = true => destruct (Rleb_spec u v); [reflexivity|lra] end. }
  reflexivity.
Qed.
Lemma diag_at s a d : diag s a d -> at_pt bx_C 2 bx_F bx_G s (dg a) (dg a).
Proof.
  intros [Ha Hd Ex Ef Eg Eh En Ed]. assert (B : boxpt bx_C 2 (dg a)) by (apply bx_inside; lra). constructor; auto. split; [exact B|]. split.
  - intros i Hi. destruct i as [|[|i]]; [| |lia]; split; cbn; match goal with |- Rltb ?u ?v = true => destruct (Rltb_spec u v); [reflexivity|lra] end.
  - intros i _. rewrite Rminus_diag_eq, Rabs_R0 by reflexivity. left. apply margin_pos.
Qed.
Lemma diag_exact s a d : diag s a d -> exact_head bx_E bx_C 2 2 s.
Proof.
  intros HD. destruct (diag_args s a d HD) as (t & H1 & H2 & EA). pose proof HD as [Ha Hd Ex Ef Eg Eh En Ed]. constructor.
  - exists (cI 2). split; [exact Eh|]. split; [apply cI_mat|]. split; [apply cI_sym|]. split; [|apply cI_posdef; lra].
    intros z Lz. rewrite cI_form by auto. pose proof (rdot_self_nonneg z). rewrite Rabs_pos_eq; lra.
  - intros A HA. rewrite EA, (rA_shess 2 (dg a) (dg (2 * a)) (cI 2) (dg (sqrt (a + 10))) (dg 1) d t _ _ (diag_problem a d t Ha Hd H1)), dg_B in HA by auto.
    apply fm_inj in HA. subst A. split; [intros _; apply cI_solvable; lra|discriminate].
  - intros sp Hp. destruct (diag_proposal s a d sp HD Hp) as (_ & Et & _). now rewrite Et.
Qed.

Section Walk.
  Variables (ndim : nat) (sid : option string) (h0 : hess0_arg ER) (st : opt ER).
  Local Notation head := (loop_head bx_E bx_C ndim (fv (dg 1)) sid h0 st).
  Lemma diag_pass f s s1 f' s' a d : head f s -> check_continue bx_E bx_C s = (Ok true, s1) -> iteration bx_E bx_C f s1 = (Ok f', s') ->
    diag s a d -> exists d', diag s' (nxt a) d'.
  Proof.
    intros HL Hc Hi HD.
    destruct (C15_pass bx_E bx_C ndim (fv (dg 1)) sid h0 st f s s1 f' s' HL Hc Hi) as (sp & r & v & g & P1 & P2 & P3 & P4 & P5 & P6).
    destruct (C14_radius_rule bx_E bx_C ndim (fv (dg 1)) sid h0 st f s s1 f' s' HL Hc Hi) as (sp2 & r2 & v2 & g2' & Q1 & Q2 & Q3 & Q4 & Q5 & Q6).
    destruct (C15_hessian_after_acceptance bx_E bx_C ndim (fv (dg 1)) sid h0 st f s s1 f' s' HL Hc Hi) as (sp3 & r3 & v3 & g3 & pf & S1 & S2 & S3 & S4 & S5 & S6).
    assert (sp2 = sp) as -> by (destruct P1 as [P1 _], Q1 as [Q1 _]; rewrite P1 in Q1; now apply Ok_inj in Q1).
    assert (sp3 = sp) as -> by (destruct P1 as [P1 _], S1 as [S1 _]; rewrite P1 in S1; now apply Ok_inj in S1).
    assert (r2 = r) as -> by (rewrite P2 in Q2; apply app_inv_head in Q2; injection Q2; auto).
    assert (r3 = r) as -> by (rewrite P2 in S2; apply app_inv_head in S2; injection S2; auto).
    rewrite P4 in Q3, S4. injection Q3 as <-. injection S4 as <-. rewrite P5 in Q4, S5. injection Q4 as <-. injection S5 as <-.
    destruct (diag_proposal s a d sp HD P1) as (Ez & Et & Eq). pose proof HD as [Ha Hd Ex Ef Eg Eh En Ed].
    pose proof (nxt_range a Ha) as Hn. set (n' := nxt a) in *. set (z := zst a) in *.
    rewrite Et in P3. subst r. cbn [bx_E e_obj dg fv map] in P4, P5, S3.
    assert (Ev : v = Fin (bx_F (dg n'))) by (cbn in P4; injection P4 as <-; reflexivity).
    assert (Eg' : g = fv (dg (2 * n'))) by (cbn in P5; injection P5 as <-; reflexivity).
    assert (Eh' : pf_hess pf = PMat 2 (fm (cI 2))) by (cbn in S3; apply Ok_inj in S3; subst pf; reflexivity).
    assert (Esd : scaling_derivative bx_C s = fv (dg 1)) by (unfold scaling_derivative; rewrite Ex, Eg; apply dg_args; exact Ha).
    set (act := bx_F (dg a) - bx_F (dg n') - / 2 * rdot (dg z) (rmul (rmul (dg 1) (rabsv (dg (2 * n')))) (dg z))).
    set (pd := (4 * a + 20) * (z * z)). fold pd in Eq.
    assert (Ea : actual_decrease sp (fv (dg 1)) (Fin (bx_F (dg a))) v g = Fin act).
    { unfold actual_decrease. cbv zeta. rewrite Ez, Ev, Eg', h_vabs, !h_vmul, h_dot, half_fin. reflexivity. }
    assert (Hz : 0 < z * z) by (apply zst_sq; exact Ha).
    assert (Hpd : 0 < pd) by (unfold pd; nra).
    assert (Hact : pd <= act).
    { assert (S : sqrt (a + 10) * sqrt (a + 10) = a + 10) by (apply sqrt_sqrt; lra).
      pose proof (zst_step a Ha) as Hk. fold z in Hk. set (q := sqrt (a + 10)) in *. set (k := a * (a + 10) / (2 * a + 10)) in *.
      assert (Kn : n' = a - k) by (unfold n', nxt, k; field; lra). assert (Kp : 0 < k) by (apply Rdiv_lt_0_compat; nra).
      assert (K1 : k * (2 * a + 10) = a * (a + 10)) by (unfold k; field; lra).
      assert (K2 : k * k = (a + 10) * (z * z)) by (rewrite <- S; nra).
      assert (K3 : 2 * a * k = (4 * a + 20) * (z * z)).
      { apply (Rmult_eq_reg_r (a + 10)); [|lra]. replace ((4 * a + 20) * (z * z) * (a + 10)) with (2 * (2 * a + 10) * ((a + 10) * (z * z))) by ring. rewrite <- K2.
        replace (2 * a * k * (a + 10)) with (2 * k * (a * (a + 10))) by ring. rewrite <- K1. ring. }
      assert (Ae : act = 2 * (a * a - n' * n') - 2 * n' * (z * z)).
      { unfold act, bx_F, rdot, rmul, rabsv, dg. cbn. rewrite (Rabs_pos_eq (2 * n')) by lra. field. }
      rewrite Ae. unfold pd. replace (a * a - n' * n') with (2 * a * k - k * k) by (rewrite Kn; ring). rewrite K2, K3. clear - Hz Hn Ha Kn Kp. nra. }
    assert (Hr : 1 <= act / pd) by (apply (Rmult_le_reg_r pd); [exact Hpd|]; unfold Rdiv; rewrite Rmult_assoc, Rinv_l by lra; lra).
    assert (Hacc : tr_ratio_of bx_C s sp v g = Fin (act / pd) /\ accepts bx_C s sp v g = true).
    { unfold tr_ratio_of, accepts, predicted_decrease. rewrite Esd, Ef, Eq, Ea. rewrite Ev.
      assert (Eo : nopp (Fin (- pd)) = Fin pd) by (cbn; f_equal; ring). rewrite Eo. clearbody act pd.
      cbn [ERNum nisfin er_isfin negb nleb er_leb n0 nofZ nltb er_ltb ndiv er_div andb].
      destruct (Rleb_spec pd 0); [lra|]. destruct (Rltb_spec 0 pd); [|lra]. destruct (Reqb_spec pd 0); [lra|]. split; [reflexivity|].
      destruct (Rltb_spec 0 (act / pd)); [reflexivity|lra]. }
    destruct Hacc as [Hra Hac]. rewrite Hac in P6. destruct P6 as (A1 & A2 & A3 & _). specialize (S6 Hac). rewrite En in S6.
    destruct S6 as (nc & S6 & S7). rewrite Eh' in S6. injection S6 as _ S6.
    rewrite Hra, Ed, Ev in Q6. rewrite (radius_box _ _ _ _ _ _ _ _ _ _ _ _ _ _ _ _ bx_setting sp (dg z)) in Q6 by exact Ez.
    exists (new_radius (/ 4) (3 / 4) (/ 4) 2 (act / pd) (dg z) d). constructor; auto.
    - unfold new_radius. destruct (Rleb (3 / 4) (act / pd) && negb (Rltb (rnorm (dg z)) (d * (9 / 10)))); [lra|].
      destruct (Rleb_spec (act / pd) (/ 4)); [lra|exact Hd].
    - rewrite A3, Et. apply bx_nudge; lra.
    - now rewrite A1.
    - now rewrite A2.
  Qed.
End Walk.

Definition bx_st : opt ER := cx_st.
Local Notation bx_head := (loop_head bx_E bx_C 1 (fv [1; 1]) None H0None bx_st).
Lemma bx_nudged : nudge bx_C (fv [1; 1]) = fv [1; 1].
Proof. apply bx_nudge; lra. Qed.
Lemma bx_prepare : exists f s, prepare bx_E bx_C 1 (fv [1; 1]) None H0None bx_st = (Ok f, s) /\ diag s 1 1.
Proof.
  destruct (prepare bx_E bx_C 1 (fv [1; 1]) None H0None bx_st) as [r s] eqn:Ep.
  assert (Hib : in_bounds bx_C (nudge bx_C (fv [1; 1])) = true).
  { rewrite bx_nudged. cbn [fv map]. unfold in_bounds. cbn [bx_C c_ub c_lb vsub map2 map forallb nsub ERNum er_sub er_opp er_add nmul er_mul nopp n1 n0 nofZ nleb er_leb].
    repeat match goal with |- context [Rleb ?p ?q] => destruct (Rleb_spec p q); [|exfalso; lra] end. reflexivity. }
  pose proof Ep as Ep'. apply prepare_inv in Ep.
  inversion Ep as [A1 A2|A1 A2|e A1 A2 A3|pf e A1 A2 A3 A4|pf hess h' e A1 A2 A3 A4 A5|pf hess h' f A1 A2 A3 A4 A5 A6 A7|pf hess h' f A1 A2 A3 A4 A5 A6 A7 Ef Es]; subst.
  - discriminate.
  - congruence.
  - unfold pr_ret in A3. rewrite bx_nudged in A3. discriminate.
  - unfold pr_ret in A3. rewrite bx_nudged in A3. injection A3 as <-. discriminate.
  - unfold pr_ret in A3. rewrite bx_nudged in A3. injection A3 as <-. destruct A5; discriminate.
  - unfold pr_ret in A3. rewrite bx_nudged in A3. injection A3 as <-. injection A6 as <-. discriminate.
  - exists f. eexists. split; [reflexivity|].
    destruct (start_box bx_E bx_C 2 bx_F bx_G 2 2 20 20 (/ 4) (3 / 4) (/ 4) 2 1 (/ 2) 1 bx_setting 1 [1; 1] None H0None bx_st f _ [1; 1]
      (bx_inside 1 1 ltac:(lra) ltac:(lra)) bx_nudged Ep') as ([_ Ex _ Ef Eg] & _ & Ed).
    unfold pr_ret in A3. rewrite bx_nudged in A3. injection A3 as <-. injection A4 as <- <-.
    constructor; [lra|lra|exact Ex|exact Ef| | | |exact Ed].
    + rewrite Eg. unfold bx_G, dg. cbn [nth]. reflexivity.
    + unfold pr_s4. destruct better; reflexivity.
    + unfold pr_s4. destruct better; reflexivity.
Qed.
Lemma bx_walk eps f s : steep_box bx_E bx_C 1 [1; 1] None H0None bx_st eps f s -> exists a d, diag s a d.
Proof.
  induction 1 as [f s Hp|f s s1 f' s' HS (a & d & HD) Hn Hc Hi].
  - destruct bx_prepare as (f1 & s1 & E1 & HD). rewrite E1 in Hp. injection Hp as <- <-. eauto.
  - pose proof (steep_box_head _ _ _ _ _ _ _ _ _ _ HS) as HL. destruct (diag_pass 1 None H0None bx_st f s s1 f' s' a d HL Hc Hi HD) as (d' & HD'). eauto.
Qed.
(** all hypotheses of C63_exact_solvers hold for this run to the tolerance 8, and its first head is steep *)
Example C63_ex :
  box_setting bx_E bx_C 2 bx_F bx_G 2 2 20 20 (/ 4) (3 / 4) (/ 4) 2 1 (/ 2) (chi_of (op_subspace_dim (c_opts bx_C)))
  /\ boxpt bx_C 2 [1; 1] /\ nudge bx_C (fv [1; 1]) = fv [1; 1] /\ reach bx_C 2 bx_F 20 (bx_F [1; 1])
  /\ coarse_box 2 2 2 20 20 (/ 4) (/ 4) 1 (/ 2) 1 8
  /\ exact_run bx_E bx_C 2 2 1 [1; 1] None H0None bx_st 8
  /\ (forall y, boxpt bx_C 2 y -> 0 <= bx_F y)
  /\ exists f s, steep_box bx_E bx_C 1 [1; 1] None H0None bx_st 8 f s /\ nleb (Fin 8) (norm (scaled_gradient bx_C s)) = true.
Proof.
  split; [exact bx_setting|]. split; [apply bx_inside; lra|]. split; [exact bx_nudged|]. split; [apply bx_reach|]. split; [|split; [|split]].
  - assert (El : least_rad 2 2 20 20 (/ 4) (/ 4) 1 (/ 2) 1 8 = 3 / 2656).
    { unfold least_rad, kappa, L2, M2, Wd, mu2. rewrite (Rmin_left (/ 4) (1 / 4)) by lra. rewrite Rmin_right; lra. }
    unfold coarse_box. rewrite El. split.
    + assert (K : / IZR (2 ^ 26) <= / 1000) by (apply Rinv_le_contravar; [lra|apply IZR_le; discriminate]). lra.
    + unfold E0, margin. cbn [INR]. lra.
  - intros f s HS _. destruct (bx_walk 8 f s HS) as (a & d & HD). now apply (diag_exact s a d).
  - intros y Hy. unfold bx_F. nra.
  - destruct bx_prepare as (f & s & Ep & HD). exists f, s. split; [now apply sb_start|].
    destruct (diag_args s 1 1 HD) as (t & _ & _ & EA). unfold scaled_gradient. rewrite EA, rA_sg, h_norm, dg_sg. cbn [nleb ERNum er_leb].
    assert (S : sqrt (1 + 10) * sqrt (1 + 10) = 1 + 10) by (apply sqrt_sqrt; lra). set (q := sqrt (1 + 10)) in *.
    assert (K : 8 <= rnorm (dg (q * (2 * 1)))).
    { unfold rnorm, rdot, dg. cbn. rewrite <- (sqrt_square 8) by lra. apply sqrt_le_1; nra. }
    destruct (Rleb_spec 8 (rnorm (dg (q * (2 * 1))))); [reflexivity|lra].
Qed.
