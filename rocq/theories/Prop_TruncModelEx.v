(** C76: a truncated candidate with two directions left, to which C76_moving_part and C76_decoupled apply *)
From Coq Require Import String ZArith List Bool Reals Lra Lia Psatz.
From Verif Require Import Num Constants Subproblem HessApprox Steps TrustRegion Minimize
  ER NumFacts Spec RVec Ortho SubNd Prop_Secular Prop_SubNd RShess Argmin Cand StepFacts Prop_Pred Prop_Box Prop_Cand
  RealStep Prop_Grad GradEx Region Prop_Trunc Prop_Stepback Prop_TwoD Prop_Region UnboundedFull Prop_TruncFull
  Prop_Converge2 Prop_ConvergeBoxEx Prop_TruncModel.
Import ListNotations.
Local Open Scope R_scope.
Local Open Scope list_scope.

(** three variables, gradient (1,1,1), identity Hessian, radius 10, one bound x1 >= -1/4 *)
Definition k3_sub : SubOracles ER :=
  mkSubOracles ER (fun A => Some (repeat (Fin 1) (length A), fm (reye (length A)))) interpolate (fun _ _ _ _ => NoConv).
Definition k3_la : StepOracles ER :=
  mkStepOracles ER k3_sub (fun _ => None) (fun _ _ => None) (fun _ _ _ _ _ _ _ => None) 10 10.
Definition k3_lb : list ER := [Fin (- / 4); NInf; NInf].
Definition k3_ub : list ER := [PInf; PInf; PInf].
Definition k3_A := rA [0; 0; 0] [1; 1; 1] (reye 3) [1; 1; 1] [0; 0; 0] 10 (/ 2) k3_lb k3_ub.
Ltac reals := cbn; repeat (match goal with |- context [Reqb ?a ?b] => destruct (Reqb_spec a b); try lra
  | |- context [Rltb ?a ?b] => destruct (Rltb_spec a b); try lra | |- context [Rleb ?a ?b] => destruct (Rleb_spec a b); try lra end; cbn).
Ltac lists := repeat (match goal with |- _ :: _ = _ :: _ => f_equal end; try lra).
Lemma k3_problem : problem 3 [0; 0; 0] [1; 1; 1] (reye 3) [1; 1; 1] [0; 0; 0] 10 (/ 2) k3_lb k3_ub.
Proof.
  constructor; try reflexivity; try lra; auto; try lia.
  - apply is_mat_eye.
  - apply symmetric_eye.
  - repeat constructor; lra.
  - intros i Hi. destruct i as [|[|[|]]]; try lia; split; cbn; auto. destruct (Rleb_spec (- / 4) 0); [auto|lra].
Qed.
Lemma k3_eig : eig_decomposition 3 (reye 3) [1; 1; 1] (reye 3).
Proof.
  split; [reflexivity|]. split; [apply is_mat_eye|]. split; [apply orthonormal_eye|].
  intros [|[|[|i]]] Hi; try lia; unfold rmv, rscale, rdot, reye; cbn; repeat (match goal with |- _ :: _ = _ :: _ => f_equal end; try lra).
Qed.
Lemma k3_nd : nd_problem 3 (reye 3) [1; 1; 1] 10 [1; 1; 1] (reye 3) k3_sub.
Proof. repeat split; try apply is_mat_eye; try apply symmetric_eye; try apply k3_eig; try lia; try lra; auto. Qed.
Lemma k3_solution : solve_nd_trust_region_subproblem k3_sub (fm (reye 3)) (fv [1; 1; 1]) (Fin 10) = Ok (fv [-1; -1; -1], CPosdef).
Proof.
  destruct k3_nd as (HB & HS & Hg & Hn & Hd & HD & HE).
  rewrite (solve_unfold 3 (reye 3) [1; 1; 1] 10 [1; 1; 1] (reye 3)) by auto.
  assert (Em : mineig [1; 1; 1] = 1).
  { assert (K : (jm [1; 1; 1]%R < 3)%nat) by (apply (jm_lt 3 (reye 3) [0; 0; 0] [1; 1; 1] (reye 3)); auto using k3_eig).
    unfold mineig, ev. destruct (jm [1; 1; 1]) as [|[|[|k]]]; [reflexivity..|lia]. }
  assert (Er : rslam 3 [1; 1; 1] (reye 3) 0 (ww [1; 1; 1] (reye 3)) = [-1; -1; -1]).
  { unfold rslam, coefs, ww, cf, rmv, rscale, rdot. cbn. destruct (Reqb_spec (1 + 0) 0); [lra|]. cbn. lists. }
  rewrite Em. unfold sn. rewrite Er.
  assert (N : rnorm [-1; -1; -1] <= 10) by (apply rnorm_le; [lra|]; cbn; lra).
  destruct (Rltb_spec 0 1); [|lra]. unfold e26. destruct (Rleb_spec (rnorm [-1; -1; -1]) (10 + / IZR (2 ^ 26))) as [|C]; [reflexivity|].
  exfalso. assert (0 < / IZR (2 ^ 26)) by (apply Rinv_0_lt_compat, IZR_lt; reflexivity). lra.
Qed.
Lemma k3_B : rB 3 [1; 1; 1] (reye 3) [1; 1; 1] [0; 0; 0] = reye 3.
Proof. unfold rB, rshess, rabsv, rmul, entry, reye. cbn. lists. Qed.
Lemma k3_sg : rsg [1; 1; 1] [1; 1; 1] = [1; 1; 1].
Proof. unfold rsg, rmul. cbn. lists. Qed.
Lemma k3_br : breakpoints (fv [0; 0; 0]) (fv [-1; -1; -1]) k3_lb k3_ub = [Fin (/ 4); PInf; PInf].
Proof. unfold k3_lb, k3_ub. cbn. unfold breakpoint. cbn. replace (Rabs (-1)) with 1 by (rewrite Rabs_left; lra). reals. all: try (repeat match goal with |- _ :: _ = _ :: _ => f_equal | |- Fin _ = Fin _ => f_equal end; lra). Qed.
Lemma k3_main : exists c, main_step k3_la k3_A "full" = Ok c /\ st_subspace c = fm (reye 3) /\ (st_alpha c =? n1)%num = false
  /\ mem 0 (st_iminbr c) = true /\ mem 1 (st_iminbr c) = false /\ mem 2 (st_iminbr c) = false
  /\ st_br c = [Fin (/ 4); PInf; PInf] /\ st_theta c = Fin (/ 2) /\ st_s0 c = fv (rzeros 3) /\ st_ss0 c = fv (rzeros 3)
  /\ st_og_s c = fv [-1; -1; -1] /\ st_og_ss c = fv [-1; -1; -1].
Proof.
  pose proof k3_problem as P. pose proof (rA_shess 3 _ _ _ _ _ _ _ _ _ P) as Esh.
  pose proof (rA_sg [0; 0; 0] [1; 1; 1] (reye 3) [1; 1; 1] [0; 0; 0] 10 (/ 2) k3_lb k3_ub) as Esg.
  fold k3_A in Esh, Esg. rewrite k3_B in Esh. rewrite k3_sg in Esg.
  set (st := tr_step_full k3_A).
  assert (Esub : st_subspace st = fm (reye 3)) by (unfold st, tr_step_full; cbn [new_step st_subspace]; change (length (a_hess k3_A)) with 3%nat; apply h_eye).
  assert (E1 : st_shess st = fm (reye 3)) by exact Esh.
  assert (E2 : st_sg st = fv [1; 1; 1]) by exact Esg.
  assert (Ech : subspace_hess st = fm (reye 3)).
  { transitivity (fm (redB (reye 3) (reye 3))).
    - rewrite <- h_redB. unfold subspace_hess. now rewrite Esub, E1.
    - f_equal. unfold redB, reye, rmv, rdot. cbn. lists. }
  assert (Ecg : tmatvec (st_subspace st) (st_sg st) = fv [1; 1; 1]).
  { rewrite Esub, E2, h_tmatvec. f_equal. unfold rmv, reye, rdot. cbn; lists. }
  assert (Z0 : zeros_of k3_A = fv (rzeros 3)) by (unfold k3_A; rewrite (zeros_rA 3 _ _ _ _ _ _ _ _ _ P); reflexivity).
  assert (Ed : nsqrt (pymax (nsq (Fin 10) - nsq (norm (fv (rzeros 3))))%num n0) = Fin 10).
  { rewrite h_norm. replace (rnorm (rzeros 3)) with 0 by (unfold rnorm; rewrite rdot_zeros_l, sqrt_0; reflexivity).
    unfold nsq, pymax. cbn [nsub nmul nltb nsqrt ERNum er_sub er_add er_opp er_mul er_ltb n0 nofZ].
    destruct (Rltb_spec (10 * 10 + - (0 * 0)) 0); [lra|]. cbn [er_sqrt].
    destruct (Rltb_spec (10 * 10 + - (0 * 0)) 0); [lra|]. f_equal. replace (10 * 10 + - (0 * 0)) with (10 * 10) by ring. apply sqrt_square. lra. }
  assert (Hex : exists c, calculate k3_la st = Ok c).
  { unfold calculate. assert (K : exists c, compute_step k3_la (reduce_to_subspace st) = Ok c); [|destruct K as (c & ->); eexists; reflexivity].
    unfold compute_step. change (st_subspace (reduce_to_subspace st)) with (st_subspace st). rewrite Esub. cbn [fm map reye seq].
    change (st_chess (reduce_to_subspace st)) with (subspace_hess st). change (st_cg (reduce_to_subspace st)) with (tmatvec (st_subspace st) (st_sg st)).
    rewrite Ech, Ecg.
    change (st_delta (reduce_to_subspace st)) with (Fin 10). change (st_ss0 (reduce_to_subspace st)) with (zeros_of k3_A).
    rewrite Z0, Ed. change (so_sub k3_la) with k3_sub. rewrite k3_solution. eexists. reflexivity. }
  destruct Hex as (c & Hc). exists c. split; [exact Hc|].
  pose proof (calculate_fields k3_la st c Hc) as (sc & ss & s & Hsol & Ess & Es' & Hst & _ & Kch & Kcg).
  split; [destruct Hst; now rewrite sb_subspace|].
  revert Hsol. unfold solved. rewrite Ecg, Esub. cbn [fm map reye seq]. rewrite Ech.
  change (st_delta st) with (Fin 10). change (st_ss0 st) with (zeros_of k3_A). rewrite Z0, Ed.
  change (so_sub k3_la) with k3_sub.
  rewrite k3_solution. intros (lab' & Hsol). apply Ok_inj in Hsol. apply pair_equal_spec in Hsol as [<- _].
  assert (L0 : length (st_s0 st) = 3%nat) by (change (st_s0 st) with (zeros_of k3_A); rewrite Z0; reflexivity).
  rewrite L0, Esub, h_lincomb in Ess. rewrite Esub in Es'. cbn [fm map reye seq] in Es'.
  change (st_scaling st) with (fv [1; 1; 1]) in Es'. rewrite Ess, h_vmul in Es'.
  replace (rmul [1; 1; 1] (rlincomb 3 [-1; -1; -1] (reye 3))) with [-1; -1; -1] in Es'.
  2:{ unfold rmul, reye, rscale. cbn. lists. }
  assert (Bx : boxed k3_A (/ 2) c).
  { eapply stepped_boxed; [reflexivity| | |exact Hst].
    - apply (start_eq 3 [0; 0; 0] [1; 1; 1] (reye 3) [1; 1; 1] [0; 0; 0] 10 (/ 2) k3_lb k3_ub P).
    - apply (A_box 3 [0; 0; 0] [1; 1; 1] (reye 3) [1; 1; 1] [0; 0; 0] 10 (/ 2) k3_lb k3_ub P). }
  assert (Eog : st_og_s c = fv [-1; -1; -1]) by (destruct Hst; rewrite sb_og_s; exact Es').
  assert (Ex : st_x c = fv [0; 0; 0]) by (destruct Hst; rewrite sb_x; reflexivity).
  assert (Eb : st_br c = [Fin (/ 4); PInf; PInf]) by (rewrite (bx_br _ _ _ Bx), Ex, Eog; exact k3_br).
  split; [|split; [|split; [|split]]].
  - rewrite (bx_alpha _ _ _ Bx), (bx_minbr _ _ _ Bx), Eb. unfold npmin. reals; try reflexivity.
  - rewrite (bx_im _ _ _ Bx), mem_where, (bx_minbr _ _ _ Bx), Eb. unfold npmin. reals; try reflexivity.
  - rewrite (bx_im _ _ _ Bx), mem_where, (bx_minbr _ _ _ Bx), Eb. unfold npmin. reals; try reflexivity.
  - rewrite (bx_im _ _ _ Bx), mem_where, (bx_minbr _ _ _ Bx), Eb. unfold npmin. reals; try reflexivity.
  - split; [exact Eb|]. destruct Hst. rewrite sb_theta, sb_s0, sb_ss0. split; [reflexivity|]. split; [exact Z0|]. split; [exact Z0|].
    split; [exact Eog|]. rewrite sb_og_ss, Ess. f_equal. unfold reye, rscale. cbn. lists.
Qed.
Definition k3_z : rvec := [- / 8; 0; 0].
Definition k3_sub2 : list rvec := [[0; 1; 0]; [0; 0; 1]].
Lemma k3_trunc (c : step ER) : mem 0 (st_iminbr c) = true -> mem 1 (st_iminbr c) = false -> mem 2 (st_iminbr c) = false ->
  rtrunc (st_iminbr c) (reye 3) = k3_sub2.
Proof.
  intros M0 M1 M2. unfold rtrunc, zeroed, reye, mapi. cbn [map seq mapi_from]. rewrite M0, M1, M2.
  assert (N1 : rnorm [0; 1; 0] = 1) by (unfold rnorm, rdot; cbn; replace (0 * 0 + (1 * 1 + (0 * 0 + 0))) with 1 by ring; apply sqrt_1).
  assert (N2 : rnorm [0; 0; 1] = 1) by (unfold rnorm, rdot; cbn; replace (0 * 0 + (0 * 0 + (1 * 1 + 0))) with 1 by ring; apply sqrt_1).
  assert (F : filter (fun col => negb (vall_zero (fv col))) [[0; 0; 0]; [0; 1; 0]; [0; 0; 1]] = k3_sub2).
  { cbn. destruct (Reqb_spec 0 0) as [_|]; [|lra]. destruct (Reqb_spec 1 0) as [|_]; [lra|]. reflexivity. }
  cbn [Nat.eqb]. rewrite F. unfold k3_sub2, rnormalize. cbn [map]. rewrite N1, N2. destruct (Rltb_spec 0 1); [|lra]. unfold rscale. cbn. lists.
Qed.
Lemma k3_fixed (c : step ER) : mem 0 (st_iminbr c) = true -> mem 1 (st_iminbr c) = false -> mem 2 (st_iminbr c) = false ->
  st_br c = [Fin (/ 4); PInf; PInf] -> st_theta c = Fin (/ 2) -> trunc_s0 c (fv (rzeros 3)) (fv [-1; -1; -1]) = fv k3_z.
Proof.
  intros M0 M1 M2 Eb Et. unfold trunc_s0, mapi. cbn [rzeros repeat fv map mapi_from]. rewrite M0, M1, M2, Eb, Et.
  cbn. unfold k3_z, fv. cbn. repeat match goal with |- _ :: _ = _ :: _ => f_equal | |- Fin _ = Fin _ => f_equal end; lra.
Qed.
Lemma no_bound y a : breakpoint (Fin y) (Fin a) NInf PInf = PInf.
Proof.
  unfold breakpoint. cbn. destruct (Rltb_spec 0 (Rabs a)) as [Ha|]; [|reflexivity].
  assert (a <> 0) by (intros ->; rewrite Rabs_R0 in Ha; lra). reals; try reflexivity.
Qed.
Lemma k3_nd2 r : 0 < r -> nd_problem 2 (cI 1) [1; 1] r [1; 1] (reye 2) k3_sub.
Proof.
  intros Hr. repeat split; try apply cI_mat; try apply cI_sym; try apply cI_eig; auto; lia.
Qed.
Lemma k3_roots r : 0 < r -> roots_found k3_sub [1; 1] r [1; 1] (reye 2).
Proof.
  intros Hr. destruct (cI_solvable 1 ltac:(lra)) as (vals & vecs & HD & HE & HR).
  assert (K : Some (fv [1; 1], fm (reye 2)) = Some (fv vals, fm vecs)) by exact HE.
  assert (E1 : fv [1; 1] = fv vals) by congruence. assert (E2 : fm (reye 2) = fm vecs) by congruence. clear K HE.
  apply fv_inj in E1. apply fm_inj in E2. subst vals vecs. apply (HR [1; 1] r eq_refl Hr).
Qed.

Example C76_ex : exists main l c, main_step k3_la k3_A "full" = Ok main /\ (st_alpha main =? n1)%num = false
  /\ stepback_truncate k3_la k3_A main = Ok l /\ In c l /\ length (st_subspace c) = 2%nat /\ solved_convex k3_la 10 c.
Proof.
  destruct k3_main as (main & Hm & Hsub & Ha & M0 & M1 & M2 & Eb & Et & E0 & E00 & Eo & Eoo). exists main.
  pose proof k3_problem as P. pose proof (rA_shess 3 _ _ _ _ _ _ _ _ _ P) as Esh.
  pose proof (rA_sg [0; 0; 0] [1; 1; 1] (reye 3) [1; 1; 1] [0; 0; 0] 10 (/ 2) k3_lb k3_ub) as Esg.
  fold k3_A in Esh, Esg. rewrite k3_B in Esh. rewrite k3_sg in Esg.
  set (r := sqrt (100 - / 64)). assert (R0 : 0 < 100 - / 64) by lra.
  assert (Hr : 0 < r) by now apply sqrt_lt_R0. assert (Er : r * r = 100 - / 64) by (apply sqrt_sqrt; lra).
  destruct (C28_solves 2 (cI 1) [1; 1] r [1; 1] (reye 2) k3_sub 1 (k3_nd2 r Hr)) as (q & lab & Es & _).
  { split; [exists 0%nat; split; [lia|reflexivity]|]. intros [|[|i]] Hi; try lia; cbn; lra. }
  { now apply k3_roots. }
  { left. lra. }
  pose proof (C27_with_newton 2 _ _ _ _ _ _ _ _ (k3_nd2 r Hr) (k3_roots r Hr) Es) as (q' & Eq' & Lq & _). apply fv_inj in Eq'. subst q'.
  set (st := tr_step_truncated k3_A main).
  assert (Esub : st_subspace st = fm k3_sub2).
  { unfold st, tr_step_truncated. cbn [new_step st_subspace]. rewrite Hsub, h_trunc_subspace. f_equal. now apply k3_trunc. }
  assert (Ez : st_ss0 st = fv k3_z).
  { unfold st, tr_step_truncated. cbn [new_step st_ss0]. rewrite E00, Eoo. now apply k3_fixed. }
  assert (Ez0 : st_s0 st = fv k3_z).
  { unfold st, tr_step_truncated. cbn [new_step st_s0]. rewrite E0, Eo. now apply k3_fixed. }
  assert (Ech : subspace_hess st = fm (cI 1)).
  { transitivity (fm (redB (reye 3) k3_sub2)).
    - rewrite <- h_redB. assert (E1 : st_shess st = fm (reye 3)) by exact Esh. unfold subspace_hess. now rewrite Esub, E1.
    - f_equal. unfold redB, reye, rmv, rdot, k3_sub2, cI. cbn. lists. }
  assert (Ecg : tmatvec (st_subspace st) (st_sg st) = fv [1; 1]).
  { assert (E1 : st_sg st = fv [1; 1; 1]) by exact Esg. rewrite Esub, E1, h_tmatvec. f_equal. unfold rmv, rdot, k3_sub2. cbn. lists. }
  assert (Ed : nsqrt (pymax (nsq (Fin 10) - nsq (norm (fv k3_z)))%num n0) = Fin r).
  { rewrite h_norm. unfold nsq, pymax. cbn [nsub nmul nltb nsqrt ERNum er_sub er_add er_opp er_mul er_ltb n0 nofZ].
    assert (Q : 10 * 10 + - (rnorm k3_z * rnorm k3_z) = 100 - / 64) by (rewrite rnorm_sq; unfold k3_z, rdot; cbn; lra). rewrite Q.
    destruct (Rltb_spec (100 - / 64) 0); [lra|]. cbn [er_sqrt]. destruct (Rltb_spec (100 - / 64) 0); [lra|]. reflexivity. }
  assert (Hex : exists c, calculate k3_la st = Ok c).
  { unfold calculate. assert (K : exists c, compute_step k3_la (reduce_to_subspace st) = Ok c); [|destruct K as (c & ->); eexists; reflexivity].
    unfold compute_step. change (st_subspace (reduce_to_subspace st)) with (st_subspace st). rewrite Esub. cbn [fm map k3_sub2].
    change (st_chess (reduce_to_subspace st)) with (subspace_hess st). change (st_cg (reduce_to_subspace st)) with (tmatvec (st_subspace st) (st_sg st)).
    rewrite Ech, Ecg.
    change (st_delta (reduce_to_subspace st)) with (Fin 10). change (st_ss0 (reduce_to_subspace st)) with (st_ss0 st).
    rewrite Ez, Ed. change (so_sub k3_la) with k3_sub. rewrite Es. eexists. reflexivity. }
  destruct Hex as (c & Hc).
  pose proof (calculate_fields k3_la st c Hc) as (sc & ss & s & Hsol & Ess & Es' & Hst & _ & Kch & Kcg).
  assert (Esc : st_subspace c = fm k3_sub2) by (destruct Hst; now rewrite sb_subspace).
  assert (Esz : st_ss0 c = fv k3_z) by (destruct Hst; now rewrite sb_ss0).
  (* the rest of the step moves the free components only, and is not stepped back *)
  assert (Ha1 : (st_alpha c =? n1)%num = true).
  { revert Hsol. unfold solved. rewrite Ecg, Esub. cbn [fm map k3_sub2]. rewrite Ech, Ez.
    change (st_delta st) with (Fin 10). rewrite Ed. change (so_sub k3_la) with k3_sub. rewrite Es.
    intros (lab' & Hsol). apply Ok_inj in Hsol. apply pair_equal_spec in Hsol as [<- _].
    destruct q as [|a [|b [|]]]; try discriminate Lq.
    rewrite Ez0, Esub, h_lincomb in Ess. rewrite Esub in Es'. cbn [fm map k3_sub2] in Es'.
    change (st_scaling st) with (fv [1; 1; 1]) in Es'. rewrite Ess, h_vmul in Es'.
    change (length (fv k3_z)) with 3%nat in Es'.
    replace (rmul [1; 1; 1] (rlincomb 3 [a; b] k3_sub2)) with [0; a; b] in Es'.
    2:{ unfold rmul, rscale, k3_sub2. cbn. lists. }
    assert (Ex : st_x st = fv [- / 8; 0; 0]).
    { change (st_x st) with (vadd (a_x k3_A) (st_s0 st)). rewrite Ez0. change (a_x k3_A) with (fv [0; 0; 0]). rewrite h_vadd. f_equal.
      unfold k3_z. cbn. lists. }
    destruct Hst. rewrite sb_alpha, sb_minbr, sb_br, Es', Ex. change (st_lb st) with k3_lb. change (st_ub st) with k3_ub.
    unfold k3_lb, k3_ub. cbn [fv map breakpoints]. rewrite !no_bound.
    assert (B0 : breakpoint (Fin (- / 8)) (Fin 0) (Fin (- / 4)) PInf = PInf).
    { unfold breakpoint. cbn. rewrite Rabs_R0. destruct (Rltb_spec 0 0); [lra|reflexivity]. }
    rewrite B0. change (st_theta st) with (Fin (/ 2)). unfold npmin. reals; unfold er_infmul; reals; try reflexivity. }
  exists [c], c. split; [exact Hm|]. split; [exact Ha|]. split.
  { unfold stepback_truncate. fold st. rewrite Hc. change (so_trfuel k3_la) with 10%nat. cbn [truncate_loop]. rewrite Esc, Ha1. reflexivity. }
  split; [now left|]. split; [rewrite Esc; reflexivity|].
  exists 2%nat, (cI 1), [1; 1], [1; 1], (reye 2), k3_z, r, 1. split; [exact Esz|]. split; [exact Hr|].
  split; [rewrite Er; unfold k3_z, rdot; cbn; lra|]. split; [now rewrite Kch|]. split; [now rewrite Kcg|].
  split; [split; [exists 0%nat; split; [lia|reflexivity]|intros [|[|i]] Hi; try lia; cbn; lra]|].
  split; [lra|]. split; [now apply k3_nd2|now apply k3_roots].
Qed.
