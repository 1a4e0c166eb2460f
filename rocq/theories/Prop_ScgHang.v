(** C06: in double precision the conjugate-gradient loop of the scg solver need not end *)
From Coq Require Import String ZArith List Bool.
From Flocq Require Import BinarySingleNaN.
From Verif Require Import Num Constants Subproblem HessApprox Steps TrustRegion Minimize ER F64 Spec Witness Prop_BoxReflect.
Import ListNotations.
Local Open Scope num_scope.

Lemma nan_mul_l (x : F64) : nnan * x = nnan. Proof. reflexivity. Qed.
Lemma nan_mul_r (x : F64) : x * nnan = nnan. Proof. destruct x; reflexivity. Qed.
Lemma nan_add_l (x : F64) : nnan + x = nnan. Proof. reflexivity. Qed.
Lemma nan_add_r (x : F64) : x + nnan = nnan. Proof. destruct x; reflexivity. Qed.
Lemma nan_div_r (x : F64) : x / nnan = nnan. Proof. destruct x; reflexivity. Qed.
Lemma nan_leb (x : F64) : (nnan <=? x) = false. Proof. reflexivity. Qed.
Lemma nan_geb (x : F64) : (x <=? nnan) = false. Proof. destruct x as [| | |]; reflexivity. Qed.
Lemma nan_ltb (x : F64) : (nnan <? x) = false. Proof. reflexivity. Qed.
Lemma nan_sqrt : nsqrt (nnan : F64) = nnan. Proof. reflexivity. Qed.

(** once the search direction is NaN the loop goes on forever *)
Lemma nan_direction k h g delta eps z r : cg_loop k [[h]] [g] delta eps [z] [r] [nnan] = Err EDiverge.
Proof.
  revert z r. induction k as [|k IH]; intros z r; [reflexivity|].
  cbn [cg_loop]. unfold matvec, dot, norm, vadd, vscale, vopp, dot. cbn [map map2 fold_right vsum].
  rewrite !nan_mul_r. unfold dot, vsum. cbn [map2 fold_right]. rewrite ?nan_mul_r, ?nan_mul_l, ?nan_add_l, ?nan_div_r, ?nan_mul_l, ?nan_mul_r, ?nan_add_r.
  rewrite ?nan_mul_l, ?nan_add_l, ?nan_sqrt, ?nan_leb, ?nan_geb, ?nan_ltb. cbn [orb].
  apply IH.
Qed.

(** the first pass of the loop with one variable, from z = 0, leads to a NaN direction *)
Definition is_nan1 (v : list F64) : bool := match v with [B754_nan] => true | _ => false end.
Definition first_pass_nan (shess : list (list F64)) (sg : list F64) (delta eps : F64) (z r d : list F64) : bool :=
  let bd := matvec shess d in
  let c := dot d bd in
  let r2 := dot r r in
  let alpha := r2 / c in
  let zp := vadd z (vscale alpha d) in
  let rp := vadd r (vscale alpha bd) in
  let rp2 := dot rp rp in
  let beta := rp2 / r2 in
  negb ((c <=? n0) || (norm zp >=? delta)) && negb (nsqrt rp2 <? eps) && is_nan1 (vadd (vopp rp) (vscale beta d)) && Nat.eqb (List.length zp) 1 && Nat.eqb (List.length rp) 1.
Lemma one_element {A} (l : list A) : Nat.eqb (List.length l) 1 = true -> exists a, l = [a].
Proof. destruct l as [|a [|]]; try discriminate. now exists a. Qed.
Lemma first_pass_diverges k h g delta eps z r d : first_pass_nan [[h]] [g] delta eps z r d = true ->
  cg_loop k [[h]] [g] delta eps z r d = Err EDiverge.
Proof.
  unfold first_pass_nan. cbv zeta. intros H. destruct k as [|k]; [reflexivity|].
  apply andb_true_iff in H as [H H5]. apply andb_true_iff in H as [H H4]. apply andb_true_iff in H as [H H3]. apply andb_true_iff in H as [H1 H2].
  apply negb_true_iff in H1, H2. apply one_element in H4 as (zp & H4). apply one_element in H5 as (rp & H5).
  cbn [cg_loop]. rewrite H1, H2. rewrite H4.
  remember (vadd (vopp _) _) as d' eqn:Ed in H3 |- *.
  destruct d' as [|[| | |] [|]]; try discriminate H3. rewrite H5. apply nan_direction.
Qed.

(** what scg does with one variable *)
Definition scg_args_hang (A : sargs F64) : bool :=
  let sg := a_sg A in let eps := pymin nhalf (nsqrt (norm sg)) * norm sg in
  negb (norm sg <? eps) && first_pass_nan (shess_of (a_scaling A) (a_hess A) (a_gd A)) sg (a_delta A) eps (zeros_of A) sg (vopp sg)
  && match shess_of (a_scaling A) (a_hess A) (a_gd A), sg with [[_]], [_] => true | _, _ => false end.
Lemma scg_hangs O A strat : scg_args_hang A = true -> candidates O A "scg" strat = Err EDiverge.
Proof.
  unfold scg_args_hang. cbv zeta. intros H. apply andb_true_iff in H as [H H3]. apply andb_true_iff in H as [H1 H2]. apply negb_true_iff in H1.
  unfold candidates, main_step. cbn [String.eqb Ascii.eqb Bool.eqb]. unfold cg_step. rewrite H1.
  change (st_shess (new_step "cgs" A (a_x A) [] (zeros_of A) (zeros_of A) [] [] None None)) with (shess_of (a_scaling A) (a_hess A) (a_gd A)).
  destruct (shess_of (a_scaling A) (a_hess A) (a_gd A)) as [|[|h [|]] [|]]; try discriminate H3.
  destruct (a_sg A) as [|g [|]]; try discriminate H3. rewrite (first_pass_diverges _ _ _ _ _ _ _ _ H2). reflexivity.
Qed.

(** the first iteration from a state whose scg step hangs *)
Definition ready (E : env F64) (C : cfg F64) (st : opt F64) : bool :=
  match check_continue E C st with
  | (Ok true, s) =>
      let st1 := set_o_delta_iter (o_delta (set_o_iter (o_iter s + 1)%Z s)) (set_o_iter (o_iter s + 1)%Z s) in
      match check_finite_self st1 with
      | (Ok _, s2) =>
          let x := deref st1 (o_x st1) in
          let vdv := affine_scaling x (o_grad st1) (c_lb C) (c_ub C) in
          scg_args_hang (tr_args x (o_grad st1) (o_hess st1) (map (fun a => nsqrt (nabs a)) (map fst vdv)) (o_delta_iter st1) (map snd vdv)
            (pymax (op_theta_max (c_opts C)) (n1 - norm_inf (vmul (map fst vdv) (o_grad st1)))) (c_lb C) (c_ub C))
          && String.eqb (op_subspace_dim (c_opts C)) "scg"
      | _ => false
      end
  | _ => false
  end.
Lemma ready_hangs E C fuel f st : ready E C st = true -> fst (loop E C fuel f st) = Err EDiverge.
Proof.
  unfold ready. intros H. destruct fuel as [|fuel]; [reflexivity|]. cbn [loop]. unfold bind at 1.
  destruct (check_continue E C st) as [[[]|] s]; try discriminate H. cbv zeta in H.
  set (st1 := set_o_delta_iter _ _) in H. unfold bind at 1, iteration at 1. unfold bind at 1, modify at 1. unfold bind at 1, modify at 1. fold st1.
  unfold bind at 1, get at 1. cbv zeta. unfold bind at 1.
  destruct (check_finite_self st1) as [[u|] s2]; [|discriminate H].
  apply andb_true_iff in H as [H H2]. apply String.eqb_eq in H2. rewrite H2. unfold bind at 1, lift at 1.
  unfold trust_region. cbv zeta. rewrite (scg_hangs _ _ _ H). reflexivity.
Qed.
Definition run_hangs (E : env F64) (C : cfg F64) x0 (st0 : opt F64) : bool :=
  match prepare E C 1 x0 None H0None st0 with (Ok f, st) => ready E C st | _ => false end.
Lemma hanging_run E C x0 st0 fuel : run_hangs E C x0 st0 = true -> fst (minimize E C fuel 1 x0 None H0None st0) = Err EDiverge.
Proof.
  unfold run_hangs, minimize, bind. destruct (prepare E C 1 x0 None H0None st0) as [[f|] st]; [|discriminate]. intros H.
  pose proof (ready_hangs E C fuel f st H) as K. destruct (loop E C fuel f st) as [[u|e] s]; cbn [fst] in K |- *; [discriminate K|]. injection K as ->. reflexivity.
Qed.

(** f(x) = c x^2 with c = 2^600 (about 4e180): value, gradient and Hessian are finite at 1, but the square of the gradient is not *)
Definition steep (_ : nat) (x : list F64) : retval F64 :=
  let c : F64 := fofZ (2 ^ 600) in
  RTuple [PScal (c * dot x x); PVec (vscale (c + c) x); PMat (List.length x) (map (vscale (c + c)) (eye (List.length x)))].
Definition steep_world (O : StepOracles F64) : env F64 :=
  mkEnv steep (fun k => fofZ (Z.of_nat k)) (fun _ => "id"%string) O (fun _ => Some (n0, n1)) (fun _ => Some n1).
Definition scg_option : odict F64 := [(KStr "subspace_solver"%string, VStr "scg"%string)].

(** minimizing it from 1 with the scg solver does not end, whatever the number of passes the loops of minimize and of conj_grad are
    given (fuel and the so_cgfuel of O), and whatever the external routines do *)
Theorem C06_scg_hangs_refuted : exists C st0,
  optimizer_init (fun _ => false) [- ninf] [ninf] scg_option None false [] = Ok (C, st0)
  /\ forall O fuel, fst (minimize (steep_world O) C fuel 1 [n1] None H0None st0) = Err EDiverge.
Proof.
  exists (fst (built [- ninf] [ninf] scg_option None false)), (snd (built [- ninf] [ninf] scg_option None false)). split.
  - rewrite <- surjective_pairing. apply built_ok. vm_compute. reflexivity.
  - intros O fuel. apply hanging_run. vm_compute. reflexivity.
Qed.
(** the data is finite, and with the default options the same problem is solved with two evaluations *)
Example C06_scg_hangs_finite :
  (match steep 0 [n1] with RTuple [PScal v; PVec g; PMat _ h] => nisfin v && vfinite g && mfinite h | _ => false end) = true
  /\ exists C st0 fv x g h st', optimizer_init (fun _ => false) [- ninf] [ninf] [] None false [] = Ok (C, st0)
    /\ minimize (world steep) C 1001 1 [n1] None H0None st0 = (Ok (fv, x, g, h), st') /\ List.length (o_evals st') = 2%nat.
Proof.
  split; [vm_compute; reflexivity|].
  assert (H : run_check steep [- ninf] [ninf] [] None false 1001 [n1] (fun _ _ _ _ _ s => Nat.eqb (List.length (o_evals s)) 2) = true) by (vm_compute; reflexivity).
  apply run_witness in H. destruct H as (C & st0 & fv & x & g & h & s & H0 & H1 & H2). exists C, st0, fv, x, g, h, s. split; [exact H0|]. split; [exact H1|].
  now apply Nat.eqb_eq.
Qed.
