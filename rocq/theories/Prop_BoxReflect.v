(** C12: a reflected trial point can leave the box by rounding (double precision runs with the default options) *)
From Coq Require Import String ZArith List Bool.
From Flocq Require Import BinarySingleNaN.
From Verif Require Import Num Constants Subproblem HessApprox Steps TrustRegion Minimize ER F64 Spec Witness Prop_BoxF64.
Import ListNotations.
Local Open Scope num_scope.

Definition ratio (a b : Z) : F64 := fz a / fz b.
(** the box x >= 1/10, y >= 1/10 *)
Definition tenths : list F64 := [ratio 1 10; ratio 1 10].
Definition no_upper : list F64 := [ninf; ninf].
Definition outside (lb : list F64) (p : list F64 * retval F64) : bool := negb (in_box_b lb no_upper (fst p)).

(** a run that ends with an exception *)
Definition run_fails obj lb ub d h resfun fuel x0 (P : cfg F64 -> exn -> opt F64 -> bool) : bool :=
  match optimizer_init (fun _ => false) lb ub d h resfun [] with
  | Ok (C, st0) => match minimize (world obj) C fuel 1 x0 None H0None st0 with (Err e, s) => P C e s | _ => false end
  | Err _ => false
  end.
Lemma failing_run obj lb ub d h resfun fuel x0 P : run_fails obj lb ub d h resfun fuel x0 P = true ->
  exists C st0 e s, optimizer_init (fun _ => false) lb ub d h resfun [] = Ok (C, st0)
    /\ minimize (world obj) C fuel 1 x0 None H0None st0 = (Err e, s) /\ P C e s = true.
Proof.
  unfold run_fails. destruct optimizer_init as [[C st0]|]; [|discriminate].
  destruct minimize as [[r|e] s] eqn:E; [discriminate|]. intros H. exists C, st0, e, s. auto.
Qed.

(** a run that raises at its third point, after two points in the box *)
Definition third_point_out (lb ub : list F64) (e : exn) (s : opt F64) : Prop :=
  e = ERuntime /\ o_flag s = EXCEEDED_BOUNDARY /\ exists p q r, o_evals s = [p; q; r]
  /\ in_box lb ub (fst p) /\ in_box lb ub (fst q) /\ (exists a b, fst r = [a; b] /\ (a <? nth 0 lb n0) = true /\ (b <? nth 1 lb n0) = true).
Definition third_point_out_b (lb ub : list F64) (e : exn) (s : opt F64) : bool :=
  match e, o_evals s with
  | ERuntime, [p; q; r] => eqflag (o_flag s) EXCEEDED_BOUNDARY && in_box_b lb ub (fst p) && in_box_b lb ub (fst q)
      && match fst r with [a; b] => (a <? nth 0 lb n0) && (b <? nth 1 lb n0) | _ => false end
  | _, _ => false
  end.
Lemma third_point_out_ok lb ub e s : third_point_out_b lb ub e s = true -> third_point_out lb ub e s.
Proof.
  unfold third_point_out_b, third_point_out. intros HP. destruct e; try discriminate HP. destruct (o_evals s) as [|p [|q [|r [|]]]]; try discriminate HP.
  apply andb_true_iff in HP as [HP HP4]. apply andb_true_iff in HP as [HP HP3]. apply andb_true_iff in HP as [HP1 HP2].
  split; [reflexivity|]. split.
  { unfold eqflag in HP1. destruct (o_flag s); try discriminate HP1; reflexivity. }
  exists p, q, r. split; [reflexivity|]. split; [now apply in_box_b_ok|]. split; [now apply in_box_b_ok|].
  destruct (fst r) as [|a [|b [|]]]; try discriminate HP4. apply andb_true_iff in HP4 as [A B]. exists a, b. auto.
Qed.

(** minimizing x + y over x, y >= 1/10 from (1, 6/5) with the default options raises RuntimeError: the start and the first trial point
    are in the box, the second trial point is below both lower bounds *)
Theorem C12_reflected_refuted : exists C st0 e st',
  optimizer_init (fun _ => false) tenths no_upper [] None false [] = Ok (C, st0)
  /\ minimize (world linear) C 200 1 [fz 1; ratio 6 5] None H0None st0 = (Err e, st')
  /\ third_point_out tenths no_upper e st'.
Proof.
  assert (H : run_fails linear tenths no_upper [] None false 200 [fz 1; ratio 6 5] (fun _ e s => third_point_out_b tenths no_upper e s) = true)
    by (vm_compute; reflexivity).
  apply failing_run in H. destruct H as (C & st0 & e & s & H0 & H1 & H2). exists C, st0, e, s. split; [exact H0|]. split; [exact H1|].
  now apply third_point_out_ok.
Qed.

(** the objective can be called outside of the box without any error: x + y over x >= 1/1000, y >= 1/300, from (4/5, 8/7) *)
Definition uneven : list F64 := [ratio 1 1000; ratio 1 300].
Theorem C12_unnoticed_refuted : exists C st0 fv x g h st' p,
  optimizer_init (fun _ => false) uneven no_upper [] None false [] = Ok (C, st0)
  /\ minimize (world linear) C 200 1 [ratio 8 10; ratio 8 7] None H0None st0 = (Ok (fv, x, g, h), st')
  /\ In p (o_evals st') /\ ~ in_box uneven no_upper (fst p).
Proof.
  assert (H : run_check linear uneven no_upper [] None false 200 [ratio 8 10; ratio 8 7]
    (fun _ _ _ _ _ s => existsb (outside uneven) (o_evals s)) = true) by (vm_compute; reflexivity).
  apply run_witness in H. destruct H as (C & st0 & fv & x & g & h & s & H0 & H1 & H2).
  apply existsb_exists in H2 as (p & Hp & H2). exists C, st0, fv, x, g, h, s, p. split; [exact H0|]. split; [exact H1|]. split; [exact Hp|].
  unfold outside in H2. apply negb_true_iff in H2. intros K. apply in_box_b_ok in K. congruence.
Qed.
