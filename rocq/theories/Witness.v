(** Concrete double-precision scenarios, used to show that the hypotheses of the theorems are met
    by non-trivial runs and as witnesses of the findings.  The external routines are simple
    executable stand-ins: exact for diagonal matrices, a plain Newton iteration as root finder. *)
From Coq Require Import ZArith List Bool String.
From Flocq Require Import BinarySingleNaN.
From Verif Require Import Num Constants Subproblem HessApprox Steps TrustRegion Minimize ER F64.
Import ListNotations.
Local Open Scope num_scope.

Definition diag_of (m : list (list F64)) : list F64 := mapi (fun i r => nth i r nnan) m.
Fixpoint newton_it (k : nat) (f f' : F64 -> F64) (x : F64) : F64 :=
  match k with
  | O => x
  | S k => if f x =? n0 then x else newton_it k f f' (x - f x / f' x)
  end.
Definition LA : StepOracles F64 :=
  mkStepOracles F64
    (mkSubOracles F64 (fun m => Some (diag_of m, eye (List.length m)))
       (fun f f' x => Root (newton_it 12 f f' x)) (fun _ _ _ _ => NoConv))
    (fun m => Some (diag_of m, vabs (diag_of m), eye (List.length m)))
    (fun m b => Some (map2 ndiv b (diag_of m)))
    (fun _ _ guess _ _ _ _ => Some guess)
    50 50.
Definition world (obj : nat -> list F64 -> retval F64) : env F64 :=
  mkEnv obj (fun k => fofZ (Z.of_nat k)) (fun _ => "id"%string) LA
    (fun _ => Some (n0, n1)) (fun _ => Some n1).

(** f(x) = sum x_i^2 *)
Definition sumsq (_ : nat) (x : list F64) : retval F64 :=
  RTuple [PScal (dot x x); PVec (vscale n2 x);
          PMat (List.length x) (map (vscale n2) (eye (List.length x)))].
(** f(x) = sum x_i *)
Definition linear (_ : nat) (x : list F64) : retval F64 :=
  RTuple [PScal (vsum x); PVec (map (fun _ => n1) x);
          PMat (List.length x) (map (vscale n0) (eye (List.length x)))].

Definition fz (z : Z) : F64 := fofZ z.
Definition fzs (l : list Z) : list F64 := map fofZ l.
Definition dflt_state : opt F64 :=
  mkOpt [[]] 0 ninf [] [] 0 ninf [] n1 n1 n1 None 0 0 nnan 0 false DID_NOT_RUN [] "" [] 0 0 [].
Definition dflt_cfg : cfg F64 :=
  mkCfg (mkOpts 0 n1 n1 n1 n1 n1 n1 "" "" n1 n1 n1 n1 n1 n1 None) [] [] 0 false.

(** an optimizer built by the constructor *)
Definition built (lb ub : list F64) (d : odict F64) (h : option (happ F64)) (resfun : bool)
  : cfg F64 * opt F64 :=
  match optimizer_init (fun _ => false) lb ub d h resfun [] with
  | Ok p => p
  | Err _ => (dflt_cfg, dflt_state)
  end.
Definition run_of (obj : nat -> list F64 -> retval F64) (p : cfg F64 * opt F64) (fuel : nat)
    (x0 : list F64) :=
  minimize (world obj) (fst p) fuel 1 x0 None H0None (snd p).

(** comparison of floats up to bits, used to state results of runs *)
Definition feq (x y : F64) : bool :=
  match B2SF x, B2SF y with
  | SpecFloat.S754_zero a, SpecFloat.S754_zero b => Bool.eqb a b
  | SpecFloat.S754_infinity a, SpecFloat.S754_infinity b => Bool.eqb a b
  | SpecFloat.S754_nan, SpecFloat.S754_nan => true
  | SpecFloat.S754_finite a m e, SpecFloat.S754_finite b m' e' =>
      Bool.eqb a b && Pos.eqb m m' && Z.eqb e e'
  | _, _ => false
  end.

(** tools to state facts about a computed run without printing floats *)
Lemma ok_witness (P : F64 -> nat -> list F64 -> list (list F64) -> opt F64 -> bool) r :
  match r with (Ok (fv, x, g, h), s) => P fv x g h s | _ => false end = true ->
  exists fv x g h s, r = (Ok (fv, x, g, h), s) /\ P fv x g h s = true.
Proof. destruct r as [[[[[fv x] g] h]|e] s]; [|discriminate]. intros H. eauto 10. Qed.
Lemma err_witness (P : exn -> opt F64 -> bool)
    (r : res (F64 * nat * list F64 * list (list F64)) * opt F64) :
  match r with (Err e, s) => P e s | _ => false end = true ->
  exists e s, r = (Err e, s) /\ P e s = true.
Proof. destruct r as [[|e] s]; [discriminate|]. intros H. eauto. Qed.
Lemma built_ok lb ub d h resfun :
  match optimizer_init (fun _ => false) lb ub d h resfun [] with Ok _ => true | Err _ => false end = true ->
  optimizer_init (fun _ => false) lb ub d h resfun [] = Ok (built lb ub d h resfun).
Proof. unfold built. destruct optimizer_init; [auto|discriminate]. Qed.

(** without bounds *)
Definition free (n : nat) (d : odict F64) : cfg F64 * opt F64 :=
  built (repeat (- ninf) n) (repeat ninf n) d None false.
(** every later value is worse than the first *)
Definition worse (k : nat) (x : list F64) : retval F64 :=
  RTuple [PScal (fofZ (Z.of_nat k)); PVec (map (fun _ => n1) x);
          PMat (List.length x) (eye (List.length x))].
(** constant value, gradient one, no curvature *)
Definition flat (_ : nat) (x : list F64) : retval F64 :=
  RTuple [PScal n0; PVec (map (fun _ => n1) x);
          PMat (List.length x) (map (vscale n0) (eye (List.length x)))].
(** infinite with zero gradient outside the starting point (1, 2) *)
Definition cliff (k : nat) (x : list F64) : retval F64 :=
  if feq (nth 0 x nnan) n1 && feq (nth 1 x nnan) n2 then sumsq k x
  else RTuple [PScal ninf; PVec (map (fun _ => n0) x); PMat (List.length x) (eye (List.length x))].
Definition eqflag (a b : exit_flag) : bool := Z.eqb (exit_flag_code a) (exit_flag_code b).

(** an optimizer built by the constructor and run once *)
Definition run_check (obj : nat -> list F64 -> retval F64) lb ub d h resfun fuel x0
    (P : cfg F64 -> F64 -> nat -> list F64 -> list (list F64) -> opt F64 -> bool) : bool :=
  match optimizer_init (fun _ => false) lb ub d h resfun [] with
  | Ok (C, st0) =>
      match minimize (world obj) C fuel 1 x0 None H0None st0 with
      | (Ok (fv, x, g, h), s) => P C fv x g h s
      | _ => false
      end
  | Err _ => false
  end.
Lemma run_witness obj lb ub d h resfun fuel x0 P :
  run_check obj lb ub d h resfun fuel x0 P = true ->
  exists C st0 fv x g hs st',
    optimizer_init (fun _ => false) lb ub d h resfun [] = Ok (C, st0)
    /\ minimize (world obj) C fuel 1 x0 None H0None st0 = (Ok (fv, x, g, hs), st')
    /\ P C fv x g hs st' = true.
Proof.
  unfold run_check. destruct optimizer_init as [[C st0]|e]; [|discriminate].
  destruct (minimize (world obj) C fuel 1 x0 None H0None st0) as [[[[[fv x] g] hs]|e] s] eqn:Em; [|discriminate].
  intros H. exists C, st0, fv, x, g, hs, s. auto.
Qed.

Lemma feq_eq x y : feq x y = true -> x = y.
Proof.
  unfold feq. intros H. apply B2SF_inj.
  destruct (B2SF x), (B2SF y); try discriminate; auto.
  - apply Bool.eqb_prop in H. congruence.
  - apply Bool.eqb_prop in H. congruence.
  - apply andb_true_iff in H as [H1 H]. apply andb_true_iff in H1 as [H1 H2].
    apply Bool.eqb_prop in H1. apply Pos.eqb_eq in H2. apply Z.eqb_eq in H. congruence.
Qed.
Fixpoint veq (a b : list F64) : bool :=
  match a, b with
  | [], [] => true
  | x :: a, y :: b => feq x y && veq a b
  | _, _ => false
  end.
Lemma veq_eq a : forall b, veq a b = true -> a = b.
Proof.
  induction a as [|x a IH]; intros [|y b] H; try discriminate; auto. simpl in H.
  apply andb_true_iff in H as [H1 H2]. f_equal; [now apply feq_eq|now apply IH].
Qed.
