(** C73 does not hold for SR1: x^2 in one dimension, value and gradient only, hess0 = [[2]] *)
From Coq Require Import String ZArith List Bool.
From Flocq Require Import IEEE754.BinarySingleNaN.
From Verif Require Import Num F64 Constants Subproblem HessApprox Steps TrustRegion Minimize Witness.
Import ListNotations.
Local Open Scope num_scope.
Local Open Scope list_scope.

Definition square1 (_ : nat) (x : list F64) : retval F64 := RTuple [PScal (dot x x); PVec (vscale n2 x)].
Definition start_exact (k : ikind F64) :=
  let p := built [- ninf] [ninf] [] (Some (HIter (mkIhapp k hb_empty))) false in
  minimize (world square1) (fst p) 20 1 (fzs [2]%Z) None (H0Mat [fzs [2]%Z]) (snd p).

(** BFGS keeps the exact Hessian and stops on the gradient after two iterations; SR1 divides 0 by 0 in its first update, so the
    Hessian of the next iteration is not finite and minimize raises RuntimeError *)
Theorem C73_sr1_refuted :
  (exists st', fst (start_exact ISR1) = Err ERuntime /\ snd (start_exact ISR1) = st' /\ o_flag st' = NOT_FINITE /\ o_iter st' = 2%Z)
  /\ (exists r st', start_exact (IBroyden n0 true) = (Ok r, st') /\ o_flag st' = GTOL /\ o_iter st' = 2%Z).
Proof.
  split.
  - assert (H : (match start_exact ISR1 with (Err ERuntime, s) => eqflag (o_flag s) NOT_FINITE && Z.eqb (o_iter s) 2 | _ => false end) = true) by (vm_compute; reflexivity).
    destruct (start_exact ISR1) as [[r|[]] s]; try discriminate H. apply andb_prop in H as [H1 H2]. exists s. cbn [fst snd].
    split; [reflexivity|]. split; [reflexivity|]. split; [destruct (o_flag s); try discriminate H1; reflexivity|now apply Z.eqb_eq].
  - assert (H : (match start_exact (IBroyden n0 true) with (Ok _, s) => eqflag (o_flag s) GTOL && Z.eqb (o_iter s) 2 | _ => false end) = true) by (vm_compute; reflexivity).
    destruct (start_exact (IBroyden n0 true)) as [[r|e] s]; try discriminate H. apply andb_prop in H as [H1 H2]. exists r, s.
    split; [reflexivity|]. split; [destruct (o_flag s); try discriminate H1; reflexivity|now apply Z.eqb_eq].
Qed.
