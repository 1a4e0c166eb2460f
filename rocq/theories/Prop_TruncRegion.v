(** C33: a truncated candidate can leave the trust region, and be the step that is tried. *)
From Coq Require Import ZArith String List Bool.
From Flocq Require Import BinarySingleNaN.
From Verif Require Import Num Constants Subproblem HessApprox Steps TrustRegion Minimize
  ER F64 NumFacts Spec Run Witness.
Import ListNotations.
Local Open Scope num_scope.

(** *** Executable stand-ins for LAPACK and the root finders, for problems of two variables *)
(** eigenvalues (ascending) and normalized eigenvectors of a symmetric 2x2 matrix *)
Definition eig2 (m : list (list F64)) : list F64 * list (list F64) :=
  match m with
  | [[a; b]; [_; d]] =>
      if b =? n0 then (if a <=? d then ([a; d], [[n1; n0]; [n0; n1]]) else ([d; a], [[n0; n1]; [n1; n0]]))
      else let mid := nhalf * (a + d) in let h := nhalf * (a - d) in let r := nsqrt (h * h + b * b) in
        let l1 := mid - r in let l2 := mid + r in
        let v1 := normalize (if a >=? d then [b; l1 - a] else [l1 - d; b]) in
        let v2 := normalize (if a >=? d then [l2 - d; b] else [b; l2 - a]) in
        ([l1; l2], [v1; v2])
  | _ => (diag_of m, eye (List.length m))
  end.
(** Cramer's rule *)
Definition solve2 (m : list (list F64)) (b : list F64) : list F64 :=
  match m, b with
  | [[a; p]; [q; d]], [u; v] => let det := a * d - p * q in [(d * u - p * v) / det; (a * v - q * u) / det]
  | _, _ => map2 ndiv b (diag_of m)
  end.
(** bisection for the root finder with a bracket *)
Fixpoint bisect (k : nat) (f : F64 -> F64) (lo hi : F64) : F64 :=
  match k with
  | O => hi
  | S k => let mid := nhalf * (lo + hi) in if f mid <? n0 then bisect k f mid hi else bisect k f lo mid
  end.
Definition LA2 : StepOracles F64 :=
  mkStepOracles F64
    (mkSubOracles F64 (fun m => let '(l, v) := eig2 m in Some (l, v))
       (fun f f' x => let r := newton_it 30 f f' x in if r =? r then Root r else NoConv) (fun f a b _ => Root (bisect 80 f a b)))
    (fun m => let '(l, v) := eig2 m in Some (l, vabs l, v))
    (fun m b => Some (solve2 m b))
    (fun _ _ guess _ _ _ _ => Some guess)
    50 50.
(** the world with these routines *)
Definition plane (obj : nat -> list F64 -> retval F64) : env F64 :=
  mkEnv obj (fun k => fofZ (Z.of_nat k)) (fun _ => "id"%string) LA2 (fun _ => Some (n0, n1)) (fun _ => Some n1).
(** the quadratic with gradient g at 0 and Hessian H *)
Definition quad (g1 g2 h11 h12 h22 : F64) (_ : nat) (x : list F64) : retval F64 :=
  let a := nth 0 x nnan in let b := nth 1 x nnan in
  let u := h11 * a + h12 * b in let v := h12 * a + h22 * b in
  RTuple [PScal (nhalf * (a * u + b * v) + (g1 * a + g2 * b)); PVec [u + g1; v + g2]; PMat 2 [[h11; h12]; [h12; h22]]].

(** x1 <= 1/10, the other bounds are infinite; the strategy "mixed", everything else default *)
Definition mixed_below : cfg F64 * opt F64 :=
  built [- ninf; - ninf] [nfrac 1 10; ninf] [(KStr "stepback_strategy", VStr "mixed")]%string None false.
(** 12.5 x1^2 - 15 x1 x2 + 5 x2^2 - 0.1 x1 - 16 x2, strictly convex *)
Definition valley : nat -> list F64 -> retval F64 := quad (- nfrac 1 10) (fz (-16)) (fz 25) (fz (-15)) (fz 10).

Definition proposal_of (E : env F64) (p : cfg F64 * opt F64) (x0 : list F64) (P : opt F64 -> step F64 -> bool) : bool :=
  let C := fst p in
  match prepare E C 1 x0 None H0None (snd p) with
  | (Ok f, s) =>
      let x := deref s (o_x s) in
      let vdv := affine_scaling x (o_grad s) (c_lb C) (c_ub C) in
      match trust_region (e_la E) x (o_grad s) (o_hess s) (map (fun p => nsqrt (nabs (fst p))) vdv)
        (o_delta s) (map snd vdv)
        (pymax (op_theta_max (c_opts C)) (n1 - norm_inf (vmul (map fst vdv) (o_grad s))))
        (c_lb C) (c_ub C) (op_subspace_dim (c_opts C)) (op_stepback (c_opts C)) with
      | Ok sp => Nat.eqb (List.length (st_s sp)) (List.length x) && Nat.eqb (List.length (st_s0 sp)) (List.length x)
                 && P s sp
      | _ => false
      end
  | _ => false
  end.
Lemma proposal_of_ok E p x0 P : proposal_of E p x0 P = true ->
  exists f s sp, loop_head E (fst p) 1 x0 None H0None (snd p) f s /\ proposes E (fst p) s sp /\ P s sp = true.
Proof.
  unfold proposal_of, proposes. intros H. destruct (prepare _ _ _ _ _ _ _) as [[f|e] s] eqn:Ep; [|discriminate].
  cbv zeta in H. destruct (trust_region _ _ _ _ _ _ _ _ _ _ _ _) as [sp|] eqn:Et; [|discriminate].
  rewrite !andb_true_iff, !Nat.eqb_eq in H. destruct H as [[H1 H2] H3].
  exists f, s, sp. split; [now apply lh_start|]. auto.
Qed.
(** with the default solver 2D the first step minimize tries on [valley] from 0 is a truncated candidate that is more than
    1.38 times as long as the radius, which is 1 *)
Theorem C33_truncated_refuted : exists f s sp,
  loop_head (plane valley) (fst mixed_below) 1 (fzs [0; 0]%Z) None H0None (snd mixed_below) f s
  /\ proposes (plane valley) (fst mixed_below) s sp
  /\ op_subspace_dim (c_opts (fst mixed_below)) = "2D"%string
  /\ st_type sp = "trt"%string /\ (o_delta s =? n1) = true /\ (st_qpval sp <? n0) = true
  /\ (norm (vadd (st_ss sp) (st_ss0 sp)) >? nfrac 138 100) = true.
Proof.
  assert (H : proposal_of (plane valley) mixed_below (fzs [0; 0]%Z) (fun s sp =>
    String.eqb (op_subspace_dim (c_opts (fst mixed_below))) "2D" && String.eqb (st_type sp) "trt" && (o_delta s =? n1) && (st_qpval sp <? n0)
    && (norm (vadd (st_ss sp) (st_ss0 sp)) >? nfrac 138 100)) = true) by (vm_compute; reflexivity).
  apply proposal_of_ok in H as (f & s & sp & H1 & H2 & H3). exists f, s, sp. split; [assumption|]. split; [assumption|].
  rewrite !andb_true_iff, !String.eqb_eq in H3. destruct H3 as [[[[K1 K2] K3] K4] K5]. auto.
Qed.
