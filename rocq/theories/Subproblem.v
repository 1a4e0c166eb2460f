(** Model of fides/subproblem.py *)
From Coq Require Import ZArith List Bool.
Import ListNotations.
From Verif Require Import Num.
Local Open Scope num_scope.

(** Result of an external scalar root finder (scipy.optimize.newton / brentq):
    a root, a RuntimeError (no convergence; caught by the code) or another exception. *)
Inductive rootres (T : Type) := Root (r : T) | NoConv | RootRaise (e : exn).
Arguments Root {T} r.
Arguments NoConv {T}.
Arguments RootRaise {T} e.

(** Labels returned by solve_nd_trust_region_subproblem:
    'zero', 'posdef', 'indef', 'hard' *)
Inductive sub_case := CZero | CPosdef | CIndef | CHard.

(** External numerical routines used by subproblem.py.
    [sp_eig] : scipy.linalg.eig followed by np.real on both results
               (subproblem.py:138-140); eigenvectors as a list of columns; None = raises.
    [sp_newton f f' x0] : scipy.optimize.newton(f, x0, f', tol=1e-12, maxiter=100)
    [sp_brentq f a b maxiter] : scipy.optimize.brentq(f, a, b, xtol=1e-12, maxiter) *)
Record SubOracles (T : Type) := mkSubOracles {
  sp_eig : list (list T) -> option (list T * list (list T));
  sp_newton : (T -> T) -> (T -> T) -> T -> rootres T;
  sp_brentq : (T -> T) -> T -> T -> nat -> rootres T
}.
Arguments sp_eig {T} _ _.
Arguments sp_newton {T} _ _ _ _.
Arguments sp_brentq {T} _ _ _ _ _.

Section Subproblem.
  Context {T : Type} {N : Num T}.
  Local Notation vec := (list T).
  Local Notation mat := (list (list T)).

  (** subproblem.py:17-28  quadratic_form: 0.5 * x.T.dot(q).dot(x) + p.T.dot(x) *)
  Definition quadratic_form (q : mat) (p x : vec) : T :=
    nhalf * dot (vecmat (length x) x q) x + dot p x.

  (** subproblem.py:73-81  get_1d_trust_region_boundary_solution *)
  Definition get_1d_trust_region_boundary_solution
      (b : mat) (g s s0 : vec) (delta : T) : T :=
    let a := dot s s in
    let b_coef := n2 * dot s0 s in
    let c := dot s0 s0 - nsq delta in
    let aux := b_coef
               + copysign (nsqrt (nsq b_coef - nofZ 4 * a * c)) b_coef in
    let ts := [ (- aux) / (n2 * a) ; (- n2) * c / aux ] in
    let qs := map (fun t => quadratic_form b g (vadd s0 (vscale t s))) ts in
    nth (argmin qs) ts nnan.

  (** subproblem.py:31-70  solve_1d_trust_region_subproblem.
      Returns an array with one element.  [isinstance(a, float)] holds since b is a plain array *)
  Definition solve_1d_trust_region_subproblem
      (b : mat) (g s : vec) (delta : T) (s0 : vec) : vec :=
    if delta =? n0 then [ delta * n1 ]
    else if vall_zero s then [ n0 ]
    else
      let a := nhalf * dot (matvec b s) s in
      let b_coef := dot s (vadd (matvec b s0) g) in
      let minq := (- b_coef) / (n2 * a) in
      let tau :=
        if (a >? n0) && (norm (vadd (vscale minq s) s0) <=? delta)
        then minq
        else get_1d_trust_region_boundary_solution b g s s0 delta in
      [ tau * n1 ].

  (** subproblem.py:225-249  slam *)
  Definition slam (lam : T) (w eigvals : vec) (eigvecs : list vec) : vec :=
    let el := map (fun e => e + lam) eigvals in
    let c := map2 (fun wi eli => if eli =? n0 then wi else wi / eli) w el in
    lincomb (length eigvals) c eigvecs.

  (** subproblem.py:252-275  dslam *)
  Definition dslam (lam : T) (w eigvals : vec) (eigvecs : list vec) : vec :=
    let el := map (fun e => e + lam) eigvals in
    let c := map2 (fun wi eli =>
                     if eli =? n0 then (if wi =? n0 then wi else ninf)
                     else wi / (- (nsq eli))) w el in
    lincomb (length eigvals) c eigvecs.

  (** subproblem.py:278-313  secular *)
  Definition secular (lam : T) (w eigvals : vec) (eigvecs : list vec) (delta : T) : T :=
    if lam <? - (npmin eigvals) then ninf
    else
      let sn := norm (slam lam w eigvals eigvecs) in
      if sn >? n0 then n1 / sn - n1 / delta else ninf.

  (** subproblem.py:316-350  dsecular; norm(s)**3 as a product *)
  Definition dsecular (lam : T) (w eigvals : vec) (eigvecs : list vec) (delta : T) : T :=
    let s := slam lam w eigvals eigvecs in
    let ds := dslam lam w eigvals eigvecs in
    let sn := norm s in
    if sn >? n0 then (- (dot s ds)) / (sn * sn * sn) else ninf.

  (** subproblem.py:190-193  the bracketing loop
      [while secular(xb) < 0 and maxiter > 0: xa = xb; xb = xb*10; maxiter -= 1] *)
  Fixpoint expand_bracket (phi : T -> T) (maxiter : nat) (xa xb : T) : T * T * nat :=
    if phi xb <? n0 then
      match maxiter with
      | O => (xa, xb, O)
      | S k => expand_bracket phi k xb (xb * nofZ 10)
      end
    else (xa, xb, maxiter).

  (** subproblem.py:212-222  the hard case, also the general fallback *)
  Definition hard_case (delta : T) (w eigvals : vec) (eigvecs : list vec)
      (jmin : nat) (mineig : T) : vec :=
    let w' := map2 (fun wi e => if (e - mineig) =? n0 then n0 else wi) w eigvals in
    let s := slam (- mineig) w' eigvals eigvecs in
    let sigma := nsqrt (pymax (nsq delta - nsq (norm s)) n0) in
    vadd s (vscale sigma (nth jmin eigvecs [])).

  (** subproblem.py:84-222  solve_nd_trust_region_subproblem (logging omitted) *)
  Definition solve_nd_trust_region_subproblem (O : SubOracles T)
      (b : mat) (g : vec) (delta : T) : res (vec * sub_case) :=
    if delta =? n0 then Ok (vzeros (length g), CZero)
    else
      match sp_eig O b with
      | None => Err EExternal
      | Some (eigvals, eigvecs) =>
        let w := vopp (tmatvec eigvecs g) in
        let jmin := argmin eigvals in
        let mineig := nth jmin eigvals nnan in
        let phi := fun lam => secular lam w eigvals eigvecs delta in
        let dphi := fun lam => dsecular lam w eigvals eigvecs delta in
        let hard := Ok (hard_case delta w eigvals eigvecs jmin mineig, CHard) in
        (* lines 186-210: the try block around brentq *)
        let brent laminit :=
          let xb0 := (laminit + nsqrt spacing1) * nofZ 10 in
          let '(xa, xb, maxiter) := expand_bracket phi 100 laminit xb0 in
          match maxiter with
          | O => hard
          | S _ =>
            match sp_brentq O phi xa xb maxiter with
            | RootRaise e => Err e
            | NoConv => hard
            | Root r =>
                let s := slam r w eigvals eigvecs in
                if norm s <=? delta + nsqrt spacing1 then Ok (s, CIndef) else hard
            end
          end in
        (* lines 165-210 *)
        let indefinite laminit :=
          if phi laminit <? n0 then
            match sp_newton O phi dphi laminit with
            | RootRaise e => Err e
            | NoConv => brent laminit
            | Root r =>
                let s := slam r w eigvals eigvecs in
                if norm s <=? delta + nfrac 1 (10 ^ 12) then Ok (s, CIndef)
                else brent laminit
            end
          else hard in
        if mineig >? n0 then
          let s := slam n0 w eigvals eigvecs in
          if norm s <=? delta + nsqrt spacing1 then Ok (s, CPosdef)
          else indefinite n0
        else indefinite (- mineig)
      end.
End Subproblem.
