(** Number systems and numpy primitives.

    fides computes with numpy float64 scalars, 1-d arrays and 2-d arrays.  The
    model of the code is generic in a number type [T] with the operations of the
    class [Num] below, which mirror the IEEE operations numpy uses (comparisons with
    a NaN operand are false, arithmetic propagates NaN).  Instances: [F64.v] (binary64),
    [ER.v] (extended reals).

    Representation (used by every file of the model):
    - 1-d array                     : list of numbers
    - 2-d array                     : list of rows
    - subspace / eigenvector matrix : list of columns
    - sums in dot products are folded right to left starting from 0.  numpy/BLAS
      leave the summation order unspecified; no theorem of this development relies on the
      order except those about exact arithmetic, where it is irrelevant. *)
From Coq Require Import ZArith List Bool.
Import ListNotations.

Class Num (T : Type) := mkNum {
  nadd : T -> T -> T;
  nsub : T -> T -> T;
  nmul : T -> T -> T;
  ndiv : T -> T -> T;
  nopp : T -> T;
  nabs : T -> T;
  nsqrt : T -> T;
  nltb : T -> T -> bool;
  nleb : T -> T -> bool;
  neqb : T -> T -> bool;
  nisnan : T -> bool;
  nisfin : T -> bool;      (* np.isfinite *)
  nsignb : T -> bool;      (* IEEE sign bit, used by math.copysign *)
  nofZ : Z -> T;           (* exact integer literal *)
  ninf : T;                (* np.inf *)
  nnan : T                 (* np.nan *)
}.

Declare Scope num_scope.
Delimit Scope num_scope with num.
Infix "+" := nadd : num_scope.
Infix "-" := nsub : num_scope.
Infix "*" := nmul : num_scope.
Infix "/" := ndiv : num_scope.
Notation "- x" := (nopp x) : num_scope.
Infix "<?" := nltb : num_scope.
Infix "<=?" := nleb : num_scope.
Infix "=?" := neqb : num_scope.
(* Python [a > b] and [a >= b] *)
Notation "a >? b" := (nltb b a) (only parsing) : num_scope.
Notation "a >=? b" := (nleb b a) (only parsing) : num_scope.

Section Scalars.
  Context {T : Type} {N : Num T}.
  Local Open Scope num_scope.

  Definition n0 : T := nofZ 0.
  Definition n1 : T := nofZ 1.
  Definition n2 : T := nofZ 2.

  (** decimal / rational literal p/q: a correctly rounded quotient of two exactly
      representable integers, which for binary64 is the literal Python parses *)
  Definition nfrac (p q : Z) : T := nofZ p / nofZ q.
  Definition nhalf : T := nfrac 1 2.

  (** np.spacing(1) = 2^-52 *)
  Definition spacing1 : T := nfrac 1 (2 ^ 52).

  (** Python builtin max(a, b): b if b > a else a; min(a, b): b if b < a else a *)
  Definition pymax (a b : T) : T := if a <? b then b else a.
  Definition pymin (a b : T) : T := if b <? a then b else a.

  (** np.maximum / np.minimum: NaN if either operand is NaN *)
  Definition npmax2 (a b : T) : T :=
    if nisnan a then a else if nisnan b then b else if a <? b then b else a.
  Definition npmin2 (a b : T) : T :=
    if nisnan a then a else if nisnan b then b else if b <? a then b else a.

  (** np.min / np.max over a 1-d array.  numpy raises ValueError on an empty array;
      the model returns NaN there (arrays are non-empty in all uses, n >= 1) *)
  Definition npmin (l : list T) : T :=
    match l with [] => nnan | x :: xs => fold_left npmin2 xs x end.
  Definition npmax (l : list T) : T :=
    match l with [] => nnan | x :: xs => fold_left npmax2 xs x end.

  (** np.nanmin([a, b]) *)
  Definition nanmin2 (a b : T) : T :=
    if nisnan a then b else if nisnan b then a else if b <? a then b else a.

  (** np.sign *)
  Definition npsign (x : T) : T :=
    if nisnan x then x else if x <? n0 then - n1 else if n0 <? x then n1 else n0.

  (** a boolean used as a number *)
  Definition nofbool (b : bool) : T := if b then n1 else n0.

  (** math.copysign(a, b) *)
  Definition copysign (a b : T) : T :=
    if nsignb b then - (nabs a) else nabs a.

  (** np.argmin: index of the first NaN if there is one, else of the first minimum *)
  Fixpoint argmin_from (bi : nat) (bv : T) (i : nat) (l : list T) : nat :=
    match l with
    | [] => bi
    | x :: xs =>
        if negb (nisnan bv) && (nisnan x || (x <? bv))
        then argmin_from i x (S i) xs
        else argmin_from bi bv (S i) xs
    end.
  Definition argmin (l : list T) : nat :=
    match l with [] => O | x :: xs => argmin_from 0 x 1 xs end.

  (** x**2 on scalars *)
  Definition nsq (x : T) : T := x * x.
End Scalars.

(** elementwise binary operation; numpy raises on length mismatch, the model truncates
    (all theorems are about arrays of matching lengths) *)
Fixpoint map2 {A B C : Type} (f : A -> B -> C) (a : list A) (b : list B) : list C :=
  match a, b with
  | x :: xs, y :: ys => f x y :: map2 f xs ys
  | _, _ => []
  end.

(** elementwise map with the index *)
Fixpoint mapi_from {A B : Type} (f : nat -> A -> B) (i : nat) (l : list A) : list B :=
  match l with [] => [] | x :: xs => f i x :: mapi_from f (S i) xs end.
Definition mapi {A B : Type} (f : nat -> A -> B) (l : list A) : list B := mapi_from f 0 l.

(** np.where(mask)[0] *)
Fixpoint where_from (i : nat) (l : list bool) : list nat :=
  match l with
  | [] => []
  | b :: bs => if b then i :: where_from (S i) bs else where_from (S i) bs
  end.
Definition where_ (l : list bool) : list nat := where_from 0 l.

Definition mem (i : nat) (l : list nat) : bool := existsb (Nat.eqb i) l.

Section Vectors.
  Context {T : Type} {N : Num T}.
  Local Open Scope num_scope.

  Local Notation vec := (list T).
  Local Notation mat := (list (list T)).

  Definition vadd : vec -> vec -> vec := map2 nadd.
  Definition vsub : vec -> vec -> vec := map2 nsub.
  Definition vmul : vec -> vec -> vec := map2 nmul.       (* elementwise product *)
  Definition vscale (c : T) (v : vec) : vec := map (fun x => c * x) v.
  Definition vscaler (v : vec) (c : T) : vec := map (fun x => x * c) v.   (* v *= c *)
  Definition vdivs (v : vec) (c : T) : vec := map (fun x => x / c) v.
  Definition vopp (v : vec) : vec := map nopp v.
  Definition vabs (v : vec) : vec := map nabs v.
  Definition vzeros (n : nat) : vec := repeat n0 n.

  Definition vsum (v : vec) : T := fold_right nadd n0 v.
  (** np.dot of two 1-d arrays *)
  Definition dot (a b : vec) : T := vsum (map2 nmul a b).
  (** numpy.linalg.norm of a real 1-d array: sqrt(x.dot(x)) *)
  Definition norm (v : vec) : T := nsqrt (dot v v).
  (** norm(v, np.inf) = max(abs(v)) *)
  Definition norm_inf (v : vec) : T := npmax (vabs v).

  (** M.dot(v) *)
  Definition matvec (m : mat) (v : vec) : vec := map (fun r => dot r v) m.
  (** S.dot(c) for a matrix given by its list of columns, each of length n:
      sum over j of c_j * S[:, j] *)
  Fixpoint lincomb (n : nat) (c : vec) (cols : list vec) : vec :=
    match c, cols with
    | a :: c', col :: cols' => vadd (vscale a col) (lincomb n c' cols')
    | _, _ => vzeros n
    end.
  (** S.T.dot(v) for a matrix given by its list of columns *)
  Definition tmatvec (cols : list vec) (v : vec) : vec := map (fun c => dot c v) cols.
  (** x.T.dot(M) for a matrix given by its rows *)
  Definition vecmat (n : nat) (x : vec) (m : mat) : vec := lincomb n x m.

  (** np.outer *)
  Definition outer (u v : vec) : mat := map (fun a => map (fun b => a * b) v) u.
  Definition madd : mat -> mat -> mat := map2 vadd.
  Definition msub : mat -> mat -> mat := map2 vsub.
  Definition mscale (c : T) (m : mat) : mat := map (vscale c) m.
  Definition mdivs (m : mat) (c : T) : mat := map (fun r => vdivs r c) m.
  (** np.zeros_like *)
  Definition mzeros_like (m : mat) : mat := map (map (fun _ => n0)) m.
  (** np.eye(n) *)
  Definition eye (n : nat) : mat :=
    map (fun i => map (fun j => if Nat.eqb i j then n1 else n0) (seq 0 n)) (seq 0 n).

  (** np.isfinite(...).all() *)
  Definition vfinite (v : vec) : bool := forallb nisfin v.
  Definition mfinite (m : mat) : bool := forallb vfinite m.

  (** np.array_equal(v, np.zeros_like(v)) *)
  Definition vall_zero (v : vec) : bool := forallb (fun x => x =? n0) v.
End Vectors.

(** ** Outcomes of code that may raise *)
Inductive exn :=
| EValue          (* ValueError *)
| EType           (* TypeError *)
| ERuntime        (* RuntimeError *)
| EKey            (* KeyError *)
| EAttr           (* AttributeError *)
| EOverflow       (* OverflowError *)
| ENotImpl        (* NotImplementedError *)
| EExternal       (* an exception raised inside numpy / scipy / h5py *)
| EUser           (* an exception raised by the user's objective *)
| EDiverge.       (* the model ran out of fuel: stands for a loop that would not stop *)

Inductive res (A : Type) := Ok (a : A) | Err (e : exn).
Arguments Ok {A} a.
Arguments Err {A} e.

Definition rbind {A B} (r : res A) (f : A -> res B) : res B :=
  match r with Ok a => f a | Err e => Err e end.
Definition of_option {A} (e : exn) (o : option A) : res A :=
  match o with Some a => Ok a | None => Err e end.

Declare Scope res_scope.
Delimit Scope res_scope with res.
Notation "x <-- a ;; b" := (rbind a (fun x => b))
  (at level 61, a at next level, right associativity) : res_scope.
