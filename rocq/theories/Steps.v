(** Model of fides/steps.py (record setters generated by tools/gensteps.py) *)
From Coq Require Import ZArith List Bool String.
Import ListNotations.
From Verif Require Import Num Subproblem.
Local Open Scope num_scope.

(** External numerical routines used by steps.py.
    [so_sub]    : those of subproblem.py
    [so_eig]    : np.linalg.eig (steps.py:283): real parts of the eigenvalues, absolute values of
                  the eigenvalues, real parts of the eigenvectors (columns); None = raises
    [so_lstsq]  : scipy.linalg.lstsq(a, b)[0]; None = raises
    [so_refine] : scipy.optimize.minimize(method='trust-constr') of steps.py:554-562, given
                  (chess, cg, guess, subspace, delta, lower, upper); None = raises
    [so_cgfuel] : number of passes after which the model gives up on the [while True] loop of
                  conj_grad (steps.py:367); running out is the distinct outcome EDiverge
    [so_trfuel] : same for the while loop of stepback_truncate (stepback.py:121) *)
Record StepOracles (T : Type) := mkStepOracles {
  so_sub : SubOracles T;
  so_eig : list (list T) -> option (list T * list T * list (list T));
  so_lstsq : list (list T) -> list T -> option (list T);
  so_refine : list (list T) -> list T -> list T -> list (list T) -> T -> list T -> list T
              -> option (list T);
  so_cgfuel : nat;
  so_trfuel : nat
}.
Arguments so_sub {T} _.
Arguments so_eig {T} _ _.
Arguments so_lstsq {T} _ _ _.
Arguments so_refine {T} _ _ _ _ _ _ _ _.
Arguments so_cgfuel {T} _.
Arguments so_trfuel {T} _.

Section Steps.
  Context {T : Type} {N : Num T}.
  Local Notation vec := (list T).
  Local Notation mat := (list (list T)).

  (** Constructor arguments shared by all Step classes (steps.py:75-87).
      [scaling] and [g_dscaling] are diagonal sparse matrices, kept as their diagonals *)
  Record sargs := mkSargs {
    a_x : vec; a_sg : vec; a_hess : mat; a_scaling : vec; a_gd : vec;
    a_delta : T; a_theta : T; a_ub : vec; a_lb : vec
  }.

  (** Instance attributes of Step (steps.py:112-152) *)
  Record step := mkStep {
    st_type : string;   (* cvar type *)
    st_x : vec;   (* reference point *)
    st_s : vec;   (* proposed step; [] stands for None *)
    st_sc : vec;
    st_ss : vec;
    st_og_s : vec;
    st_og_sc : vec;
    st_og_ss : vec;
    st_sg : vec;
    st_scaling : vec;   (* diagonal of the scaling matrix *)
    st_delta : T;
    st_theta : T;
    st_lb : vec;
    st_ub : vec;
    st_br : vec;
    st_minbr : T;
    st_alpha : T;
    st_iminbr : list nat;
    st_qpval : T;
    st_shess : mat;
    st_cg : vec;
    st_chess : mat;
    st_subspace : list vec;   (* columns *)
    st_s0 : vec;
    st_ss0 : vec;
    st_refl : list nat;   (* reflection_indices *)
    st_trunc : list nat;   (* truncation_indices *)
    st_posdef : option bool;   (* attribute present only on TRStep2D *)
    st_newton : option bool   (* attribute present only on TRStep2D *)
  }.
  Definition set_st_type (v : string) (r : step) : step :=
    mkStep v (st_x r) (st_s r) (st_sc r) (st_ss r) (st_og_s r) (st_og_sc r) (st_og_ss r) (st_sg r) (st_scaling r) (st_delta r) (st_theta r) (st_lb r) (st_ub r) (st_br r) (st_minbr r) (st_alpha r) (st_iminbr r) (st_qpval r) (st_shess r) (st_cg r) (st_chess r) (st_subspace r) (st_s0 r) (st_ss0 r) (st_refl r) (st_trunc r) (st_posdef r) (st_newton r).
  Definition set_st_x (v : vec) (r : step) : step :=
    mkStep (st_type r) v (st_s r) (st_sc r) (st_ss r) (st_og_s r) (st_og_sc r) (st_og_ss r) (st_sg r) (st_scaling r) (st_delta r) (st_theta r) (st_lb r) (st_ub r) (st_br r) (st_minbr r) (st_alpha r) (st_iminbr r) (st_qpval r) (st_shess r) (st_cg r) (st_chess r) (st_subspace r) (st_s0 r) (st_ss0 r) (st_refl r) (st_trunc r) (st_posdef r) (st_newton r).
  Definition set_st_s (v : vec) (r : step) : step :=
    mkStep (st_type r) (st_x r) v (st_sc r) (st_ss r) (st_og_s r) (st_og_sc r) (st_og_ss r) (st_sg r) (st_scaling r) (st_delta r) (st_theta r) (st_lb r) (st_ub r) (st_br r) (st_minbr r) (st_alpha r) (st_iminbr r) (st_qpval r) (st_shess r) (st_cg r) (st_chess r) (st_subspace r) (st_s0 r) (st_ss0 r) (st_refl r) (st_trunc r) (st_posdef r) (st_newton r).
  Definition set_st_sc (v : vec) (r : step) : step :=
    mkStep (st_type r) (st_x r) (st_s r) v (st_ss r) (st_og_s r) (st_og_sc r) (st_og_ss r) (st_sg r) (st_scaling r) (st_delta r) (st_theta r) (st_lb r) (st_ub r) (st_br r) (st_minbr r) (st_alpha r) (st_iminbr r) (st_qpval r) (st_shess r) (st_cg r) (st_chess r) (st_subspace r) (st_s0 r) (st_ss0 r) (st_refl r) (st_trunc r) (st_posdef r) (st_newton r).
  Definition set_st_ss (v : vec) (r : step) : step :=
    mkStep (st_type r) (st_x r) (st_s r) (st_sc r) v (st_og_s r) (st_og_sc r) (st_og_ss r) (st_sg r) (st_scaling r) (st_delta r) (st_theta r) (st_lb r) (st_ub r) (st_br r) (st_minbr r) (st_alpha r) (st_iminbr r) (st_qpval r) (st_shess r) (st_cg r) (st_chess r) (st_subspace r) (st_s0 r) (st_ss0 r) (st_refl r) (st_trunc r) (st_posdef r) (st_newton r).
  Definition set_st_og_s (v : vec) (r : step) : step :=
    mkStep (st_type r) (st_x r) (st_s r) (st_sc r) (st_ss r) v (st_og_sc r) (st_og_ss r) (st_sg r) (st_scaling r) (st_delta r) (st_theta r) (st_lb r) (st_ub r) (st_br r) (st_minbr r) (st_alpha r) (st_iminbr r) (st_qpval r) (st_shess r) (st_cg r) (st_chess r) (st_subspace r) (st_s0 r) (st_ss0 r) (st_refl r) (st_trunc r) (st_posdef r) (st_newton r).
  Definition set_st_og_sc (v : vec) (r : step) : step :=
    mkStep (st_type r) (st_x r) (st_s r) (st_sc r) (st_ss r) (st_og_s r) v (st_og_ss r) (st_sg r) (st_scaling r) (st_delta r) (st_theta r) (st_lb r) (st_ub r) (st_br r) (st_minbr r) (st_alpha r) (st_iminbr r) (st_qpval r) (st_shess r) (st_cg r) (st_chess r) (st_subspace r) (st_s0 r) (st_ss0 r) (st_refl r) (st_trunc r) (st_posdef r) (st_newton r).
  Definition set_st_og_ss (v : vec) (r : step) : step :=
    mkStep (st_type r) (st_x r) (st_s r) (st_sc r) (st_ss r) (st_og_s r) (st_og_sc r) v (st_sg r) (st_scaling r) (st_delta r) (st_theta r) (st_lb r) (st_ub r) (st_br r) (st_minbr r) (st_alpha r) (st_iminbr r) (st_qpval r) (st_shess r) (st_cg r) (st_chess r) (st_subspace r) (st_s0 r) (st_ss0 r) (st_refl r) (st_trunc r) (st_posdef r) (st_newton r).
  Definition set_st_sg (v : vec) (r : step) : step :=
    mkStep (st_type r) (st_x r) (st_s r) (st_sc r) (st_ss r) (st_og_s r) (st_og_sc r) (st_og_ss r) v (st_scaling r) (st_delta r) (st_theta r) (st_lb r) (st_ub r) (st_br r) (st_minbr r) (st_alpha r) (st_iminbr r) (st_qpval r) (st_shess r) (st_cg r) (st_chess r) (st_subspace r) (st_s0 r) (st_ss0 r) (st_refl r) (st_trunc r) (st_posdef r) (st_newton r).
  Definition set_st_scaling (v : vec) (r : step) : step :=
    mkStep (st_type r) (st_x r) (st_s r) (st_sc r) (st_ss r) (st_og_s r) (st_og_sc r) (st_og_ss r) (st_sg r) v (st_delta r) (st_theta r) (st_lb r) (st_ub r) (st_br r) (st_minbr r) (st_alpha r) (st_iminbr r) (st_qpval r) (st_shess r) (st_cg r) (st_chess r) (st_subspace r) (st_s0 r) (st_ss0 r) (st_refl r) (st_trunc r) (st_posdef r) (st_newton r).
  Definition set_st_delta (v : T) (r : step) : step :=
    mkStep (st_type r) (st_x r) (st_s r) (st_sc r) (st_ss r) (st_og_s r) (st_og_sc r) (st_og_ss r) (st_sg r) (st_scaling r) v (st_theta r) (st_lb r) (st_ub r) (st_br r) (st_minbr r) (st_alpha r) (st_iminbr r) (st_qpval r) (st_shess r) (st_cg r) (st_chess r) (st_subspace r) (st_s0 r) (st_ss0 r) (st_refl r) (st_trunc r) (st_posdef r) (st_newton r).
  Definition set_st_theta (v : T) (r : step) : step :=
    mkStep (st_type r) (st_x r) (st_s r) (st_sc r) (st_ss r) (st_og_s r) (st_og_sc r) (st_og_ss r) (st_sg r) (st_scaling r) (st_delta r) v (st_lb r) (st_ub r) (st_br r) (st_minbr r) (st_alpha r) (st_iminbr r) (st_qpval r) (st_shess r) (st_cg r) (st_chess r) (st_subspace r) (st_s0 r) (st_ss0 r) (st_refl r) (st_trunc r) (st_posdef r) (st_newton r).
  Definition set_st_lb (v : vec) (r : step) : step :=
    mkStep (st_type r) (st_x r) (st_s r) (st_sc r) (st_ss r) (st_og_s r) (st_og_sc r) (st_og_ss r) (st_sg r) (st_scaling r) (st_delta r) (st_theta r) v (st_ub r) (st_br r) (st_minbr r) (st_alpha r) (st_iminbr r) (st_qpval r) (st_shess r) (st_cg r) (st_chess r) (st_subspace r) (st_s0 r) (st_ss0 r) (st_refl r) (st_trunc r) (st_posdef r) (st_newton r).
  Definition set_st_ub (v : vec) (r : step) : step :=
    mkStep (st_type r) (st_x r) (st_s r) (st_sc r) (st_ss r) (st_og_s r) (st_og_sc r) (st_og_ss r) (st_sg r) (st_scaling r) (st_delta r) (st_theta r) (st_lb r) v (st_br r) (st_minbr r) (st_alpha r) (st_iminbr r) (st_qpval r) (st_shess r) (st_cg r) (st_chess r) (st_subspace r) (st_s0 r) (st_ss0 r) (st_refl r) (st_trunc r) (st_posdef r) (st_newton r).
  Definition set_st_br (v : vec) (r : step) : step :=
    mkStep (st_type r) (st_x r) (st_s r) (st_sc r) (st_ss r) (st_og_s r) (st_og_sc r) (st_og_ss r) (st_sg r) (st_scaling r) (st_delta r) (st_theta r) (st_lb r) (st_ub r) v (st_minbr r) (st_alpha r) (st_iminbr r) (st_qpval r) (st_shess r) (st_cg r) (st_chess r) (st_subspace r) (st_s0 r) (st_ss0 r) (st_refl r) (st_trunc r) (st_posdef r) (st_newton r).
  Definition set_st_minbr (v : T) (r : step) : step :=
    mkStep (st_type r) (st_x r) (st_s r) (st_sc r) (st_ss r) (st_og_s r) (st_og_sc r) (st_og_ss r) (st_sg r) (st_scaling r) (st_delta r) (st_theta r) (st_lb r) (st_ub r) (st_br r) v (st_alpha r) (st_iminbr r) (st_qpval r) (st_shess r) (st_cg r) (st_chess r) (st_subspace r) (st_s0 r) (st_ss0 r) (st_refl r) (st_trunc r) (st_posdef r) (st_newton r).
  Definition set_st_alpha (v : T) (r : step) : step :=
    mkStep (st_type r) (st_x r) (st_s r) (st_sc r) (st_ss r) (st_og_s r) (st_og_sc r) (st_og_ss r) (st_sg r) (st_scaling r) (st_delta r) (st_theta r) (st_lb r) (st_ub r) (st_br r) (st_minbr r) v (st_iminbr r) (st_qpval r) (st_shess r) (st_cg r) (st_chess r) (st_subspace r) (st_s0 r) (st_ss0 r) (st_refl r) (st_trunc r) (st_posdef r) (st_newton r).
  Definition set_st_iminbr (v : list nat) (r : step) : step :=
    mkStep (st_type r) (st_x r) (st_s r) (st_sc r) (st_ss r) (st_og_s r) (st_og_sc r) (st_og_ss r) (st_sg r) (st_scaling r) (st_delta r) (st_theta r) (st_lb r) (st_ub r) (st_br r) (st_minbr r) (st_alpha r) v (st_qpval r) (st_shess r) (st_cg r) (st_chess r) (st_subspace r) (st_s0 r) (st_ss0 r) (st_refl r) (st_trunc r) (st_posdef r) (st_newton r).
  Definition set_st_qpval (v : T) (r : step) : step :=
    mkStep (st_type r) (st_x r) (st_s r) (st_sc r) (st_ss r) (st_og_s r) (st_og_sc r) (st_og_ss r) (st_sg r) (st_scaling r) (st_delta r) (st_theta r) (st_lb r) (st_ub r) (st_br r) (st_minbr r) (st_alpha r) (st_iminbr r) v (st_shess r) (st_cg r) (st_chess r) (st_subspace r) (st_s0 r) (st_ss0 r) (st_refl r) (st_trunc r) (st_posdef r) (st_newton r).
  Definition set_st_shess (v : mat) (r : step) : step :=
    mkStep (st_type r) (st_x r) (st_s r) (st_sc r) (st_ss r) (st_og_s r) (st_og_sc r) (st_og_ss r) (st_sg r) (st_scaling r) (st_delta r) (st_theta r) (st_lb r) (st_ub r) (st_br r) (st_minbr r) (st_alpha r) (st_iminbr r) (st_qpval r) v (st_cg r) (st_chess r) (st_subspace r) (st_s0 r) (st_ss0 r) (st_refl r) (st_trunc r) (st_posdef r) (st_newton r).
  Definition set_st_cg (v : vec) (r : step) : step :=
    mkStep (st_type r) (st_x r) (st_s r) (st_sc r) (st_ss r) (st_og_s r) (st_og_sc r) (st_og_ss r) (st_sg r) (st_scaling r) (st_delta r) (st_theta r) (st_lb r) (st_ub r) (st_br r) (st_minbr r) (st_alpha r) (st_iminbr r) (st_qpval r) (st_shess r) v (st_chess r) (st_subspace r) (st_s0 r) (st_ss0 r) (st_refl r) (st_trunc r) (st_posdef r) (st_newton r).
  Definition set_st_chess (v : mat) (r : step) : step :=
    mkStep (st_type r) (st_x r) (st_s r) (st_sc r) (st_ss r) (st_og_s r) (st_og_sc r) (st_og_ss r) (st_sg r) (st_scaling r) (st_delta r) (st_theta r) (st_lb r) (st_ub r) (st_br r) (st_minbr r) (st_alpha r) (st_iminbr r) (st_qpval r) (st_shess r) (st_cg r) v (st_subspace r) (st_s0 r) (st_ss0 r) (st_refl r) (st_trunc r) (st_posdef r) (st_newton r).
  Definition set_st_subspace (v : list vec) (r : step) : step :=
    mkStep (st_type r) (st_x r) (st_s r) (st_sc r) (st_ss r) (st_og_s r) (st_og_sc r) (st_og_ss r) (st_sg r) (st_scaling r) (st_delta r) (st_theta r) (st_lb r) (st_ub r) (st_br r) (st_minbr r) (st_alpha r) (st_iminbr r) (st_qpval r) (st_shess r) (st_cg r) (st_chess r) v (st_s0 r) (st_ss0 r) (st_refl r) (st_trunc r) (st_posdef r) (st_newton r).
  Definition set_st_s0 (v : vec) (r : step) : step :=
    mkStep (st_type r) (st_x r) (st_s r) (st_sc r) (st_ss r) (st_og_s r) (st_og_sc r) (st_og_ss r) (st_sg r) (st_scaling r) (st_delta r) (st_theta r) (st_lb r) (st_ub r) (st_br r) (st_minbr r) (st_alpha r) (st_iminbr r) (st_qpval r) (st_shess r) (st_cg r) (st_chess r) (st_subspace r) v (st_ss0 r) (st_refl r) (st_trunc r) (st_posdef r) (st_newton r).
  Definition set_st_ss0 (v : vec) (r : step) : step :=
    mkStep (st_type r) (st_x r) (st_s r) (st_sc r) (st_ss r) (st_og_s r) (st_og_sc r) (st_og_ss r) (st_sg r) (st_scaling r) (st_delta r) (st_theta r) (st_lb r) (st_ub r) (st_br r) (st_minbr r) (st_alpha r) (st_iminbr r) (st_qpval r) (st_shess r) (st_cg r) (st_chess r) (st_subspace r) (st_s0 r) v (st_refl r) (st_trunc r) (st_posdef r) (st_newton r).
  Definition set_st_refl (v : list nat) (r : step) : step :=
    mkStep (st_type r) (st_x r) (st_s r) (st_sc r) (st_ss r) (st_og_s r) (st_og_sc r) (st_og_ss r) (st_sg r) (st_scaling r) (st_delta r) (st_theta r) (st_lb r) (st_ub r) (st_br r) (st_minbr r) (st_alpha r) (st_iminbr r) (st_qpval r) (st_shess r) (st_cg r) (st_chess r) (st_subspace r) (st_s0 r) (st_ss0 r) v (st_trunc r) (st_posdef r) (st_newton r).
  Definition set_st_trunc (v : list nat) (r : step) : step :=
    mkStep (st_type r) (st_x r) (st_s r) (st_sc r) (st_ss r) (st_og_s r) (st_og_sc r) (st_og_ss r) (st_sg r) (st_scaling r) (st_delta r) (st_theta r) (st_lb r) (st_ub r) (st_br r) (st_minbr r) (st_alpha r) (st_iminbr r) (st_qpval r) (st_shess r) (st_cg r) (st_chess r) (st_subspace r) (st_s0 r) (st_ss0 r) (st_refl r) v (st_posdef r) (st_newton r).
  Definition set_st_posdef (v : option bool) (r : step) : step :=
    mkStep (st_type r) (st_x r) (st_s r) (st_sc r) (st_ss r) (st_og_s r) (st_og_sc r) (st_og_ss r) (st_sg r) (st_scaling r) (st_delta r) (st_theta r) (st_lb r) (st_ub r) (st_br r) (st_minbr r) (st_alpha r) (st_iminbr r) (st_qpval r) (st_shess r) (st_cg r) (st_chess r) (st_subspace r) (st_s0 r) (st_ss0 r) (st_refl r) (st_trunc r) v (st_newton r).
  Definition set_st_newton (v : option bool) (r : step) : step :=
    mkStep (st_type r) (st_x r) (st_s r) (st_sc r) (st_ss r) (st_og_s r) (st_og_sc r) (st_og_ss r) (st_sg r) (st_scaling r) (st_delta r) (st_theta r) (st_lb r) (st_ub r) (st_br r) (st_minbr r) (st_alpha r) (st_iminbr r) (st_qpval r) (st_shess r) (st_cg r) (st_chess r) (st_subspace r) (st_s0 r) (st_ss0 r) (st_refl r) (st_trunc r) (st_posdef r) v.


  (** steps.py:24-33  normalize *)
  Definition normalize (v : vec) : vec :=
    let nv := norm v in if nv >? n0 then vdivs v nv else v.

  (** steps.py:139-141  shess = scaling * hess * scaling + g_dscaling *)
  Definition shess_of (d : vec) (hess : mat) (gd : vec) : mat :=
    mapi (fun i row =>
            mapi (fun j h => nth i d n0 * h * nth j d n0
                             + (if Nat.eqb i j then nth i gd n0 else n0)) row) hess.

  (** steps.py:75-152  Step.__init__, followed by the attributes a subclass constructor
      overwrites: x, subspace, s0, ss0, reflection/truncation indices, posdef, newton *)
  Definition new_step (typ : string) (A : sargs) (x : vec) (subspace : list vec)
      (s0 ss0 : vec) (refl trunc : list nat) (posdef newton : option bool) : step :=
    let n := List.length (a_sg A) in
    mkStep typ x [] [] [] [] [] [] (a_sg A) (a_scaling A) (a_delta A) (a_theta A)
           (a_lb A) (a_ub A) (repeat n1 n) n1 n1 [] n0
           (shess_of (a_scaling A) (a_hess A) (a_gd A)) [] [] subspace s0 ss0
           refl trunc posdef newton.

  Definition zeros_of (A : sargs) : vec := vzeros (List.length (a_sg A)).

  (** steps.py:182-197  the breakpoint of one coordinate *)
  Definition breakpoint (x s lb ub : T) : T :=
    if nabs s >? n0 then npmax2 ((ub - x) / s) ((lb - x) / s) else ninf.

  Fixpoint breakpoints (x s lb ub : vec) : vec :=
    match x, s, lb, ub with
    | xi :: x', si :: s', li :: lb', ui :: ub' =>
        breakpoint xi si li ui :: breakpoints x' s' lb' ub'
    | _, _, _, _ => []
    end.

  (** steps.py:172-205  step_back *)
  Definition step_back (r : step) : step :=
    let br := breakpoints (st_x r) (st_s r) (st_lb r) (st_ub r) in
    let minbr := npmin br in
    let iminbr := where_ (map (fun b => b =? minbr) br) in
    let alpha := npmin [ n1 ; st_theta r * minbr ] in
    let r := set_st_og_s (st_s r) r in
    let r := set_st_og_ss (st_ss r) r in
    let r := set_st_og_sc (st_sc r) r in
    let r := set_st_br br r in
    let r := set_st_minbr minbr r in
    let r := set_st_iminbr iminbr r in
    let r := set_st_alpha alpha r in
    let r := set_st_s (vscaler (st_s r) alpha) r in
    let r := set_st_sc (vscaler (st_sc r) alpha) r in
    set_st_ss (vscaler (st_ss r) alpha) r.

  (** steps.py:207-213  reduce_to_subspace *)
  Definition reduce_to_subspace (r : step) : step :=
    let sub := st_subspace r in
    let chess := map (fun ci => map (fun cj => dot ci (matvec (st_shess r) cj)) sub) sub in
    set_st_cg (tmatvec sub (st_sg r)) (set_st_chess chess r).

  (** steps.py:215-237  compute_step *)
  Definition compute_step (O : StepOracles T) (r : step) : res step :=
    let n := List.length (st_s0 r) in
    let finish sc :=
      let ss := lincomb n sc (st_subspace r) in
      Ok (set_st_s (vmul (st_scaling r) ss) (set_st_ss ss (set_st_sc sc r))) in
    match st_subspace r with
    | [] => Ok (set_st_s (vzeros n) (set_st_ss (vzeros n) (set_st_sc [] r)))
    | [col] =>
        finish (solve_1d_trust_region_subproblem
                  (st_shess r) (st_sg r) col (st_delta r) (st_ss0 r))
    | _ =>
        match solve_nd_trust_region_subproblem (so_sub O) (st_chess r) (st_cg r)
                (nsqrt (pymax (nsq (st_delta r) - nsq (norm (st_ss0 r))) n0)) with
        | Ok (sc, _) => finish sc
        | Err e => Err e
        end
    end.

  (** steps.py:239-247  Step.calculate *)
  Definition calculate (O : StepOracles T) (r : step) : res step :=
    match compute_step O (reduce_to_subspace r) with
    | Ok r1 =>
        let r2 := step_back r1 in
        Ok (set_st_qpval
              (quadratic_form (st_shess r2) (st_sg r2) (vadd (st_ss r2) (st_ss0 r2))) r2)
    | Err e => Err e
    end.

  (** steps.py:250-264  TRStepFull *)
  Definition tr_step_full (A : sargs) : step :=
    new_step "nd" A (a_x A) (eye (List.length (a_hess A))) (zeros_of A) (zeros_of A) [] [] None None.

  (** steps.py:267-323  TRStep2D *)
  Definition tr_step_2d (O : StepOracles T) (A : sargs) : res step :=
    let shess := shess_of (a_scaling A) (a_hess A) (a_gd A) in
    let sg := a_sg A in
    let mk sub posdef newton :=
      Ok (new_step "2d" A (a_x A) sub (zeros_of A) (zeros_of A) [] [] (Some posdef) newton) in
    match so_lstsq O shess sg with
    | None => Err EExternal
    | Some ls =>
      match so_eig O shess with
      | None => Err EExternal
      | Some (e_re, e_abs, v) =>
        let posdef := npmin e_re >? (- spacing1) * npmax e_abs in
        match sg with
        | [sg0] =>
            (* lines 286-289; shess[0] is the first (only) row; [newton] is not set *)
            mk [ map (fun h => (- sg0) / h) (nth 0 shess []) ] posdef None
        | _ =>
            let s_newt := vopp ls in
            if posdef && (norm s_newt <? a_delta A) then
              mk [ normalize s_newt ] posdef (Some true)
            else
              let s_newt := if posdef then s_newt else nth (argmin e_re) v [] in
              let s_grad := if posdef then sg
                            else vmul (a_scaling A)
                                      (map (fun g => npsign g + nofbool (g =? n0)) sg) in
              let s_newt := normalize s_newt in
              let s_grad := vsub s_grad (vscaler s_newt (dot s_newt s_grad)) in
              if norm s_grad >? spacing1
              then mk [ s_newt ; normalize s_grad ] posdef (Some false)
              else mk [ s_newt ] posdef (Some false)
        end
      end
    end.

  (** steps.py:359-398  TRStepSteihaug.conj_grad, the [while True] loop.
      Result: (subspace, sc, ss, ss0) *)
  Fixpoint cg_loop (fuel : nat) (shess : mat) (sg : vec) (delta eps : T) (z r d : vec)
      : res (list vec * vec * vec * vec) :=
    match fuel with
    | O => Err EDiverge
    | S k =>
        let n := List.length sg in
        let bd := matvec shess d in
        let c := dot d bd in
        let r2 := dot r r in
        let alpha := r2 / c in
        let zp := vadd z (vscale alpha d) in
        if (c <=? n0) || (norm zp >=? delta) then
          let sub := [ d ] in
          let sc := [ get_1d_trust_region_boundary_solution shess sg d z delta * n1 ] in
          Ok (sub, sc, lincomb n sc sub, z)
        else
          let rp := vadd r (vscale alpha bd) in
          let rp2 := dot rp rp in
          if nsqrt rp2 <? eps then
            let dn := normalize d in
            let sub := [ dn ] in
            let sc := [ dot zp dn * n1 ] in
            let ss := lincomb n sc sub in
            Ok (sub, sc, ss, vsub zp ss)
          else
            let beta := rp2 / r2 in
            cg_loop k shess sg delta eps zp rp (vadd (vopp rp) (vscale beta d))
    end.

  (** steps.py:351-365 and 334-339  TRStepSteihaug: constructor and CGStep.calculate.
      If norm(r) < eps at entry (363-365) sc stays None and step_back raises AttributeError *)
  Definition cg_step (O : StepOracles T) (A : sargs) : res step :=
    let base := new_step "cgs" A (a_x A) [] (zeros_of A) (zeros_of A) [] [] None None in
    let sg := a_sg A in
    let nsg := norm sg in
    let eps := pymin nhalf (nsqrt nsg) * nsg in
    if norm sg <? eps then Err EAttr
    else
      match cg_loop (so_cgfuel O) (st_shess base) sg (a_delta A) eps
                    (zeros_of A) sg (vopp sg) with
      | Err e => Err e
      | Ok (sub, sc, ss, ss0) =>
          let r := set_st_subspace sub (set_st_sc sc (set_st_ss ss (set_st_ss0 ss0 base))) in
          let r := set_st_s (vmul (st_scaling r) (vadd ss ss0)) r in
          let r := step_back r in
          Ok (set_st_qpval
                (quadratic_form (st_shess r) (st_sg r) (vadd (st_ss r) (st_ss0 r))) r)
      end.

  (** steps.py:401-443  TRStepReflected.__init__ *)
  Definition tr_step_reflected (A : sargs) (p : step) : step :=
    let alpha := pymin (st_minbr p) n1 in
    let s0 := vadd (vscale alpha (st_og_s p)) (st_s0 p) in
    let ss0 := vadd (vscale alpha (st_og_ss p)) (st_ss0 p) in
    let nss := mapi (fun i a => if mem i (st_iminbr p) then a * (- n1) else a) (st_og_ss p) in
    new_step "trr" A (vadd (a_x A) s0) [ normalize nss ] s0 ss0 (st_iminbr p) [] None None.

  (** steps.py:446-493  TRStepTruncated.__init__ *)
  Definition trunc_s0 (p : step) (v0 og : vec) : vec :=
    mapi (fun i a => if mem i (st_iminbr p)
                     then a + st_theta p * nth i (st_br p) nnan * nth i og nnan
                     else a) v0.
  Definition trunc_subspace (idx : list nat) (sub : list vec) : list vec :=
    map normalize
      (filter (fun col => negb (vall_zero col))
         (map (fun col => mapi (fun i a => if mem i idx then n0 else a) col) sub)).
  Definition tr_step_truncated (A : sargs) (p : step) : step :=
    let s0 := trunc_s0 p (st_s0 p) (st_og_s p) in
    let ss0 := trunc_s0 p (st_ss0 p) (st_og_ss p) in
    new_step "trt" A (vadd (a_x A) s0) (trunc_subspace (st_iminbr p) (st_subspace p))
             s0 ss0 [] (st_iminbr p) None None.

  (** steps.py:496-511  GradientStep.__init__ *)
  Definition gradient_step (A : sargs) : step :=
    new_step "g" A (a_x A) [ normalize (a_sg A) ] (zeros_of A) (zeros_of A) [] [] None None.

  (** steps.py:514-567  RefinedStep: constructor and calculate *)
  Definition refined_step (O : StepOracles T) (A : sargs) (p : step) : res step :=
    let base := new_step "ref" A (a_x A) (st_subspace p) (zeros_of A) (zeros_of A)
                         (st_refl p) (st_trunc p) None None in
    let base := set_st_chess (st_chess p) (set_st_cg (st_cg p) base) in
    let lo := map2 ndiv (vscale (a_theta A) (vsub (a_lb A) (a_x A))) (a_scaling A) in
    let hi := map2 ndiv (vscale (a_theta A) (vsub (a_ub A) (a_x A))) (a_scaling A) in
    match so_refine O (st_chess p) (st_cg p) (st_sc p) (st_subspace p) (a_delta A) lo hi with
    | None => Err EExternal
    | Some sc =>
        let ss := lincomb (List.length (a_sg A)) sc (st_subspace p) in
        let r := set_st_s (vmul (st_scaling base) ss) (set_st_ss ss (set_st_sc sc base)) in
        let r := step_back r in
        Ok (set_st_qpval (quadratic_form (st_shess r) (st_sg r) (st_ss r)) r)
    end.

  (** steps.py:154-170 *)
  Definition reflection_count (r : step) : nat := List.length (st_refl r).
  Definition truncation_count (r : step) : nat := List.length (st_trunc r).
End Steps.

Arguments step : clear implicits.
Arguments sargs : clear implicits.
