(** Model of fides/hessian_approximation.py *)
From Coq Require Import ZArith List Bool.
Import ListNotations.
From Verif Require Import Num.
Local Open Scope num_scope.

Section HessApprox.
  Context {T : Type} {N : Num T}.
  Local Notation vec := (list T).
  Local Notation mat := (list (list T)).

  (** hessian_approximation.py:604-642  broyden_class_update *)
  Definition broyden_class_update (y s : vec) (m : mat) (phi : T) (enforce : bool) : mat :=
    let u := matvec m s in
    let c := dot u s in
    let b := dot y s in
    if (b <=? n0) && enforce then mzeros_like m
    else
      let update := msub (mdivs (outer y y) b) (mdivs (outer u u) c) in
      if negb (phi =? n0) then
        let v := vsub (vdivs y b) (vdivs u c) in
        madd update (mscale (phi * c) (outer v v))
      else update.

  (** *** HessianApproximation (lines 15-94): the two fields _hess and _diff *)
  Record hbase := mkHbase { hb_hess : mat; hb_diff : mat }.

  (** lines 24-25: np.empty(0) *)
  Definition hb_empty : hbase := mkHbase [] [].

  (** lines 27-49  _init_mat; only hess.shape[0] is compared with dim *)
  Definition hb_init (dim : nat) (hess : option mat) : res hbase :=
    match hess with
    | None => Ok (mkHbase (eye dim) (mzeros_like (eye dim)))
    | Some h =>
        if Nat.eqb (length h) dim then Ok (mkHbase h (mzeros_like h)) else Err EValue
    end.

  (** shape of a 2-d array *)
  Definition shape (m : mat) : nat * nat := (length m, length (nth 0 m [])).
  Definition shape_eqb (a b : nat * nat) : bool :=
    Nat.eqb (fst a) (fst b) && Nat.eqb (snd a) (snd b).

  (** lines 69-82  set_mat *)
  Definition hb_set_mat (h : hbase) (m : mat) : res hbase :=
    if shape_eqb (shape m) (shape (hb_hess h)) then Ok (mkHbase m (hb_diff h))
    else Err EValue.

  (** lines 92-94  _update_hess_and_store_diff *)
  Definition hb_store (h : hbase) (hess : mat) : hbase :=
    mkHbase hess (msub hess (hb_hess h)).

  (** *** IterativeHessianApproximation subclasses (lines 97-253) *)
  Inductive ikind :=
  | IBroyden (phi : T) (enforce : bool)   (* Broyden, lines 122-162 *)
  | ISR1                                  (* lines 201-219 *)
  | IBG                                   (* lines 222-234 *)
  | IBB.                                  (* lines 237-253 *)

  (** lines 165-198  BFGS and DFP are Broyden with phi = 0 and phi = 1 *)
  Definition BFGS (enforce : bool) : ikind := IBroyden n0 enforce.
  Definition DFP (enforce : bool) : ikind := IBroyden n1 enforce.

  Record ihapp := mkIhapp { ih_kind : ikind; ih_base : hbase }.

  Definition ih_mat (h : ihapp) : mat := hb_hess (ih_base h).       (* get_mat *)
  Definition ih_diff (h : ihapp) : mat := hb_diff (ih_base h).      (* get_diff *)

  Definition ih_init (h : ihapp) (dim : nat) (hess : option mat) : res ihapp :=
    match hb_init dim hess with
    | Ok b => Ok (mkIhapp (ih_kind h) b)
    | Err e => Err e
    end.

  Definition ih_set_mat (h : ihapp) (m : mat) : res ihapp :=
    match hb_set_mat (ih_base h) m with
    | Ok b => Ok (mkIhapp (ih_kind h) b)
    | Err e => Err e
    end.

  (** lines 211-219  SR1._compute_update *)
  Definition sr1_diff (m : mat) (s y : vec) : mat :=
    let z := vsub y (matvec m s) in
    let d := dot z s in
    if nabs d >=? nsqrt spacing1 * norm s * norm z
    then mdivs (outer z z) d
    else mzeros_like m.

  (** lines 232-234  BG._compute_update *)
  Definition bg_diff (m : mat) (s y : vec) : mat :=
    let z := vsub y (matvec m s) in
    mdivs (outer z s) (dot s s).

  (** lines 247-253  what BB.update stores in _diff *)
  Definition bb_diff (m : mat) (s y : vec) : mat :=
    let b := dot y s in
    let z := vsub y (matvec m s) in
    if b <=? n0 then mzeros_like m else mdivs (outer z s) b.

  (** update: lines 102-119 (_compute_update then _apply_update: _hess += _diff);
      BB overrides update itself (lines 247-253) and never adds _diff to _hess *)
  Definition ih_update (h : ihapp) (s y : vec) : ihapp :=
    let m := ih_mat h in
    let apply d := mkIhapp (ih_kind h) (mkHbase (madd m d) d) in
    match ih_kind h with
    | IBroyden phi enforce => apply (broyden_class_update y s m phi enforce)
    | ISR1 => apply (sr1_diff m s y)
    | IBG => apply (bg_diff m s y)
    | IBB => mkIhapp IBB (mkHbase m (bb_diff m s y))
    end.

  (** *** Structured approximations (lines 422-601) *)
  Inductive skind :=
  | SSSM                    (* SSM, lines 498-525 *)
  | STSSM                   (* TSSM, lines 528-555 *)
  | SGNSBFGS (tol : T).     (* GNSBFGS, lines 558-601 *)

  Record shapp := mkShapp {
    sh_kind : skind;
    sh_phi : T;
    sh_enforce : bool;
    sh_A : mat;              (* self.A *)
    sh_sdiff : mat;          (* self._structured_diff *)
    sh_base : hbase
  }.

  (** lines 573-574: GNSBFGS always has phi = 0.0 *)
  Definition GNSBFGS (tol : T) (enforce : bool) : shapp :=
    mkShapp (SGNSBFGS tol) n0 enforce [] [] hb_empty.
  Definition SSM (phi : T) (enforce : bool) : shapp :=
    mkShapp SSSM phi enforce [] [] hb_empty.
  Definition TSSM (phi : T) (enforce : bool) : shapp :=
    mkShapp STSSM phi enforce [] [] hb_empty.

  (** lines 457-460  StructuredApproximation._init_mat *)
  Definition sh_init (h : shapp) (dim : nat) (hess : option mat) : res shapp :=
    let A := map (map (fun x => x * spacing1)) (eye dim) in
    match hb_init dim hess with
    | Ok b => Ok (mkShapp (sh_kind h) (sh_phi h) (sh_enforce h) A (mzeros_like A) b)
    | Err e => Err e
    end.

  (** update of SSM (507-525), TSSM (537-555), GNSBFGS (576-601) *)
  Definition sh_update (h : shapp) (s y r : vec) (hess : mat) (yb : vec) : shapp :=
    let A := sh_A h in
    let mk A' d b := mkShapp (sh_kind h) (sh_phi h) (sh_enforce h) A' d b in
    match sh_kind h with
    | SSSM =>
        let bs := madd hess A in
        let ys := vadd yb (matvec hess s) in
        let d := broyden_class_update ys s bs (sh_phi h) (sh_enforce h) in
        let A' := madd A d in
        mk A' d (hb_store (sh_base h) (madd hess A'))
    | STSSM =>
        let bs := madd hess (mscale (norm r) A) in
        let ys := vadd (matvec hess s) yb in
        let d := mdivs (broyden_class_update ys s bs (sh_phi h) (sh_enforce h)) (norm r) in
        let A' := madd A d in
        mk A' d (hb_store (sh_base h) (madd hess (mscale (norm r) A')))
    | SGNSBFGS tol =>
        let ratio := dot yb s / dot s s in
        if ratio >? tol then
          let d := broyden_class_update yb s A (sh_phi h) (sh_enforce h) in
          let A' := madd A d in
          mk A' d (hb_store (sh_base h) (madd hess A'))
        else
          mk A (mzeros_like A)
             (hb_store (sh_base h) (madd hess (mscale (norm r) (eye (length y)))))
    end.

  (** *** All schemes *)
  Inductive happ :=
  | HIter (i : ihapp)
  | HFixed (inner : ihapp) (base : hbase) (switch_iteration : Z) (switched : bool)
      (* HybridFixed, lines 283-315 *)
  | HFraction (inner : ihapp) (base : hbase) (threshold : T) (switched : bool)
      (* HybridFraction, lines 318-354 *)
  | HFX (inner : ihapp) (base : hbase) (tol : T)
      (* FX, lines 357-419 *)
  | HStruct (h : shapp).

  (** lines 51-58 get_mat, overridden by FX (414-415) *)
  Definition h_mat (h : happ) : mat :=
    match h with
    | HIter i => ih_mat i
    | HFixed _ b _ _ | HFraction _ b _ _ => hb_hess b
    | HFX i _ _ => ih_mat i
    | HStruct s => hb_hess (sh_base s)
    end.

  (** lines 60-67 get_diff *)
  Definition h_diff (h : happ) : mat :=
    match h with
    | HIter i => ih_diff i
    | HFixed _ b _ _ | HFraction _ b _ _ | HFX _ b _ => hb_diff b
    | HStruct s => hb_diff (sh_base s)
    end.

  (** requires_resfun: False by default (84-86), True for FX (417-419) and structured (486-488) *)
  Definition requires_resfun (h : happ) : bool :=
    match h with HFX _ _ _ | HStruct _ => true | _ => false end.

  (** truth value of [h.requires_hess]: property False by default (88-90); a *method* for the
      hybrids (272-273), so the bound method object, which is truthy; True for structured (490-492) *)
  Definition requires_hess (h : happ) : bool :=
    match h with HIter _ => false | _ => true end.

  (** _init_mat: 27-49; HybridApproximation 268-270 (inner first); Structured 457-460.
      Note that [switched] is not reset *)
  Definition h_init (h : happ) (dim : nat) (hess : option mat) : res happ :=
    let hyb inner k :=
      match ih_init inner dim hess with
      | Err e => Err e
      | Ok i => match hb_init dim hess with Err e => Err e | Ok b => Ok (k i b) end
      end in
    match h with
    | HIter i => match ih_init i dim hess with Ok i' => Ok (HIter i') | Err e => Err e end
    | HFixed i _ n sw => hyb i (fun i b => HFixed i b n sw)
    | HFraction i _ t sw => hyb i (fun i b => HFraction i b t sw)
    | HFX i _ t => hyb i (fun i b => HFX i b t)
    | HStruct s => match sh_init s dim hess with Ok s' => Ok (HStruct s') | Err e => Err e end
    end.

  (** lines 276-280  _switched_update *)
  Definition switched_update (inner : ihapp) (base : hbase) (switched : bool)
      (s y : vec) (hess : mat) : ihapp * hbase :=
    let inner' := ih_update inner s y in
    let new_hess := if switched then ih_mat inner' else hess in
    (inner', hb_store base new_hess).

  (** lines 306-315  HybridFixed.update *)
  Definition fixed_update (inner : ihapp) (base : hbase) (n : Z) (switched : bool)
      (s y : vec) (hess : mat) (iter_since : Z) : happ :=
    let '(i', b') := switched_update inner base switched s y hess in
    HFixed i' b' n (if switched then true else (n <=? iter_since)%Z).

  (** lines 344-354  HybridFraction.update *)
  Definition fraction_update (inner : ihapp) (base : hbase) (t : T) (switched : bool)
      (s y : vec) (hess : mat) (tr_nonupdates iterations : Z) : happ :=
    let '(i', b') := switched_update inner base switched s y hess in
    HFraction i' b' t
      (if negb switched && (25 <? iterations)%Z
       then nofZ tr_nonupdates / nofZ iterations >? t
       else switched).

  (** lines 379-412  FX.update; set_mat may raise on a shape mismatch *)
  Definition fx_update (inner : ihapp) (base : hbase) (tol : T)
      (delta gamma r rprev : vec) (hess : mat) : res happ :=
    let ratio := (dot rprev rprev - dot r r) / dot rprev rprev in
    if ratio >=? tol then
      let d := msub hess (ih_mat inner) in
      match ih_set_mat inner hess with
      | Ok i' => Ok (HFX i' (mkHbase (hb_hess base) d) tol)
      | Err e => Err e
      end
    else
      let i' := ih_update inner delta gamma in
      Ok (HFX i' (mkHbase (hb_hess base) (ih_diff i')) tol).
End HessApprox.

Arguments hbase : clear implicits.
Arguments ikind : clear implicits.
Arguments ihapp : clear implicits.
Arguments skind : clear implicits.
Arguments shapp : clear implicits.
Arguments happ : clear implicits.
Arguments hb_empty {T}.
