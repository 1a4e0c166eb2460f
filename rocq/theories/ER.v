(** The extended reals: real numbers, +inf, -inf and NaN, with the operations of IEEE 754
    but without rounding and without a sign of zero.  This is the "exact arithmetic" in
    which algebraic properties of the code are proved.

    Simplification: there is one zero, so x/0 is +inf for x > 0 and -inf for x < 0
    (IEEE: depends on the sign of the zero) and the sign bit of zero is clear. *)
From Coq Require Import ZArith List Bool Reals Lra Lia.
From Verif Require Import Num Constants.
Import ListNotations.
Local Open Scope R_scope.

Inductive ER := Fin (r : R) | PInf | NInf | NaN.

Definition Rltb (a b : R) : bool := if Rlt_dec a b then true else false.
Definition Rleb (a b : R) : bool := if Rle_dec a b then true else false.
Definition Reqb (a b : R) : bool := if Req_EM_T a b then true else false.

Lemma Rltb_spec a b : reflect (a < b) (Rltb a b).
Proof. unfold Rltb; destruct Rlt_dec; constructor; auto. Qed.
Lemma Rleb_spec a b : reflect (a <= b) (Rleb a b).
Proof. unfold Rleb; destruct Rle_dec; constructor; auto. Qed.
Lemma Reqb_spec a b : reflect (a = b) (Reqb a b).
Proof. unfold Reqb; destruct Req_EM_T; constructor; auto. Qed.

Definition er_opp (a : ER) : ER :=
  match a with Fin x => Fin (- x) | PInf => NInf | NInf => PInf | NaN => NaN end.
Definition er_abs (a : ER) : ER :=
  match a with Fin x => Fin (Rabs x) | PInf | NInf => PInf | NaN => NaN end.
Definition er_add (a b : ER) : ER :=
  match a, b with
  | NaN, _ | _, NaN => NaN
  | Fin x, Fin y => Fin (x + y)
  | PInf, NInf | NInf, PInf => NaN
  | PInf, _ | _, PInf => PInf
  | NInf, _ | _, NInf => NInf
  end.
Definition er_sub (a b : ER) : ER := er_add a (er_opp b).
(** x * (sign * inf), sign = true for +inf *)
Definition er_infmul (pos : bool) (x : R) : ER :=
  if Rltb 0 x then (if pos then PInf else NInf)
  else if Rltb x 0 then (if pos then NInf else PInf)
  else NaN.
Definition er_mul (a b : ER) : ER :=
  match a, b with
  | NaN, _ | _, NaN => NaN
  | Fin x, Fin y => Fin (x * y)
  | Fin x, PInf | PInf, Fin x => er_infmul true x
  | Fin x, NInf | NInf, Fin x => er_infmul false x
  | PInf, PInf | NInf, NInf => PInf
  | PInf, NInf | NInf, PInf => NInf
  end.
Definition er_div (a b : ER) : ER :=
  match a, b with
  | NaN, _ | _, NaN => NaN
  | Fin x, Fin y =>
      if Reqb y 0 then er_infmul true x else Fin (x / y)
  | Fin _, _ => Fin 0
  | PInf, Fin y => if Rltb y 0 then NInf else PInf
  | NInf, Fin y => if Rltb y 0 then PInf else NInf
  | _, _ => NaN
  end.
Definition er_sqrt (a : ER) : ER :=
  match a with
  | Fin x => if Rltb x 0 then NaN else Fin (sqrt x)
  | PInf => PInf
  | _ => NaN
  end.
Definition er_ltb (a b : ER) : bool :=
  match a, b with
  | NaN, _ | _, NaN => false
  | Fin x, Fin y => Rltb x y
  | NInf, NInf => false
  | NInf, _ => true
  | _, NInf => false
  | PInf, _ => false
  | _, PInf => true
  end.
Definition er_leb (a b : ER) : bool :=
  match a, b with
  | NaN, _ | _, NaN => false
  | Fin x, Fin y => Rleb x y
  | NInf, _ => true
  | _, NInf => false
  | _, PInf => true
  | PInf, _ => false
  end.
Definition er_eqb (a b : ER) : bool :=
  match a, b with
  | Fin x, Fin y => Reqb x y
  | PInf, PInf | NInf, NInf => true
  | _, _ => false
  end.
Definition er_isnan (a : ER) : bool := match a with NaN => true | _ => false end.
Definition er_isfin (a : ER) : bool := match a with Fin _ => true | _ => false end.
Definition er_signb (a : ER) : bool :=
  match a with Fin x => Rltb x 0 | NInf => true | _ => false end.

#[global] Instance ERNum : Num ER := {|
  nadd := er_add; nsub := er_sub; nmul := er_mul; ndiv := er_div;
  nopp := er_opp; nabs := er_abs; nsqrt := er_sqrt;
  nltb := er_ltb; nleb := er_leb; neqb := er_eqb;
  nisnan := er_isnan; nisfin := er_isfin; nsignb := er_signb;
  nofZ := fun z => Fin (IZR z); ninf := PInf; nnan := NaN
|}.

(** int(v) for a finite value that equals an integer *)
#[global] Instance ERInt : NumInt ER := {|
  ntoZ := fun a => match a with
                   | Fin x => if Reqb (IZR (Int_part x)) x then Some (Int_part x) else None
                   | _ => None
                   end
|}.

(** ** IEEE-like number systems

    A number system [T] obeys [NumLaws] when there is an embedding of [T] into [ER] which
    preserves comparisons and classification, and under which every arithmetic operation is
    the exact operation followed by a monotone rounding [rnd] (binary64: [F64.v]; [ER] itself:
    rounding is the identity).  Division by zero only has to give an infinity or NaN. *)
Class NumLaws (T : Type) {N : Num T} := {
  emb : T -> ER;
  rnd : ER -> ER;
  emb_ltb : forall x y, nltb x y = er_ltb (emb x) (emb y);
  emb_leb : forall x y, nleb x y = er_leb (emb x) (emb y);
  emb_eqb : forall x y, neqb x y = er_eqb (emb x) (emb y);
  emb_isnan : forall x, nisnan x = er_isnan (emb x);
  emb_isfin : forall x, nisfin x = er_isfin (emb x);
  emb_inf : emb ninf = PInf;
  emb_nan : emb nnan = NaN;
  emb_opp : forall x, emb (nopp x) = er_opp (emb x);
  emb_abs : forall x, emb (nabs x) = er_abs (emb x);
  emb_add : forall x y, emb (nadd x y) = rnd (er_add (emb x) (emb y));
  emb_sub : forall x y, emb (nsub x y) = rnd (er_sub (emb x) (emb y));
  emb_mul : forall x y, emb (nmul x y) = rnd (er_mul (emb x) (emb y));
  emb_div : forall x y, emb y <> Fin 0 -> emb (ndiv x y) = rnd (er_div (emb x) (emb y));
  emb_div0 : forall x y, emb y = Fin 0 -> er_isfin (emb (ndiv x y)) = false;
  emb_sqrt : forall x, emb (nsqrt x) = rnd (er_sqrt (emb x));
  emb_ofZ : forall z, (Z.abs z <= 2 ^ 53)%Z -> emb (nofZ z) = Fin (IZR z);
  rnd_nan : rnd NaN = NaN;
  rnd_pinf : rnd PInf = PInf;
  rnd_ninf : rnd NInf = NInf;
  rnd_notnan : forall r, rnd (Fin r) <> NaN;
  rnd_mono : forall a b, er_leb a b = true -> er_leb (rnd a) (rnd b) = true;
  rnd_emb : forall x, rnd (emb x) = emb x;
  rnd_sub0 : forall x y r, er_sub (emb x) (emb y) = Fin r -> rnd (Fin r) = Fin 0 -> r = 0
}.

Lemma er_ltb_leb a b : er_ltb a b = true -> er_leb a b = true.
Proof.
  destruct a, b; simpl; auto. destruct (Rltb_spec r r0), (Rleb_spec r r0); auto; lra.
Qed.

Ltac er_bool :=
  repeat match goal with
  | H : Rltb ?a ?b = true |- _ => destruct (Rltb_spec a b) in H; [|discriminate H]; clear H
  | H : Rltb ?a ?b = false |- _ => destruct (Rltb_spec a b) in H; [discriminate H|]; clear H
  | H : Rleb ?a ?b = true |- _ => destruct (Rleb_spec a b) in H; [|discriminate H]; clear H
  | H : Rleb ?a ?b = false |- _ => destruct (Rleb_spec a b) in H; [discriminate H|]; clear H
  | H : Reqb ?a ?b = true |- _ => destruct (Reqb_spec a b) in H; [|discriminate H]; clear H
  | H : Reqb ?a ?b = false |- _ => destruct (Reqb_spec a b) in H; [discriminate H|]; clear H
  | |- context [Rltb ?a ?b] => destruct (Rltb_spec a b)
  | |- context [Rleb ?a ?b] => destruct (Rleb_spec a b)
  | |- context [Reqb ?a ?b] => destruct (Reqb_spec a b)
  end.
Ltac er_cases := simpl in *; try discriminate; try reflexivity; er_bool;
  simpl in *; try discriminate; try reflexivity; try lra; auto.

#[global] Program Instance ERLaws : NumLaws ER := {| emb := fun x => x; rnd := fun x => x |}.
Next Obligation. subst. simpl. destruct x; er_cases; unfold er_infmul; er_cases. Qed.
