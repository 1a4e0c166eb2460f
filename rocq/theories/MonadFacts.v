(** Effects of the pieces of Optimizer: which attributes each of them can change.
    (proof library for the properties about minimize) *)
From Coq Require Import ZArith List Bool String Lia.
From Verif Require Import Num Constants Subproblem HessApprox Steps TrustRegion Minimize.
Import ListNotations.
Local Open Scope num_scope.

Section MonadFacts.
  Context {T : Type} {N : Num T}.
  Local Notation vec := (list T).
  Local Notation mat := (list (list T)).
  Local Notation opt := (opt T).
  Local Notation M := (M T).

  Lemma bind_inv {A B} (m : M A) (f : A -> M B) st r st' :
    bind m f st = (r, st') ->
    (exists a s1, m st = (Ok a, s1) /\ f a s1 = (r, st'))
    \/ (exists e, m st = (Err e, st') /\ r = Err e).
  Proof.
    unfold bind. destruct (m st) as [[a|e] s1] eqn:E; intros H.
    - left; eauto.
    - right. injection H as <- <-. eauto.
  Qed.
  Lemma bind_ok_inv {A B} (m : M A) (f : A -> M B) st b st' :
    bind m f st = (Ok b, st') ->
    exists a s1, m st = (Ok a, s1) /\ f a s1 = (Ok b, st').
  Proof. intros H. apply bind_inv in H as [H|(e & _ & H)]; [auto|discriminate]. Qed.
  Lemma bind_ok {A B} (m : M A) (f : A -> M B) st a s1 :
    m st = (Ok a, s1) -> bind m f st = f a s1.
  Proof. unfold bind. now intros ->. Qed.
  Lemma bind_err {A B} (m : M A) (f : A -> M B) st e s1 :
    m st = (Err e, s1) -> bind m f st = (Err e, s1).
  Proof. unfold bind. now intros ->. Qed.
  Lemma lift_inv {A} (r : res A) (st : opt) r' st' : lift r st = (r', st') -> r' = r /\ st' = st.
  Proof. unfold lift. destruct r; intros H; injection H; auto. Qed.
  Lemma lift_run {A} (r : res A) (st : opt) : lift r st = (r, st).
  Proof. unfold lift. now destruct r. Qed.
  Lemma lift_ok_inv {A} (r : res A) (st : opt) a st' : lift r st = (Ok a, st') -> r = Ok a /\ st' = st.
  Proof. intros H. apply lift_inv in H. intuition congruence. Qed.

  (** *** relations preserved by computations, exceptional exits included *)
  Definition pres {A} (P : opt -> opt -> Prop) (m : M A) : Prop :=
    forall st r st', m st = (r, st') -> P st st'.

  Section Pres.
    Variable P : opt -> opt -> Prop.
    Hypothesis Prefl : forall s, P s s.
    Hypothesis Ptrans : forall a b c, P a b -> P b c -> P a c.
    Lemma pres_ret {A} (a : A) : pres P (ret a).
    Proof. intros st r st' H. injection H as <- <-. auto. Qed.
    Lemma pres_raise {A} e : pres P (raise (A := A) e).
    Proof. intros st r st' H. injection H as <- <-. auto. Qed.
    Lemma pres_get : pres P get.
    Proof. intros st r st' H. injection H as <- <-. auto. Qed.
    Lemma pres_lift {A} (x : res A) : pres P (lift x).
    Proof. intros st r st' H. apply lift_inv in H as [_ ->]. auto. Qed.
    Lemma pres_modify f : (forall s, P s (f s)) -> pres P (modify f).
    Proof. intros Hf st r st' H. injection H as <- <-. auto. Qed.
    Lemma pres_bind {A B} (m : M A) (f : A -> M B) :
      pres P m -> (forall a, pres P (f a)) -> pres P (bind m f).
    Proof.
      intros Hm Hf st r st' H. apply bind_inv in H as [(a & s1 & H1 & H2)|(e & H1 & _)].
      - apply Hm in H1. apply Hf in H2. eauto.
      - apply Hm in H1. auto.
    Qed.
    Lemma pres_when b (m : M unit) : pres P m -> pres P (when b m).
    Proof. intros H. destruct b; simpl; auto. apply pres_ret. Qed.
    Lemma pres_if {A} (b : bool) (m m' : M A) : pres P m -> pres P m' -> pres P (if b then m else m').
    Proof. destruct b; auto. Qed.
  End Pres.
End MonadFacts.

Ltac pres_step :=
  match goal with
  | |- pres _ (bind _ _) => apply pres_bind; [auto | auto | | intros ? ]
  | |- pres _ (ret _) => apply pres_ret; auto
  | |- pres _ (raise _) => apply pres_raise; auto
  | |- pres _ get => apply pres_get; auto
  | |- pres _ (lift _) => apply pres_lift; auto
  | |- pres _ (modify _) => apply pres_modify; intros ?
  | |- pres _ (when _ _) => apply pres_when; auto
  | |- pres _ (if _ then _ else _) => apply pres_if
  | |- pres _ (match ?x with _ => _ end) => destruct x
  end.
