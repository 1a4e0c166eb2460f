(** numpy's argmin: the first NaN if there is one, else a minimum. *)
From Coq Require Import ZArith List Bool Reals Lra Lia.
From Verif Require Import Num ER NumFacts.
Import ListNotations.

Section Argmin.
  Context {T : Type} {N : Num T} {L : NumLaws T}.
  Local Open Scope num_scope.

  Lemma argmin_from_spec : forall l (f : nat -> T) bi i, (bi < i)%nat ->
    (forall j, (j < length l)%nat -> f (i + j)%nat = nth j l nnan) ->
    let k := argmin_from bi (f bi) i l in
    (k = bi \/ (i <= k < i + length l)%nat)
    /\ (nisnan (f bi) = false -> Forall (fun x => nisnan x = false) l ->
        f k <=? f bi = true /\ forall j, (j < length l)%nat -> f k <=? nth j l nnan = true)
    /\ (nisnan (f bi) = true -> k = bi)
    /\ (forall j, (j < length l)%nat -> nisnan (nth j l nnan) = true -> nisnan (f k) = true).
  Proof.
    induction l as [|x l IH]; intros f bi i Hb Hf k.
    - simpl in k. subst k. split; [now left|]. split.
      + intros Hn _. split; [now apply le_refl|]. simpl. intros j Hj. lia.
      + split; [auto|]. simpl. intros j Hj. lia.
    - assert (Hx : f i = x) by (rewrite <- (Nat.add_0_r i); apply (Hf 0%nat); simpl; lia).
      assert (Hf' : forall j, (j < length l)%nat -> f (S i + j)%nat = nth j l nnan).
      { intros j Hj. replace (S i + j)%nat with (i + S j)%nat by lia. apply (Hf (S j)). simpl. lia. }
      unfold k. cbn [argmin_from].
      destruct (negb (nisnan (f bi)) && (nisnan x || (x <? f bi))) eqn:C.
      + destruct (IH f i (S i) (Nat.lt_succ_diag_r i) Hf') as (H1 & H2 & H3 & H4).
        rewrite Hx in *. set (k' := argmin_from i x (S i) l) in *.
        apply andb_true_iff in C as [C1 C2]. apply negb_true_iff in C1.
        split; [|split; [|split]].
        * simpl. right. lia.
        * intros _ Hall. inversion Hall as [|? ? H0 H0']; subst. destruct H2 as [P1 P2]; auto.
          rewrite H0 in C2. simpl in C2. split.
          -- apply (le_trans _ (f i)); auto. now apply lt_le.
          -- intros [|j] Hj; simpl in *; [exact P1|]. apply P2. lia.
        * congruence.
        * intros [|j] Hj Hn; simpl in *.
          -- rewrite (H3 Hn). now rewrite Hx.
          -- apply (H4 j); [lia|auto].
      + destruct (IH f bi (S i)) as (H1 & H2 & H3 & H4); [lia|auto|].
        set (k' := argmin_from bi (f bi) (S i) l) in *.
        split; [|split; [|split]].
        * simpl. lia.
        * intros Hb' Hall. inversion Hall as [|? ? H0 H0']; subst. destruct H2 as [P1 P2]; auto.
          rewrite Hb' in C. simpl in C. rewrite H0 in C. simpl in C.
          split; auto. intros [|j] Hj; simpl in *; [|apply P2; lia].
          apply (le_trans _ (f bi)); auto. now apply not_lt_le.
        * auto.
        * intros [|j] Hj Hn; simpl in *; [|apply (H4 j); [lia|auto]].
          rewrite Hn in C. simpl in C. rewrite andb_true_r in C. apply negb_false_iff in C. now rewrite (H3 C).
  Qed.

  Lemma argmin_lt l : l <> [] -> (argmin l < length l)%nat.
  Proof.
    destruct l as [|x l]; [congruence|]. intros _. simpl.
    destruct (argmin_from_spec l (fun j => nth j (x :: l) nnan) 0 1) as (H1 & _); [lia|reflexivity|].
    simpl in H1. lia.
  Qed.
  Lemma argmin_le l : Forall (fun x => nisnan x = false) l ->
    forall j, (j < length l)%nat -> nth (argmin l) l nnan <=? nth j l nnan = true.
  Proof.
    destruct l as [|x l]; simpl; [lia|]. intros H. inversion H; subst.
    destruct (argmin_from_spec l (fun j => nth j (x :: l) nnan) 0 1) as (_ & H1 & _); [lia|reflexivity|].
    destruct H1 as [P1 P2]; auto. intros [|j] Hj; [exact P1|]. apply P2. lia.
  Qed.
  Lemma argmin_nan l j : (j < length l)%nat -> nisnan (nth j l nnan) = true ->
    nisnan (nth (argmin l) l nnan) = true.
  Proof.
    destruct l as [|x l]; simpl; [lia|]. intros Hj Hn.
    destruct (argmin_from_spec l (fun j => nth j (x :: l) nnan) 0 1) as (_ & _ & H3 & H4); [lia|reflexivity|].
    destruct j as [|j].
    - simpl in H3. rewrite (H3 Hn). exact Hn.
    - apply (H4 j); [lia|auto].
  Qed.

  (** np.min *)
  Lemma npmin_fold_spec : forall l x, nisnan x = false -> Forall (fun y => nisnan y = false) l ->
    let m := fold_left npmin2 l x in
    nisnan m = false /\ m <=? x = true /\ (forall y, In y l -> m <=? y = true) /\ (m = x \/ In m l).
  Proof.
    induction l as [|y l IH]; intros x Hx Hl; cbn [fold_left].
    - split; [auto|]. split; [now apply le_refl|]. split; [intros y []|now left].
    - inversion Hl; subst. assert (E : npmin2 x y = if y <? x then y else x).
      { unfold npmin2. now rewrite Hx, H1. }
      rewrite E. destruct (y <? x) eqn:C.
      + destruct (IH y H1 H2) as (P1 & P2 & P3 & P4). split; [auto|]. split.
        * apply (le_trans _ y); auto. now apply lt_le.
        * split; [intros z [<-|Hz]; auto|]. destruct P4 as [P4|P4]; right; [left|right]; auto.
      + destruct (IH x Hx H2) as (P1 & P2 & P3 & P4). split; [auto|]. split; [auto|]. split.
        * intros z [<-|Hz]; auto. apply (le_trans _ x); auto. now apply not_lt_le.
        * destruct P4; [left|right; right]; auto.
  Qed.
  Lemma npmin_spec l : l <> [] -> Forall (fun y => nisnan y = false) l ->
    (forall y, In y l -> npmin l <=? y = true) /\ In (npmin l) l.
  Proof.
    destruct l as [|x l]; [congruence|]. intros _ H. inversion H; subst. simpl.
    destruct (npmin_fold_spec l x H2 H3) as (P1 & P2 & P3 & P4). split.
    - intros y [<-|Hy]; auto.
    - destruct P4; auto.
  Qed.
End Argmin.
