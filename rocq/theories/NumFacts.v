(** Facts about comparisons and signs valid in every IEEE-like number system
    (class [NumLaws] of ER.v), hence in binary64 and in exact arithmetic. *)
From Coq Require Import ZArith List Bool Reals Lra Lia Psatz.
From Verif Require Import Num Constants ER.
Import ListNotations.
Local Open Scope R_scope.

(** *** order on ER *)
Lemma er_lt_irrefl a : er_ltb a a = false.
Proof. destruct a; er_cases. Qed.
Lemma er_lt_trans a b c : er_ltb a b = true -> er_ltb b c = true -> er_ltb a c = true.
Proof. destruct a, b, c; er_cases. Qed.
Lemma er_le_trans a b c : er_leb a b = true -> er_leb b c = true -> er_leb a c = true.
Proof. destruct a, b, c; er_cases. Qed.
Lemma er_lt_le_trans a b c : er_ltb a b = true -> er_leb b c = true -> er_ltb a c = true.
Proof. destruct a, b, c; er_cases. Qed.
Lemma er_le_lt_trans a b c : er_leb a b = true -> er_ltb b c = true -> er_ltb a c = true.
Proof. destruct a, b, c; er_cases. Qed.
Lemma er_le_not_lt a b : er_leb a b = true -> er_ltb b a = false.
Proof. destruct a, b; er_cases. Qed.
Lemma er_not_lt_le a b : er_isnan a = false -> er_isnan b = false ->
  er_ltb a b = false -> er_leb b a = true.
Proof. destruct a, b; er_cases. Qed.
Lemma er_le_refl a : er_isnan a = false -> er_leb a a = true.
Proof. destruct a; er_cases. Qed.
Lemma er_le_nan a b : er_leb a b = true -> er_isnan a = false /\ er_isnan b = false.
Proof. destruct a, b; simpl; try discriminate; auto. Qed.
Lemma er_lt_nan a b : er_ltb a b = true -> er_isnan a = false /\ er_isnan b = false.
Proof. destruct a, b; simpl; try discriminate; auto. Qed.
Lemma er_fin_nan a : er_isfin a = true -> er_isnan a = false.
Proof. destruct a; simpl; auto. Qed.

Section Facts.
  Context {T : Type} {N : Num T} {L : NumLaws T}.
  Local Open Scope num_scope.

  Lemma lt_irrefl x : x <? x = false.
  Proof. rewrite emb_ltb. apply er_lt_irrefl. Qed.
  Lemma lt_trans x y z : x <? y = true -> y <? z = true -> x <? z = true.
  Proof. rewrite !emb_ltb. apply er_lt_trans. Qed.
  Lemma le_trans x y z : x <=? y = true -> y <=? z = true -> x <=? z = true.
  Proof. rewrite !emb_leb. apply er_le_trans. Qed.
  Lemma lt_le_trans x y z : x <? y = true -> y <=? z = true -> x <? z = true.
  Proof. rewrite !emb_ltb, !emb_leb. apply er_lt_le_trans. Qed.
  Lemma le_lt_trans x y z : x <=? y = true -> y <? z = true -> x <? z = true.
  Proof. rewrite !emb_ltb, !emb_leb. apply er_le_lt_trans. Qed.
  Lemma lt_le x y : x <? y = true -> x <=? y = true.
  Proof. rewrite emb_ltb, emb_leb. apply er_ltb_leb. Qed.
  Lemma le_not_lt x y : x <=? y = true -> y <? x = false.
  Proof. rewrite emb_ltb, emb_leb. apply er_le_not_lt. Qed.
  Lemma lt_not_le x y : x <? y = true -> y <=? x = false.
  Proof. intros H. destruct (y <=? x) eqn:E; auto. apply le_not_lt in E. congruence. Qed.
  Lemma lt_asym x y : x <? y = true -> y <? x = false.
  Proof. intros H. apply le_not_lt, lt_le, H. Qed.
  Lemma not_lt_le x y : nisnan x = false -> nisnan y = false -> x <? y = false -> y <=? x = true.
  Proof. rewrite !emb_isnan, emb_ltb, emb_leb. apply er_not_lt_le. Qed.
  Lemma le_refl x : nisnan x = false -> x <=? x = true.
  Proof. rewrite emb_isnan, emb_leb. apply er_le_refl. Qed.
  Lemma le_nan x y : x <=? y = true -> nisnan x = false /\ nisnan y = false.
  Proof. rewrite emb_leb, !emb_isnan. apply er_le_nan. Qed.
  Lemma lt_nan x y : x <? y = true -> nisnan x = false /\ nisnan y = false.
  Proof. rewrite emb_ltb, !emb_isnan. apply er_lt_nan. Qed.
  Lemma nan_lt_l x y : nisnan x = true -> x <? y = false.
  Proof. intros H. destruct (x <? y) eqn:E; auto. apply lt_nan in E. intuition congruence. Qed.
  Lemma nan_lt_r x y : nisnan y = true -> x <? y = false.
  Proof. intros H. destruct (x <? y) eqn:E; auto. apply lt_nan in E. intuition congruence. Qed.
  Lemma nan_le_l x y : nisnan x = true -> x <=? y = false.
  Proof. intros H. destruct (x <=? y) eqn:E; auto. apply le_nan in E. intuition congruence. Qed.
  Lemma nan_le_r x y : nisnan y = true -> x <=? y = false.
  Proof. intros H. destruct (x <=? y) eqn:E; auto. apply le_nan in E. intuition congruence. Qed.
  Lemma fin_nan x : nisfin x = true -> nisnan x = false.
  Proof. rewrite emb_isfin, emb_isnan. apply er_fin_nan. Qed.
  Lemma inf_notfin : nisfin (ninf : T) = false.
  Proof. rewrite emb_isfin, emb_inf. reflexivity. Qed.
  Lemma inf_notnan : nisnan (ninf : T) = false.
  Proof. rewrite emb_isnan, emb_inf. reflexivity. Qed.
  Lemma nan_isnan : nisnan (nnan : T) = true.
  Proof. rewrite emb_isnan, emb_nan. reflexivity. Qed.
  Lemma fin_lt_inf x : nisfin x = true -> x <? ninf = true.
  Proof. rewrite emb_isfin, emb_ltb, emb_inf. destruct (emb x); simpl; auto; discriminate. Qed.
  Lemma lt_inf_false x : ninf <? x = false.
  Proof. rewrite emb_ltb, emb_inf. destruct (emb x); reflexivity. Qed.
  Lemma not_lt_trans v m f : v <? m = false -> f <? m = true -> v <? f = false.
  Proof.
    intros H1 H2. destruct (v <? f) eqn:E; auto.
    rewrite (lt_trans v f m E H2) in H1. discriminate.
  Qed.

  Lemma emb_0 : emb (n0 : T) = Fin 0.
  Proof. apply emb_ofZ. simpl. lia. Qed.
  Lemma emb_1 : emb (n1 : T) = Fin 1.
  Proof. apply emb_ofZ. simpl. lia. Qed.
  Lemma emb_2 : emb (n2 : T) = Fin 2.
  Proof. apply emb_ofZ. simpl. lia. Qed.

  Lemma rnd_0 : rnd (T := T) (Fin 0) = Fin 0.
  Proof. rewrite <- emb_0. apply rnd_emb. Qed.
  Lemma rnd_nonneg a : er_leb (Fin 0) a = true -> er_leb (Fin 0) (rnd (T := T) a) = true.
  Proof. intros H. rewrite <- rnd_0. now apply rnd_mono. Qed.
  Lemma rnd_nonpos a : er_leb a (Fin 0) = true -> er_leb (rnd (T := T) a) (Fin 0) = true.
  Proof. intros H. rewrite <- rnd_0 at 1. now apply rnd_mono. Qed.
  Lemma rnd_isnan a : er_isnan (rnd (T := T) a) = er_isnan a.
  Proof.
    destruct a; simpl; rewrite ?rnd_pinf, ?rnd_ninf, ?rnd_nan; auto.
    destruct (rnd (Fin r)) eqn:E; auto. now apply rnd_notnan in E.
  Qed.
  Lemma rnd_pos_inv a : er_ltb (Fin 0) (rnd (T := T) a) = true -> er_ltb (Fin 0) a = true.
  Proof.
    intros H. destruct (er_ltb (Fin 0) a) eqn:E; auto.
    assert (Hn : er_isnan a = false) by (rewrite <- rnd_isnan; now apply er_lt_nan in H).
    apply er_not_lt_le in E; auto. apply rnd_nonpos in E. apply er_le_not_lt in E. congruence.
  Qed.

  (** "not negative": NaN or >= 0 *)
  Definition nn (x : T) : Prop := (x <? n0) = false.

  Lemma nn_emb x : nn x <-> (er_isnan (emb x) = true \/ er_leb (Fin 0) (emb x) = true).
  Proof.
    unfold nn. rewrite emb_ltb, emb_0. destruct (emb x); simpl; intuition; er_cases.
  Qed.
  Lemma nn_0 : nn n0.
  Proof. apply lt_irrefl. Qed.
  Lemma nn_abs x : nn (nabs x).
  Proof.
    apply nn_emb. rewrite emb_abs. destruct (emb x); simpl; auto. right.
    er_bool; auto. pose proof (Rabs_pos r). lra.
  Qed.
  Lemma nn_add x y : nn x -> nn y -> nn (x + y).
  Proof.
    rewrite !nn_emb, emb_add, rnd_isnan. intros Hx Hy.
    destruct (er_isnan (er_add (emb x) (emb y))) eqn:E; auto. right. apply rnd_nonneg.
    destruct (emb x), (emb y); simpl in *; intuition; try discriminate; er_cases.
  Qed.
  Lemma er_mul_nonneg a b : (er_isnan a = true \/ er_leb (Fin 0) a = true) ->
    (er_isnan b = true \/ er_leb (Fin 0) b = true) ->
    er_isnan (er_mul a b) = true \/ er_leb (Fin 0) (er_mul a b) = true.
  Proof.
    destruct a, b; simpl; intuition; try discriminate; unfold er_infmul; er_cases; right; er_cases; nra.
  Qed.
  Lemma nn_mul x y : nn x -> nn y -> nn (x * y).
  Proof.
    rewrite !nn_emb, emb_mul, rnd_isnan. intros Hx Hy.
    destruct (er_mul_nonneg _ _ Hx Hy); auto. right. now apply rnd_nonneg.
  Qed.
  Lemma nn_sqmul d x : nn d -> nn (x * (d * x)).
  Proof.
    rewrite !nn_emb, !emb_mul, rnd_isnan. intros Hd.
    set (p := er_mul (emb d) (emb x)).
    assert (Hp : er_isnan p = true
                 \/ (er_leb (Fin 0) p = true /\ er_leb (Fin 0) (emb x) = true)
                 \/ (er_leb p (Fin 0) = true /\ er_leb (emb x) (Fin 0) = true)).
    { unfold p. destruct (emb d), (emb x); simpl in *; unfold er_infmul; intuition; try discriminate; er_cases.
      all: try (left; reflexivity).
      all: try (right; left; split; er_cases; nra).
      all: try (right; right; split; er_cases; nra).
      all: destruct (Rle_dec 0 r0); [right; left|right; right]; split; er_cases; nra. }
    destruct Hp as [H|[[H1 H2]|[H1 H2]]].
    - left. destruct p; try discriminate. rewrite rnd_nan. destruct (emb x); reflexivity.
    - apply rnd_nonneg in H1.
      destruct (er_mul_nonneg (emb x) (rnd p)); auto. right. now apply rnd_nonneg.
    - apply rnd_nonpos in H1.
      assert (er_isnan (er_mul (emb x) (rnd p)) = true \/ er_leb (Fin 0) (er_mul (emb x) (rnd p)) = true) as [|].
      { destruct (emb x), (rnd p); simpl in *; unfold er_infmul; try discriminate; er_cases; auto; right; er_cases; nra. }
      + auto.
      + right. now apply rnd_nonneg.
  Qed.
  Lemma nn_div x y : nn x -> n0 <? y = true -> nn (x / y).
  Proof.
    rewrite !nn_emb, emb_ltb, emb_0. intros Hx Hy.
    rewrite emb_div by (intros E; rewrite E in Hy; simpl in Hy; er_cases).
    rewrite rnd_isnan.
    destruct (er_isnan (er_div (emb x) (emb y))) eqn:E; auto. right. apply rnd_nonneg.
    destruct (emb x), (emb y); simpl in *; try discriminate; er_cases; intuition; try discriminate; er_cases.
    assert (0 < / r0) by now apply Rinv_0_lt_compat. unfold Rdiv in *. nra.
  Qed.

  Lemma nn_1 : nn n1.
  Proof. apply nn_emb. right. rewrite emb_1. er_cases. Qed.
  Lemma pos_2 : n0 <? (n2 : T) = true.
  Proof. rewrite emb_ltb, emb_0, emb_2. er_cases. Qed.
  Lemma nn_half : nn nhalf.
  Proof. apply nn_div. apply nn_1. apply pos_2. Qed.

  Lemma nn_vsum l : Forall nn l -> nn (vsum l).
  Proof. induction 1; simpl. apply nn_0. now apply nn_add. Qed.

  (** a quotient is positive only if the numerator is, for a positive denominator *)
  Lemma div_pos a b : n0 <? (a / b) = true -> (b <=? n0) = false -> n0 <? a = true.
  Proof.
    rewrite !emb_ltb, emb_leb, emb_0. intros H Hb.
    destruct (emb b) as [r| | |] eqn:Eb; simpl in Hb; try discriminate; er_bool.
    - rewrite emb_div in H by (rewrite Eb; intros E; injection E; lra).
      apply rnd_pos_inv in H. rewrite Eb in H. destruct (emb a) as [x| | |]; simpl in *.
      + destruct (Reqb_spec r 0) as [E0|E0]; [lra|]. simpl in H. er_bool; auto.
        assert (0 < / r) by (apply Rinv_0_lt_compat; lra).
        exfalso. unfold Rdiv in *. nra.
      + auto.
      + destruct (Rltb_spec r 0); [lra|discriminate].
      + discriminate.
    - rewrite emb_div in H by (rewrite Eb; discriminate).
      apply rnd_pos_inv in H. rewrite Eb in H. destruct (emb a); simpl in *; er_cases.
    - rewrite emb_div in H by (rewrite Eb; discriminate).
      apply rnd_pos_inv in H. rewrite Eb in H. destruct (emb a); simpl in *; er_cases.
  Qed.
  Lemma sub_pos a c : n0 <? (a - c) = true -> nn c -> n0 <? a = true.
  Proof.
    rewrite nn_emb, !emb_ltb, emb_0, emb_sub. intros H Hc. apply rnd_pos_inv in H.
    destruct (emb a), (emb c); simpl in *; intuition; er_cases.
  Qed.
  Lemma sub_pos_lt a b : n0 <? (a - b) = true -> b <? a = true.
  Proof.
    rewrite !emb_ltb, emb_0, emb_sub. intros H. apply rnd_pos_inv in H.
    destruct (emb a), (emb b); simpl in *; er_cases.
  Qed.

  (** the machine's in-bounds tests *)
  Lemma sub_nonpos_le a b : (a - b) <=? n0 = true -> a <=? b = true.
  Proof.
    rewrite !emb_leb, emb_0, emb_sub. intros H.
    destruct (er_sub (emb a) (emb b)) eqn:E.
    - destruct (Rle_dec r 0) as [Hr|Hr].
      + destruct (emb a), (emb b); simpl in *; try discriminate. injection E as <-. er_cases.
      + exfalso. assert (H1 : er_leb (Fin 0) (Fin r) = true) by er_cases.
        apply rnd_nonneg in H1. destruct (rnd (Fin r)) eqn:E2; simpl in *; try discriminate.
        er_bool. assert (r0 = 0%R) by lra. subst.
        apply (rnd_sub0 a b r E) in E2. lra.
    - rewrite rnd_pinf in H. discriminate.
    - destruct (emb a), (emb b); simpl in *; try discriminate; auto.
    - rewrite rnd_nan in H. discriminate.
  Qed.
  Lemma negsub_nonpos_le a b : ((- n1) * (a - b)) <=? n0 = true -> b <=? a = true.
  Proof.
    rewrite !emb_leb, emb_0, emb_mul, emb_opp, emb_1. intros H.
    assert (Hd : er_leb (Fin 0) (emb (a - b)) = true).
    { destruct (emb (a - b)) eqn:E; simpl in *.
      - destruct (Rle_dec 0 r); [er_cases|exfalso].
        assert (E2 : Fin (- (1) * r) = emb (nopp (a - b))) by (rewrite emb_opp, E; simpl; f_equal; ring).
        rewrite E2, rnd_emb, emb_opp, E in H. simpl in H. er_cases.
      - auto.
      - unfold er_infmul in H. destruct (Rltb_spec 0 (- (1))); [lra|].
        destruct (Rltb_spec (- (1)) 0); [|lra]. rewrite rnd_pinf in H. discriminate.
      - rewrite rnd_nan in H. discriminate. }
    rewrite emb_sub in Hd. destruct (er_sub (emb a) (emb b)) eqn:E.
    - destruct (Rle_dec 0 r) as [Hr|Hr].
      + destruct (emb a), (emb b); simpl in *; try discriminate. injection E as <-. er_cases.
      + exfalso. assert (H1 : er_leb (Fin r) (Fin 0) = true) by er_cases.
        apply rnd_nonpos in H1. destruct (rnd (Fin r)) eqn:E2; simpl in *; try discriminate.
        er_bool. assert (r0 = 0%R) by lra. subst.
        apply (rnd_sub0 a b r E) in E2. lra.
    - destruct (emb a), (emb b); simpl in *; try discriminate; auto.
    - rewrite rnd_ninf in Hd. discriminate.
    - rewrite rnd_nan in Hd. discriminate.
  Qed.
  Lemma le_sub_nonpos a b : a <=? b = true -> nisfin a = true \/ nisfin b = true ->
    (a - b) <=? n0 = true.
  Proof.
    rewrite !emb_leb, emb_0, emb_sub, !emb_isfin. intros H Hf. apply rnd_nonpos.
    destruct (emb a), (emb b); simpl in *; intuition; er_cases.
  Qed.
  Lemma le_negsub_nonpos a b : b <=? a = true -> nisfin a = true \/ nisfin b = true ->
    ((- n1) * (a - b)) <=? n0 = true.
  Proof.
    rewrite !emb_leb, emb_0, emb_mul, emb_opp, emb_1, emb_sub, !emb_isfin. intros H Hf.
    apply rnd_nonpos.
    assert (H1 : er_leb (Fin 0) (rnd (er_sub (emb a) (emb b))) = true).
    { apply rnd_nonneg. destruct (emb a), (emb b); simpl in *; intuition; er_cases. }
    destruct (rnd (er_sub (emb a) (emb b))); simpl in *; unfold er_infmul; er_cases.
  Qed.
End Facts.
