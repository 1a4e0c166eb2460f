(** C12: the step-back in double precision.
    In exact arithmetic every trial point is in the box (C11).  In binary64 the step-back has to leave
    room for rounding: this holds for the plain step if theta <= 1 - 2^-50 and no breakpoint underflows,
    and fails for theta = 1, which the optimizer does use. *)
From Coq Require Import ZArith String List Bool Reals Lra Lia Psatz.
From Flocq Require Import Core Plus_error Relative BinarySingleNaN.
From Verif Require Import Num Constants Subproblem HessApprox Steps TrustRegion Minimize
  ER F64 NumFacts Argmin Cand StepFacts Spec Run Witness.
Import ListNotations.
Local Open Scope list_scope.
Local Open Scope R_scope.

(** unit roundoff, smallest normal number *)
Definition uro : R := bpow radix2 (-53).
Definition tiny : R := bpow radix2 (-1022).
Notation fmt := (generic_format radix2 fexp64).

Lemma uro_val : uro = / 9007199254740992.
Proof. reflexivity. Qed.
Lemma uro_pos : 0 < uro. Proof. apply bpow_gt_0. Qed.
Lemma tiny_pos : 0 < tiny. Proof. apply bpow_gt_0. Qed.
Lemma uro_small : uro <= / 1000.
Proof. rewrite uro_val. lra. Qed.

Lemma rne_err v : exists eps eta, Rabs eps <= uro /\ Rabs eta <= uro * tiny /\
  (eps = 0 \/ eta = 0) /\ rne v = v * (1 + eps) + eta.
Proof.
  destruct (error_N_FLT radix2 (3 - emax64 - prec64) prec64 eq_refl (fun z => negb (Z.even z)) v)
    as (eps & eta & H1 & H2 & H3 & H4).
  exists eps, eta. repeat split.
  - replace uro with (/ 2 * bpow radix2 (- prec64 + 1)); [exact H1|].
    unfold uro, prec64. change (-53)%Z with (-1 + (- (53) + 1))%Z.
    rewrite (bpow_plus radix2 (-1) (- (53) + 1)). reflexivity.
  - replace (uro * tiny) with (/ 2 * bpow radix2 (3 - emax64 - prec64)); [exact H2|].
    unfold uro, tiny, prec64, emax64. rewrite <- bpow_plus.
    change (-53 + -1022)%Z with (-1 + (3 - 1024 - 53))%Z.
    rewrite (bpow_plus radix2 (-1) (3 - 1024 - 53)). reflexivity.
  - apply Rmult_integral in H3. exact H3.
  - exact H4.
Qed.

Lemma fmt_sub_small a b : fmt a -> fmt b -> Rabs (a - b) <= tiny -> rne (a - b) = a - b.
Proof.
  intros Ha Hb H. apply round_generic; auto with typeclass_instances.
  unfold Rminus. change fexp64 with (FLT_exp (3 - emax64 - prec64) prec64).
  apply FLT_format_plus_small; auto with typeclass_instances.
  - apply generic_format_opp. exact Hb.
  - apply Rle_trans with (1 := H). apply bpow_le. unfold prec64, emax64. lia.
Qed.

Lemma sub_up a b : fmt a -> fmt b -> 0 <= a - b -> rne (a - b) <= (a - b) * (1 + uro).
Proof.
  intros Ha Hb H. pose proof uro_pos as U0. destruct (Rle_dec (Rabs (a - b)) tiny) as [Hs|Hs].
  - rewrite fmt_sub_small by auto. nra.
  - rewrite Rabs_pos_eq in Hs by auto.
    destruct (rne_err (a - b)) as (eps & eta & H1 & H2 & H3 & ->).
    apply Rabs_le_inv in H1, H2. destruct H3 as [-> | ->]; nra.
Qed.
Lemma quot_up v q : 0 <= v -> q = rne v -> tiny <= q -> q <= v * (1 + 2 * uro).
Proof.
  intros Hv Hq Ht. pose proof uro_pos as U0. pose proof uro_small as U1. pose proof tiny_pos as U2.
  destruct (rne_err v) as (eps & eta & H1 & H2 & H3 & E). rewrite <- Hq in E.
  apply Rabs_le_inv in H1, H2. destruct H3 as [-> | ->]; [|nra].
  assert (q * (1 - uro) <= v) by nra. nra.
Qed.
Lemma prod_up th q : 0 <= th <= 1 -> tiny <= q -> rne (th * q) <= q * (th + uro).
Proof.
  intros Hth Hq. pose proof uro_pos as U0. pose proof tiny_pos as U2.
  destruct (rne_err (th * q)) as (eps & eta & H1 & H2 & H3 & ->).
  apply Rabs_le_inv in H1, H2. destruct H3 as [-> | ->]; [nra|].
  assert (th * q * eps <= q * uro); [|nra].
  apply Rle_trans with (th * q * uro); [|]. 
  - apply Rmult_le_compat_l; nra.
  - assert (0 <= q * uro) by nra. nra.
Qed.
Lemma last_up p d : 0 <= p -> 0 <= d -> p <= d * (1 - 3 * uro) -> (rne d = d \/ tiny <= d) -> rne p <= d.
Proof.
  intros Hp Hd H Hs. pose proof uro_pos as U0. pose proof uro_small as U1. pose proof tiny_pos as U2.
  destruct Hs as [Hs|Hs].
  - rewrite <- Hs. apply rne_le. nra.
  - destruct (rne_err p) as (eps & eta & H1 & H2 & H3 & ->).
    apply Rabs_le_inv in H1, H2. destruct H3 as [-> | ->]; [nra|].
    assert (p * eps <= p * uro) by nra. nra.
Qed.

(** the step-back leaves the distance to the bound *)
Lemma stepback_room a b s th q al :
  fmt a -> fmt b -> fmt s -> 0 <= a - b -> 0 < s -> 0 <= al <= 1 -> 0 <= th <= 1 - 8 * uro ->
  (s <= a - b \/ (q = rne (rne (a - b) / s) /\ (q = 0 \/ tiny <= q) /\ al <= rne (th * q))) ->
  rne (s * al) <= a - b.
Proof.
  intros Ha Hb Hs Hd Hsp Hal Hth H. pose proof uro_pos as U0. pose proof uro_small as U1.
  destruct H as [H|(Hq & Hn & Hle)].
  { apply Rle_trans with (2 := H). apply Rle_trans with (rne s).
    - apply rne_le. nra.
    - right. apply round_generic; auto with typeclass_instances. }
  destruct Hn as [Hn|Hn].
  { rewrite Hn, Rmult_0_r, rne_0 in Hle. replace al with 0 by lra.
    rewrite Rmult_0_r, rne_0. exact Hd. }
  assert (Hdh : 0 <= rne (a - b)) by (rewrite <- rne_0; apply rne_le; lra).
  assert (Hv : 0 <= rne (a - b) / s) by (apply Rmult_le_pos; [lra|apply Rlt_le, Rinv_0_lt_compat; lra]).
  pose proof (sub_up a b Ha Hb Hd) as H1.
  pose proof (quot_up _ q Hv Hq Hn) as H2.
  assert (Hth1 : 0 <= th <= 1) by lra.
  pose proof (prod_up th q Hth1 Hn) as H3.
  assert (Hqs : s * q <= rne (a - b) * (1 + 2 * uro)).
  { apply Rle_trans with (s * (rne (a - b) / s * (1 + 2 * uro))).
    - apply Rmult_le_compat_l; lra.
    - right. field. lra. }
  apply last_up; auto.
  - nra.
  - apply Rle_trans with (s * q * (th + uro)); [nra|].
    apply Rle_trans with (rne (a - b) * (1 + 2 * uro) * (th + uro)); [apply Rmult_le_compat_r; lra|].
    apply Rle_trans with (rne (a - b) * ((1 + 2 * uro) * (1 - 7 * uro))).
    { rewrite Rmult_assoc. apply Rmult_le_compat_l; [lra|]. apply Rmult_le_compat_l; lra. }
    apply Rle_trans with ((a - b) * (1 + uro) * ((1 + 2 * uro) * (1 - 7 * uro))).
    { apply Rmult_le_compat_r; [nra|exact H1]. }
    rewrite Rmult_assoc. apply Rmult_le_compat_l; [lra|].
    assert ((1 + uro) * ((1 + 2 * uro) * (1 - 7 * uro)) = 1 - 4 * uro - 19 * uro * uro - 14 * uro * uro * uro) as -> by ring.
    assert (0 <= uro * uro) by nra. assert (0 <= uro * uro * uro) by nra. lra.
  - destruct (Rle_dec (Rabs (a - b)) tiny) as [Ht|Ht]; [left; apply fmt_sub_small; auto|right].
    rewrite Rabs_pos_eq in Ht by auto. lra.
Qed.

(** *** overflow and signs *)
Lemma f_rnd_opp r : f_rnd (Fin (- r)) = er_opp (f_rnd (Fin r)).
Proof.
  unfold f_rnd. rewrite rne_opp, Rabs_Ropp.
  destruct (Rlt_bool (Rabs (rne r)) (bpow radix2 emax64)) eqn:Eb; [reflexivity|].
  apply big_nz in Eb. destruct (Rltb_spec (- r) 0), (Rltb_spec r 0); try reflexivity; lra.
Qed.
Lemma f_rnd_small r y : fmt y -> Rabs r <= y -> y < bpow radix2 emax64 -> f_rnd (Fin r) = Fin (rne r).
Proof.
  intros Hf Hr Hy. unfold f_rnd. rewrite Rlt_bool_true; [reflexivity|].
  apply Rle_lt_trans with (2 := Hy). apply Rabs_le.
  assert (Hry : rne y = y) by (apply round_generic; auto with typeclass_instances).
  apply Rabs_le_inv in Hr. split.
  - rewrite <- Hry, <- rne_opp. apply rne_le. lra.
  - rewrite <- Hry. apply rne_le. lra.
Qed.
Lemma f_rnd_cases r : 0 <= r ->
  (f_rnd (Fin r) = Fin (rne r)) \/ (f_rnd (Fin r) = PInf /\ forall y, fmt y -> y < bpow radix2 emax64 -> y < r).
Proof.
  intros Hr. unfold f_rnd. destruct (Rlt_bool_spec (Rabs (rne r)) (bpow radix2 emax64)) as [H|H].
  - now left.
  - right. split; [destruct (Rltb_spec r 0); [lra|reflexivity]|].
    intros y Hf Hy. destruct (Rlt_dec y r) as [|Hc]; [assumption|exfalso].
    assert (Hry : rne y = y) by (apply round_generic; auto with typeclass_instances).
    assert (rne r <= y) by (rewrite <- Hry; apply rne_le; lra).
    assert (0 <= rne r) by (rewrite <- rne_0; apply rne_le; lra).
    rewrite Rabs_pos_eq in H by auto. lra.
Qed.

Definition usable (q : ER) : Prop := q = Fin 0 \/ (exists r, q = Fin r /\ tiny <= r) \/ q = PInf.

Lemma room_pos B X S th al :
  fmt B -> fmt X -> fmt S -> S < bpow radix2 emax64 -> X <= B -> 0 < S ->
  0 <= al <= 1 -> 0 < th <= 1 - 8 * uro ->
  usable (f_rnd (er_div (f_rnd (Fin (B - X))) (Fin S))) ->
  er_leb (Fin al) (f_rnd (er_mul (Fin th) (f_rnd (er_div (f_rnd (Fin (B - X))) (Fin S))))) = true ->
  rne (S * al) <= B - X.
Proof.
  intros HB HX HS Hmax Hle Hp Hal Hth Hu Hq. pose proof uro_pos as U0. pose proof uro_small as U1.
  assert (Hd : 0 <= B - X) by lra.
  destruct (f_rnd_cases (B - X) Hd) as [E1|[E1 Hbig]].
  2:{ apply (stepback_room B X S th 0 al); auto; [lra|]. left. left. apply Hbig; auto. }
  rewrite E1 in Hu, Hq. cbn [er_div] in Hu, Hq.
  destruct (Reqb_spec S 0) as [|_] in Hu; [lra|]. destruct (Reqb_spec S 0) as [|_] in Hq; [lra|].
  assert (Hdh : 0 <= rne (B - X)) by (rewrite <- rne_0; apply rne_le; lra).
  assert (Hv : 0 <= rne (B - X) / S) by (apply Rmult_le_pos; [lra|apply Rlt_le, Rinv_0_lt_compat; lra]).
  destruct (f_rnd_cases _ Hv) as [E2|[E2 Hbig]].
  - rewrite E2 in Hu, Hq.
    apply (stepback_room B X S th (rne (rne (B - X) / S)) al); auto; [lra|]. right. split; [reflexivity|].
    assert (Hq0 : 0 <= rne (rne (B - X) / S)) by (rewrite <- rne_0; apply rne_le; lra).
    split.
    + destruct Hu as [Hu|[(r & Hu & Ht)|Hu]]; [left; congruence|right; congruence|discriminate].
    + cbn [er_mul] in Hq.
      assert (E3 : f_rnd (Fin (th * rne (rne (B - X) / S))) = Fin (rne (th * rne (rne (B - X) / S)))).
      { apply f_rnd_small with (y := rne (rne (B - X) / S)).
        - apply generic_format_round; auto with typeclass_instances.
        - rewrite Rabs_pos_eq; nra.
        - unfold f_rnd in E2. destruct (Rlt_bool_spec (Rabs (rne (rne (B - X) / S))) (bpow radix2 emax64)) as [H|H].
          + rewrite Rabs_pos_eq in H by auto. exact H.
          + destruct (Rltb (rne (B - X) / S) 0); discriminate. }
      rewrite E3 in Hq. cbn [er_leb] in Hq. destruct (Rleb_spec al (rne (th * rne (rne (B - X) / S)))); [assumption|discriminate].
  - apply (stepback_room B X S th 0 al); auto; [lra|]. left.
    assert (H2 : 2 < rne (B - X) / S).
    { apply Hbig; [apply (IZR_format 2); lia|]. change 2 with (bpow radix2 1). apply bpow_lt. reflexivity. }
    assert (2 * S <= rne (B - X)).
    { apply Rmult_le_reg_r with (/ S); [now apply Rinv_0_lt_compat|]. rewrite Rmult_assoc, Rinv_r by lra. lra. }
    pose proof (sub_up B X HB HX Hd). nra.
Qed.

Lemma room_neg B X S th al :
  fmt B -> fmt X -> fmt S -> - S < bpow radix2 emax64 -> B <= X -> S < 0 ->
  0 <= al <= 1 -> 0 < th <= 1 - 8 * uro ->
  usable (f_rnd (er_div (f_rnd (Fin (B - X))) (Fin S))) ->
  er_leb (Fin al) (f_rnd (er_mul (Fin th) (f_rnd (er_div (f_rnd (Fin (B - X))) (Fin S))))) = true ->
  B - X <= rne (S * al).
Proof.
  intros HB HX HS Hmax Hle Hp Hal Hth Hu Hq.
  assert (E : er_div (f_rnd (Fin (B - X))) (Fin S) = er_div (f_rnd (Fin (- B - - X))) (Fin (- S))).
  { replace (- B - - X) with (- (B - X)) by ring. rewrite f_rnd_opp.
    destruct (f_rnd (Fin (B - X))); cbn [er_opp er_div].
    - destruct (Reqb_spec S 0), (Reqb_spec (- S) 0); try lra. f_equal. field. lra.
    - destruct (Rltb_spec S 0), (Rltb_spec (- S) 0); try lra. reflexivity.
    - destruct (Rltb_spec S 0), (Rltb_spec (- S) 0); try lra. reflexivity.
    - reflexivity. }
  rewrite E in Hu, Hq.
  assert (H : rne (- S * al) <= - B - - X).
  { apply (room_pos (- B) (- X) (- S) th al); auto using generic_format_opp; lra. }
  replace (- S * al) with (- (S * al)) in H by ring. rewrite rne_opp in H. lra.
Qed.

(** *** one coordinate *)
Local Open Scope num_scope.
Lemma emb_fin (x : F64) : is_finite x = true -> emb x = Fin (B2R x).
Proof. apply f_emb_fin. Qed.
Lemma fmt_B2R (x : F64) : fmt (B2R x).
Proof. apply generic_format_B2R. Qed.

(** sign of (b - x) / s *)
Lemma quot_sign (x s b : F64) : is_finite x = true -> is_finite s = true -> B2R s <> 0%R ->
  (nleb x b = true -> ((0 < B2R s)%R -> er_leb (Fin 0) (emb ((b - x) / s)) = true)
                 /\ ((B2R s < 0)%R -> er_leb (emb ((b - x) / s)) (Fin 0) = true)) /\
  (nleb b x = true -> ((0 < B2R s)%R -> er_leb (emb ((b - x) / s)) (Fin 0) = true)
                 /\ ((B2R s < 0)%R -> er_leb (Fin 0) (emb ((b - x) / s)) = true)).
Proof.
  intros Hx Hs Hn. rewrite !emb_leb, !emb_div, !emb_sub; rewrite ?(emb_fin x Hx), ?(emb_fin s Hs); try congruence.
  assert (K : forall d : ER, (er_leb (Fin 0) d = true ->
      ((0 < B2R s)%R -> er_leb (Fin 0) (rnd (T := F64) (er_div (rnd (T := F64) d) (Fin (B2R s)))) = true)
      /\ ((B2R s < 0)%R -> er_leb (rnd (T := F64) (er_div (rnd (T := F64) d) (Fin (B2R s)))) (Fin 0) = true))
    /\ (er_leb d (Fin 0) = true ->
      ((0 < B2R s)%R -> er_leb (rnd (T := F64) (er_div (rnd (T := F64) d) (Fin (B2R s)))) (Fin 0) = true)
      /\ ((B2R s < 0)%R -> er_leb (Fin 0) (rnd (T := F64) (er_div (rnd (T := F64) d) (Fin (B2R s)))) = true))).
  { intros d.
    assert (J : forall e : ER, (er_leb (Fin 0) e = true ->
      ((0 < B2R s)%R -> er_leb (Fin 0) (er_div e (Fin (B2R s))) = true)
      /\ ((B2R s < 0)%R -> er_leb (er_div e (Fin (B2R s))) (Fin 0) = true))
      /\ (er_leb e (Fin 0) = true ->
      ((0 < B2R s)%R -> er_leb (er_div e (Fin (B2R s))) (Fin 0) = true)
      /\ ((B2R s < 0)%R -> er_leb (Fin 0) (er_div e (Fin (B2R s))) = true))).
    { intros [e| | |]; cbn [er_leb er_div]; try (split; discriminate).
      - destruct (Reqb_spec (B2R s) 0) as [|_]; [congruence|]. cbn [er_leb].
        split; intros He; (match type of He with Rleb ?a ?b = true => destruct (Rleb_spec a b); [|discriminate] end);
          (split; intros Hp; match goal with |- Rleb ?a ?b = true => destruct (Rleb_spec a b) as [|Hc]; [reflexivity|exfalso; apply Hc] end);
          unfold Rdiv; [pose proof (Rinv_0_lt_compat _ Hp)|pose proof (Rinv_lt_0_compat _ Hp)
            |pose proof (Rinv_0_lt_compat _ Hp)|pose proof (Rinv_lt_0_compat _ Hp)]; nra.
      - split; [intros _|discriminate]. split; intros Hp; destruct (Rltb_spec (B2R s) 0); try lra; reflexivity.
      - split; [discriminate|intros _]. split; intros Hp; destruct (Rltb_spec (B2R s) 0); try lra; reflexivity. }
    destruct (J (rnd (T := F64) d)) as [J1 J2].
    split; intros Hd.
    - apply (rnd_nonneg (T := F64)) in Hd. destruct (J1 Hd) as [J3 J4].
      split; intros Hp; [apply (rnd_nonneg (T := F64))|apply (rnd_nonpos (T := F64))]; auto.
    - apply (rnd_nonpos (T := F64)) in Hd. destruct (J2 Hd) as [J3 J4].
      split; intros Hp; [apply (rnd_nonpos (T := F64))|apply (rnd_nonneg (T := F64))]; auto. }
  destruct (K (er_sub (emb b) (Fin (B2R x)))) as [K1 K2].
  assert (D1 : er_leb (Fin (B2R x)) (emb b) = true -> er_leb (Fin 0) (er_sub (emb b) (Fin (B2R x))) = true).
  { destruct (emb b) as [r| | |]; cbn; try discriminate; auto.
    destruct (Rleb_spec (B2R x) r); [|discriminate]. intros _. destruct (Rleb_spec 0 (r + - B2R x)); [reflexivity|lra]. }
  assert (D2 : er_leb (emb b) (Fin (B2R x)) = true -> er_leb (er_sub (emb b) (Fin (B2R x))) (Fin 0) = true).
  { destruct (emb b) as [r| | |]; cbn; try discriminate; auto.
    destruct (Rleb_spec r (B2R x)); [|discriminate]. intros _. destruct (Rleb_spec (r + - B2R x) 0); [reflexivity|lra]. }
  split; intros H; auto.
Qed.

Lemma breakpoint_emb (x s lb ub : F64) : is_finite x = true -> is_finite s = true -> B2R s <> 0%R ->
  lb <=? x = true -> x <=? ub = true ->
  emb (breakpoint x s lb ub) = emb (((if Rltb 0 (B2R s) then ub else lb) - x) / s)
  /\ er_leb (Fin 0) (emb (breakpoint x s lb ub)) = true.
Proof.
  intros Hx Hs Hn Hl Hu. unfold breakpoint.
  assert (Hpos : nabs s >? n0 = true).
  { rewrite emb_ltb, emb_abs, emb_0, (emb_fin s Hs). cbn.
    destruct (Rltb_spec 0 (Rabs (B2R s))) as [|Hc]; [reflexivity|exfalso; apply Hc; now apply Rabs_pos_lt]. }
  rewrite Hpos.
  destruct (quot_sign x s ub Hx Hs Hn) as [Q1 _]. destruct (quot_sign x s lb Hx Hs Hn) as [_ Q2].
  specialize (Q1 Hu). specialize (Q2 Hl).
  unfold npmax2. rewrite !emb_isnan, emb_ltb.
  set (a := emb ((ub - x) / s)) in *. set (b := emb ((lb - x) / s)) in *.
  destruct (Rltb_spec 0 (B2R s)) as [Hp|Hp].
  - destruct Q1 as [Q1 _], Q2 as [Q2 _]. specialize (Q1 Hp). specialize (Q2 Hp).
    destruct (er_le_nan _ _ Q1) as [_ ->]. destruct (er_le_nan _ _ Q2) as [-> _].
    rewrite (er_le_not_lt b a) by (eapply er_le_trans; eassumption). auto.
  - assert (Hp' : (B2R s < 0)%R) by lra.
    destruct Q1 as [_ Q1], Q2 as [_ Q2]. specialize (Q1 Hp'). specialize (Q2 Hp').
    destruct (er_le_nan _ _ Q1) as [N1 _]. destruct (er_le_nan _ _ Q2) as [_ N2]. rewrite N1, N2.
    destruct (er_ltb a b) eqn:El; [auto|].
    apply er_not_lt_le in El; auto.
    assert (E : a = b).
    { assert (Hz : er_leb (Fin 0) a = true) by (eapply er_le_trans; eassumption).
      assert (Hz' : er_leb b (Fin 0) = true) by (eapply er_le_trans; eassumption).
      destruct a as [a'| | |], b as [b'| | |]; cbn in *; try discriminate.
      repeat match goal with H : Rleb ?p ?q = true |- _ => destruct (Rleb_spec p q); [clear H|discriminate] end.
      f_equal; lra. }
    fold a. rewrite E. auto.
Qed.

Lemma er_mul_mono th b c : (0 < th)%R -> er_leb (Fin 0) b = true -> er_leb b c = true ->
  er_leb (er_mul (Fin th) b) (er_mul (Fin th) c) = true.
Proof.
  intros Ht. unfold er_mul, er_infmul.
  destruct b as [b| | |], c as [c| | |]; cbn; try discriminate; auto.
  - intros H1 H2. destruct (Rleb_spec 0 b); [|discriminate]. destruct (Rleb_spec b c); [|discriminate].
    destruct (Rleb_spec (th * b) (th * c)) as [|Hc]; [reflexivity|exfalso; apply Hc].
    apply Rmult_le_compat_l; lra.
  - intros _ _. destruct (Rltb_spec 0 th); [reflexivity|lra].
  - intros _ _. destruct (Rltb_spec 0 th); [reflexivity|lra].
Qed.

(** the factor of the step-back *)
Lemma alpha_emb (theta minbr : F64) : (0 < B2R theta <= 1 - 8 * uro)%R ->
  er_leb (Fin 0) (emb minbr) = true ->
  exists al, emb (npmin [n1; theta * minbr]) = Fin al /\ (0 <= al <= 1)%R
    /\ er_leb (Fin al) (rnd (T := F64) (er_mul (Fin (B2R theta)) (emb minbr))) = true.
Proof.
  intros Hth Hm.
  assert (Ht : is_finite theta = true).
  { destruct theta; auto; cbn [B2R] in Hth; lra. }
  assert (Ep : er_leb (Fin 0) (er_mul (Fin (B2R theta)) (emb minbr)) = true).
  { unfold er_mul, er_infmul. destruct (emb minbr) as [m| | |]; cbn in Hm |- *; try discriminate.
    - destruct (Rleb_spec 0 m); [|discriminate].
      destruct (Rleb_spec 0 (B2R theta * m)) as [|Hc]; [reflexivity|exfalso; apply Hc; nra].
    - destruct (Rltb_spec 0 (B2R theta)); [reflexivity|lra]. }
  assert (E : emb (theta * minbr) = rnd (T := F64) (er_mul (Fin (B2R theta)) (emb minbr))).
  { rewrite emb_mul, (emb_fin theta Ht). reflexivity. }
  apply (rnd_nonneg (T := F64)) in Ep. rewrite <- E in Ep |- *.
  unfold npmin. cbn [fold_left]. unfold npmin2. rewrite !emb_isnan, emb_ltb, emb_1.
  destruct (er_le_nan _ _ Ep) as [_ ->]. cbn [er_isnan].
  destruct (emb (theta * minbr)) as [t| | |] eqn:Et; cbn [er_leb er_ltb] in *; try discriminate.
  - destruct (Rleb_spec 0 t); [|discriminate]. destruct (Rltb_spec t 1).
    + rewrite Et. exists t. split; [reflexivity|]. split; [lra|]. destruct (Rleb_spec t t); [reflexivity|lra].
    + rewrite emb_1. exists 1%R. split; [reflexivity|]. split; [lra|]. destruct (Rleb_spec 1 t); [reflexivity|lra].
  - rewrite emb_1. exists 1%R. split; [reflexivity|]. split; [lra|reflexivity].
Qed.

Lemma coordinate_f64 (x s lb ub theta minbr : F64) :
  is_finite x = true -> is_finite s = true -> lb <=? x = true -> x <=? ub = true ->
  (0 < B2R theta <= 1 - 8 * uro)%R -> er_leb (Fin 0) (emb minbr) = true ->
  (B2R s <> 0%R -> minbr <=? breakpoint x s lb ub = true /\ usable (emb (breakpoint x s lb ub))) ->
  lb <=? x + s * npmin [n1; theta * minbr] = true /\ x + s * npmin [n1; theta * minbr] <=? ub = true.
Proof.
  intros Hx Hs Hl Hu Hth Hm Hb.
  destruct (alpha_emb theta minbr Hth Hm) as (al & Ea & Hal & Hle).
  set (alpha := npmin [n1; theta * minbr]) in *.
  (* the product does not overflow *)
  assert (Es : emb (s * alpha) = Fin (rne (B2R s * al))).
  { rewrite emb_mul, Ea, (emb_fin s Hs). cbn [er_mul].
    apply f_rnd_small with (y := Rabs (B2R s)).
    - apply generic_format_abs, fmt_B2R.
    - rewrite Rabs_mult, (Rabs_pos_eq al) by lra. pose proof (Rabs_pos (B2R s)). nra.
    - apply abs_B2R_lt_emax. }
  assert (Ex : emb (x + s * alpha) = rnd (T := F64) (Fin (B2R x + rne (B2R s * al)))).
  { rewrite emb_add, Es, (emb_fin x Hx). reflexivity. }
  rewrite !emb_leb in *. rewrite (emb_fin x Hx) in Hl, Hu. rewrite Ex.
  (* reduce to real inequalities *)
  assert (Kl : (forall l, emb lb = Fin l -> (l <= B2R x + rne (B2R s * al))%R) ->
    er_leb (emb lb) (rnd (T := F64) (Fin (B2R x + rne (B2R s * al)))) = true).
  { intros K. rewrite <- (rnd_emb lb). apply rnd_mono.
    destruct (emb lb) as [l| | |]; cbn in Hl |- *; try discriminate; auto.
    specialize (K l eq_refl). destruct (Rleb_spec l (B2R x + rne (B2R s * al))); [reflexivity|lra]. }
  assert (Ku : (forall u, emb ub = Fin u -> (B2R x + rne (B2R s * al) <= u)%R) ->
    er_leb (rnd (T := F64) (Fin (B2R x + rne (B2R s * al)))) (emb ub) = true).
  { intros K. rewrite <- (rnd_emb ub). apply rnd_mono.
    destruct (emb ub) as [u| | |]; cbn in Hu |- *; try discriminate; auto.
    specialize (K u eq_refl). destruct (Rleb_spec (B2R x + rne (B2R s * al)) u); [reflexivity|lra]. }
  assert (Hlx : forall l, emb lb = Fin l -> (l <= B2R x)%R).
  { intros l E. rewrite E in Hl. cbn in Hl. destruct (Rleb_spec l (B2R x)); [assumption|discriminate]. }
  assert (Hxu : forall u, emb ub = Fin u -> (B2R x <= u)%R).
  { intros u E. rewrite E in Hu. cbn in Hu. destruct (Rleb_spec (B2R x) u); [assumption|discriminate]. }
  assert (Hfin : forall (b : F64) r, emb b = Fin r -> b = b /\ r = B2R b).
  { intros b r E. split; [reflexivity|]. destruct (is_finite b) eqn:F.
    - rewrite (emb_fin b F) in E. injection E as E. symmetry. exact E.
    - destruct b as [| []| |]; discriminate. }
  destruct (Req_dec (B2R s) 0) as [E0|Hn].
  { rewrite E0, Rmult_0_l, rne_0 in *. split; [apply Kl|apply Ku]; intros v E; rewrite Rplus_0_r; auto. }
  destruct (Hb Hn) as [Hmin Hus].
  assert (Hl' : lb <=? x = true) by (rewrite emb_leb, (emb_fin x Hx); exact Hl).
  assert (Hu' : x <=? ub = true) by (rewrite emb_leb, (emb_fin x Hx); exact Hu).
  destruct (breakpoint_emb x s lb ub Hx Hs Hn Hl' Hu') as [Eb _].
  assert (Hle2 : er_leb (Fin al) (rnd (T := F64) (er_mul (Fin (B2R theta)) (emb (breakpoint x s lb ub)))) = true).
  { eapply er_le_trans; [exact Hle|]. apply rnd_mono, er_mul_mono; auto. lra. }
  rewrite Eb in Hle2, Hus. rewrite emb_div, emb_sub, (emb_fin x Hx), (emb_fin s Hs) in Hle2, Hus
    by (rewrite (emb_fin s Hs); congruence).
  pose proof (abs_B2R_lt_emax prec64 emax64 s) as Hmax. apply Rabs_lt_inv in Hmax.
  destruct (Rltb_spec 0 (B2R s)) as [Hp|Hp].
  - assert (H0 : (0 <= rne (B2R s * al))%R) by (rewrite <- rne_0; apply rne_le; nra).
    split; [apply Kl; intros l E; specialize (Hlx l E); lra|]. apply Ku. intros u E.
    destruct (Hfin _ _ E) as [_ Eu]. rewrite E in Hle2, Hus.
    assert (rne (B2R s * al) <= u - B2R x)%R; [|lra].
    apply (room_pos u (B2R x) (B2R s) (B2R theta) al); auto using fmt_B2R.
    + rewrite Eu. apply fmt_B2R.
    + lra.
  - assert (Hp' : (B2R s < 0)%R) by lra.
    assert (H0 : (rne (B2R s * al) <= 0)%R) by (rewrite <- rne_0; apply rne_le; nra).
    split; [|apply Ku; intros u E; specialize (Hxu u E); lra]. apply Kl. intros l E.
    destruct (Hfin _ _ E) as [_ El]. rewrite E in Hle2, Hus.
    assert (l - B2R x <= rne (B2R s * al))%R; [|lra].
    apply (room_neg l (B2R x) (B2R s) (B2R theta) al); auto using fmt_B2R.
    + rewrite El. apply fmt_B2R.
    + lra.
Qed.

(** ** C12 *)
Lemma map2_len {A B C} (f : A -> B -> C) a : forall b, List.length b = List.length a -> List.length (map2 f a b) = List.length a.
Proof. induction a; intros [|y b] H; simpl in *; auto; try lia. Qed.
Lemma nth_m2 {A B C} (f : A -> B -> C) da db dc a : forall b i, (i < List.length a)%nat -> List.length b = List.length a ->
  nth i (map2 f a b) dc = f (nth i a da) (nth i b db).
Proof.
  induction a as [|p a IH]; intros [|q b] [|i] Hi H; simpl in *; try lia; auto. apply IH; lia.
Qed.
(** the breakpoint of a coordinate (distance to the bound divided by the step) has not underflowed *)
Definition no_underflow (b : F64) : Prop :=
  B2R b = 0%R \/ (bpow radix2 (-1022) <= Rabs (B2R b))%R \/ is_finite b = false.

Lemma usable_of (b : F64) : er_leb (Fin 0) (emb b) = true -> no_underflow b -> usable (emb b).
Proof.
  intros H0 H. destruct (is_finite b) eqn:Ef.
  - rewrite (emb_fin b Ef) in *. cbn in H0. destruct (Rleb_spec 0 (B2R b)); [|discriminate].
    destruct H as [H|[H|H]]; [left; congruence| |congruence].
    right; left. exists (B2R b). split; [reflexivity|]. rewrite Rabs_pos_eq in H by auto. exact H.
  - right; right. destruct b as [| []| |]; cbn in *; try discriminate; reflexivity.
Qed.

Lemma in_breakpoints {T} {N : Num T} : forall (x s lb ub : list T) b, In b (breakpoints x s lb ub) ->
  exists i, (i < List.length x)%nat /\ (i < List.length s)%nat /\ (i < List.length lb)%nat /\ (i < List.length ub)%nat /\
    b = breakpoint (nth i x nnan) (nth i s nnan) (nth i lb nnan) (nth i ub nnan).
Proof.
  induction x as [|a x IH]; intros [|p s] [|l lb] [|u ub] b H; simpl in H; try contradiction.
  destruct H as [<-|H].
  - exists 0%nat. simpl. repeat split; lia.
  - apply IH in H as (i & H1 & H2 & H3 & H4 & H5). exists (S i). simpl. repeat split; try lia. exact H5.
Qed.
Lemma breakpoints_in {T} {N : Num T} : forall (x s lb ub : list T) i, (i < List.length x)%nat ->
  List.length s = List.length x -> List.length lb = List.length x -> List.length ub = List.length x ->
  In (breakpoint (nth i x nnan) (nth i s nnan) (nth i lb nnan) (nth i ub nnan)) (breakpoints x s lb ub).
Proof.
  induction x as [|a x IH]; intros [|p s] [|l lb] [|u ub] i Hi; simpl in *; try lia.
  intros H1 H2 H3. destruct i as [|i]; [left; reflexivity|right]. apply IH; lia.
Qed.

(** Stepping back the finite step [st_s r] from a point [st_x r] of the box: the new point is in the
    box, in binary64, with no excursion by rounding *)
Theorem C12_step_back (r : step F64) :
  in_box (st_lb r) (st_ub r) (st_x r) ->
  List.length (st_s r) = List.length (st_x r) -> st_x r <> [] ->
  (forall i, (i < List.length (st_x r))%nat ->
     is_finite (nth i (st_x r) nnan) = true /\ is_finite (nth i (st_s r) nnan) = true) ->
  (0 < B2R (st_theta r) <= 1 - bpow radix2 (-50))%R ->
  Forall no_underflow (breakpoints (st_x r) (st_s r) (st_lb r) (st_ub r)) ->
  in_box (st_lb r) (st_ub r) (vadd (st_x r) (st_s (step_back r))).
Proof.
  intros (Hl & Hu & Hin) Hs Hne Hf Hth Hn.
  change (st_s (step_back r)) with (vscaler (st_s r)
    (npmin [n1; st_theta r * npmin (breakpoints (st_x r) (st_s r) (st_lb r) (st_ub r))])).
  set (br := breakpoints (st_x r) (st_s r) (st_lb r) (st_ub r)) in *.
  assert (Hth' : (0 < B2R (st_theta r) <= 1 - 8 * uro)%R).
  { replace (8 * uro)%R with (bpow radix2 (-50)); [exact Hth|].
    unfold uro. change (-50)%Z with (3 + -53)%Z. rewrite (bpow_plus radix2 3 (-53)).
    change (bpow radix2 3) with 8%R. reflexivity. }
  assert (Hbr : forall b, In b br -> er_leb (Fin 0) (emb b) = true).
  { intros b Hb. apply in_breakpoints in Hb as (i & H1 & H2 & H3 & H4 & ->).
    destruct (Hf i H1) as [F1 F2]. destruct (Hin i H1) as [L U].
    destruct (Req_dec (B2R (nth i (st_s r) nnan)) 0) as [E0|E0].
    - unfold breakpoint. rewrite emb_ltb, emb_abs, emb_0, (emb_fin _ F2), E0. cbn. rewrite Rabs_R0.
      destruct (Rltb_spec 0 0) as [Hc|_]; [lra|]. reflexivity.
    - apply breakpoint_emb; auto. }
  assert (Hbr0 : br <> []).
  { destruct (st_x r) as [|a x]; [congruence|]. simpl in Hl, Hu, Hs. subst br.
    destruct (st_s r), (st_lb r), (st_ub r); simpl in *; congruence. }
  assert (Hnn : Forall (fun y : F64 => nisnan y = false) br).
  { apply Forall_forall. intros b Hb. apply Hbr in Hb. rewrite emb_isnan. now apply er_le_nan in Hb. }
  destruct (npmin_spec br Hbr0 Hnn) as [Hmin Hmem].
  assert (Hlen : List.length (vadd (st_x r) (vscaler (st_s r) (npmin [n1; st_theta r * npmin br]))) = List.length (st_x r)).
  { unfold vadd, vscaler. rewrite map2_len; rewrite ?map_length; auto. }
  split; [congruence|]. split; [congruence|]. rewrite Hlen. intros i Hi.
  destruct (Hf i Hi) as [F1 F2]. destruct (Hin i Hi) as [L U].
  assert (En : nth i (vadd (st_x r) (vscaler (st_s r) (npmin [n1; st_theta r * npmin br]))) nnan
     = nth i (st_x r) nnan + nth i (st_s r) nnan * npmin [n1; st_theta r * npmin br]).
  { unfold vadd, vscaler.
    rewrite (nth_m2 _ nnan nnan nnan) by (rewrite ?map_length; lia). f_equal.
    rewrite (nth_indep _ nnan (nnan * npmin [n1; st_theta r * npmin br])) by (rewrite map_length; lia).
    apply (map_nth (fun v => v * npmin [n1; st_theta r * npmin br])). }
  rewrite En. apply coordinate_f64; auto.
  intros E0.
  assert (Hb : In (breakpoint (nth i (st_x r) nnan) (nth i (st_s r) nnan) (nth i (st_lb r) nnan) (nth i (st_ub r) nnan)) br).
  { apply breakpoints_in; congruence. }
  split; [apply Hmin, Hb|]. apply usable_of; [apply Hbr, Hb|].
  apply (proj1 (Forall_forall _ _) Hn), Hb.
Qed.

(** A candidate is plain if it starts from the current point (not from a reflection or truncation
    point): the main step of each solver, the gradient step and the refined step.
    The type is what the log and the history call step_type *)
Definition plain (r : step F64) : Prop :=
  In (st_type r) ["2d"; "nd"; "cgs"; "g"; "ref"]%string.

(** what all plain candidates have in common *)
Definition plain_inv (A : sargs F64) (c : step F64) : Prop :=
  plain c -> exists b, st_x b = a_x A /\ st_lb b = a_lb A /\ st_ub b = a_ub A /\ st_theta b = st_theta c
    /\ st_s b = st_og_s c /\ st_s c = st_s (step_back b) /\ st_s0 c = zeros_of A.

Lemma plain_stepped A typ sub ss0 refl trunc pd nw s ss sc c :
  stepped (new_step typ A (a_x A) sub (zeros_of A) ss0 refl trunc pd nw) s ss sc c -> plain_inv A c.
Proof.
  intros H _. exists (set_st_s s (new_step typ A (a_x A) sub (zeros_of A) ss0 refl trunc pd nw)).
  destruct H. repeat (split; [first [reflexivity | symmetry; assumption]|]). split.
  - rewrite sb_s, sb_alpha, sb_minbr, sb_br. reflexivity.
  - rewrite sb_s0. reflexivity.
Qed.
Lemma plain_calc O A typ sub refl trunc pd nw c :
  calculate O (new_step typ A (a_x A) sub (zeros_of A) (zeros_of A) refl trunc pd nw) = Ok c -> plain_inv A c.
Proof.
  intros H. apply calculate_fields in H as (sc & ss & s & _ & _ & _ & H & _). eapply plain_stepped; eauto.
Qed.
Lemma tr2d_new (O : StepOracles F64) A r : tr_step_2d O A = Ok r ->
  exists sub pd nw, r = new_step "2d" A (a_x A) sub (zeros_of A) (zeros_of A) [] [] pd nw.
Proof.
  unfold tr_step_2d. destruct (so_lstsq _ _ _); [|discriminate].
  destruct (so_eig _ _) as [[[e1 e2] v]|]; [|discriminate].
  intros H. repeat match type of H with
   | context [match a_sg A with _ => _ end] => destruct (a_sg A) as [|? [|]]
   | context [if ?c then _ else _] => destruct c
  end; apply Ok_inj in H; eauto.
Qed.
Lemma candidates_plain O A sd strat l : candidates O A sd strat = Ok l -> Forall (plain_inv A) l.
Proof.
  apply candidates_all.
  - intros p c _ _ H. apply calculate_fields in H as (sc & ss & s & _ & _ & _ & H & _).
    intros Hp. exfalso. unfold plain in Hp. rewrite (sb_type _ _ _ _ _ H) in Hp.
    cbn [tr_step_reflected new_step st_type In] in Hp. intuition discriminate.
  - intros p c _ _ H. apply calculate_fields in H as (sc & ss & s & _ & _ & _ & H & _).
    intros Hp. exfalso. unfold plain in Hp. rewrite (sb_type _ _ _ _ _ H) in Hp.
    cbn [tr_step_truncated new_step st_type In] in Hp. intuition discriminate.
  - intros c H. eapply plain_calc, H.
  - intros p c _ H. apply refined_fields in H as (sc & ss & s & _ & _ & H & _). eapply plain_stepped, H.
  - intros c H. apply main_step_cases in H as [(_ & r & Hr & H)|[(_ & H)|(_ & H)]].
    + apply tr2d_new in Hr as (sub & pd & nw & ->). eapply plain_calc, H.
    + eapply plain_calc, H.
    + apply cg_fields in H as (sub & sc & ss & ss0 & s & _ & _ & H & _). eapply plain_stepped, H.
Qed.

(** In a run in double precision, from a current point of the box: the trial point of a plain candidate
    is in the box, whatever the numerical routines return, provided
    - the proposed step before the step-back is finite
    - 0 < theta <= 1 - 2^-50
    - no distance to a bound, divided by the step, underflows *)
Theorem C12_plain_trial_point (E : env F64) (C : cfg F64) (s : opt F64) (sp : step F64) :
  proposes E C s sp -> plain sp ->
  let x := deref s (o_x s) in
  in_box (c_lb C) (c_ub C) x -> x <> [] ->
  (forall i, (i < List.length x)%nat ->
     is_finite (nth i x nnan) = true /\ is_finite (nth i (st_og_s sp) nnan) = true) ->
  (0 < B2R (st_theta sp) <= 1 - bpow radix2 (-50))%R ->
  Forall no_underflow (breakpoints x (st_og_s sp) (c_lb C) (c_ub C)) ->
  in_box (c_lb C) (c_ub C) (vadd (vadd x (st_s sp)) (st_s0 sp)).
Proof.
  intros (Htr & Hls & Hl0) Hpl x Hbox Hne Hf Hth Hn.
  apply trust_region_in in Htr as (l & Hl & Hnth).
  apply candidates_plain in Hl. apply nth_error_In in Hnth.
  pose proof (proj1 (Forall_forall _ _) Hl sp Hnth Hpl) as (b & B1 & B2 & B3 & B4 & B5 & B6 & B7).
  clear Hl Hnth. cbn [tr_args a_x a_lb a_ub] in B1, B2, B3. fold x in B1, Hls, Hl0.
  assert (Hin : in_box (c_lb C) (c_ub C) (vadd x (st_s sp))).
  { pose proof (C12_step_back b) as K. rewrite B1, B2, B3, B4, B5, <- B6 in K. apply K; auto.
    rewrite <- Hls, B6. change (st_s (step_back b)) with
      (vscaler (st_s b) (npmin [n1; st_theta b * npmin (breakpoints (st_x b) (st_s b) (st_lb b) (st_ub b))])).
    unfold vscaler. rewrite map_length, B5. reflexivity. }
  destruct Hin as (H1 & H2 & H3). set (y := vadd x (st_s sp)) in *.
  assert (Hy : List.length y = List.length x) by (subst y; unfold vadd; apply map2_len; exact Hls).
  assert (Hz : List.length (vadd y (st_s0 sp)) = List.length y) by (unfold vadd; apply map2_len; congruence).
  split; [congruence|]. split; [congruence|]. rewrite Hz. intros i Hi. specialize (H3 i Hi).
  assert (En : nth i (vadd y (st_s0 sp)) nnan = nth i y nnan + n0).
  { unfold vadd. rewrite (nth_m2 _ nnan nnan nnan) by congruence. f_equal. rewrite B7.
    unfold zeros_of, vzeros. apply nth_error_nth. apply nth_error_repeat. rewrite B7 in Hl0.
    unfold zeros_of, vzeros in Hl0. rewrite repeat_length in Hl0. congruence. }
  rewrite En, !emb_leb in *.
  replace (emb (nth i y nnan + n0)) with (emb (nth i y nnan)); [exact H3|].
  rewrite emb_add, emb_0. destruct (emb (nth i y nnan)) eqn:Ey; cbn [er_add]; rewrite ?Rplus_0_r, <- Ey; symmetry; apply rnd_emb.
Qed.

(** *** Non-vacuity *)
Definition normal_entry (b : F64) : bool :=
  match b with B754_finite _ m e _ => Z.leb (-1022) e | _ => false end.
Lemma normal_entry_ok b : normal_entry b = true -> no_underflow b.
Proof.
  destruct b as [|[]| |sg m e He]; try discriminate. intros H. apply Z.leb_le in H. right. left.
  cbn [B2R]. rewrite <- F2R_Zabs, abs_cond_Zopp. cbn [Z.abs].
  apply Rle_trans with (bpow radix2 e); [now apply bpow_le|]. apply bpow_le_F2R. reflexivity.
Qed.
Definition below_one (b : F64) : bool :=
  match b with B754_finite false m e _ => Z.eqb e (-53) && Z.leb (Z.pos m) (2 ^ 53 - 8) | _ => false end.
Lemma below_one_ok b : below_one b = true -> (0 < B2R b <= 1 - bpow radix2 (-50))%R.
Proof.
  destruct b as [|[]| |[] m e He]; try discriminate. cbn [below_one]. intros H. apply andb_true_iff in H as [H1 H2].
  apply Z.eqb_eq in H1. apply Z.leb_le in H2. cbn [B2R cond_Zopp]. subst e. split.
  - apply F2R_gt_0. reflexivity.
  - unfold F2R. cbn [Fnum Fexp]. apply IZR_le in H2. rewrite minus_IZR in H2.
    change (2 ^ 53)%Z with 9007199254740992%Z in H2. change (bpow radix2 (-53)) with (/ 9007199254740992)%R.
    change (bpow radix2 (-50)) with (/ 1125899906842624)%R. lra.
Qed.
Definition all_finite (v : list F64) : bool := forallb is_finite v.
Lemma all_finite_ok v i : all_finite v = true -> (i < List.length v)%nat -> is_finite (nth i v nnan) = true.
Proof. intros H Hi. apply (proj1 (forallb_forall _ _) H). now apply nth_In. Qed.
Definition in_box_b (lb ub x : list F64) : bool :=
  Nat.eqb (List.length x) (List.length lb) && Nat.eqb (List.length x) (List.length ub)
  && forallb (fun i => (nth i lb nnan <=? nth i x nnan) && (nth i x nnan <=? nth i ub nnan)) (seq 0 (List.length x)).
Lemma in_box_b_ok lb ub x : in_box_b lb ub x = true <-> in_box lb ub x.
Proof.
  unfold in_box_b, in_box. rewrite !andb_true_iff, !Nat.eqb_eq, forallb_forall. split.
  - intros [[H1 H2] H3]. split; [auto|]. split; [auto|]. intros i Hi. apply andb_true_iff, H3, in_seq. lia.
  - intros (H1 & H2 & H3). split; [auto|]. intros i Hi. apply andb_true_iff, H3. apply in_seq in Hi. lia.
Qed.

Definition first_proposal (obj : nat -> list F64 -> retval F64) (p : cfg F64 * opt F64) (x0 : list F64)
    (P : opt F64 -> step F64 -> bool) : bool :=
  let E := world obj in let C := fst p in
  match prepare E C 1 x0 None H0None (snd p) with
  | (Ok f, s) =>
      let x := deref s (o_x s) in
      let vdv := affine_scaling x (o_grad s) (c_lb C) (c_ub C) in
      match trust_region (e_la E) x (o_grad s) (o_hess s) (map (fun p => nsqrt (nabs (fst p))) vdv)
        (o_delta s) (map snd vdv)
        (pymax (op_theta_max (c_opts C)) (n1 - norm_inf (vmul (map fst vdv) (o_grad s))))
        (c_lb C) (c_ub C) (op_subspace_dim (c_opts C)) (op_stepback (c_opts C)) with
      | Ok sp => Nat.eqb (List.length (st_s sp)) (List.length x) && Nat.eqb (List.length (st_s0 sp)) (List.length x)
                 && P s sp
      | _ => false
      end
  | _ => false
  end.
Lemma first_proposal_ok obj p x0 P : first_proposal obj p x0 P = true ->
  exists f s sp, loop_head (world obj) (fst p) 1 x0 None H0None (snd p) f s
    /\ proposes (world obj) (fst p) s sp /\ P s sp = true.
Proof.
  unfold first_proposal, proposes. intros H. destruct (prepare _ _ _ _ _ _ _) as [[f|e] s] eqn:Ep; [|discriminate].
  cbv zeta in H. destruct (trust_region _ _ _ _ _ _ _ _ _ _ _ _) as [sp|] eqn:Et; [|discriminate].
  rewrite !andb_true_iff, !Nat.eqb_eq in H. destruct H as [[H1 H2] H3].
  exists f, s, sp. split; [now apply lh_start|]. auto.
Qed.

(** in the box [1, 10]^2 from (3, 4) with f(x) = x1 + x2, delta_init = 100 and the strategy "refine", the first
    proposed step is plain, meets the hypotheses of C12_plain_trial_point and is shortened *)
Definition wide_refine : odict F64 :=
  [(KStr "delta_init", VReal (fz 100)); (KStr "stepback_strategy", VStr "refine")]%string.
Definition box_1_10 : cfg F64 * opt F64 := built (fzs [1; 1]%Z) (fzs [10; 10]%Z) wide_refine None false.
Example plain_trial_point_exists :
  exists f s sp, loop_head (world linear) (fst box_1_10) 1 (fzs [3; 4]%Z) None H0None (snd box_1_10) f s
    /\ proposes (world linear) (fst box_1_10) s sp /\ plain sp
    /\ in_box (c_lb (fst box_1_10)) (c_ub (fst box_1_10)) (deref s (o_x s)) /\ deref s (o_x s) <> []
    /\ (forall i, (i < List.length (deref s (o_x s)))%nat ->
         is_finite (nth i (deref s (o_x s)) nnan) = true /\ is_finite (nth i (st_og_s sp) nnan) = true)
    /\ (0 < B2R (st_theta sp) <= 1 - bpow radix2 (-50))%R
    /\ Forall no_underflow (breakpoints (deref s (o_x s)) (st_og_s sp) (c_lb (fst box_1_10)) (c_ub (fst box_1_10)))
    /\ st_alpha sp <? n1 = true.
Proof.
  set (P := fun (s : opt F64) (sp : step F64) => let x := deref s (o_x s) in
    String.eqb (st_type sp) "2d" && in_box_b (c_lb (fst box_1_10)) (c_ub (fst box_1_10)) x
    && Nat.eqb (List.length x) 2 && Nat.eqb (List.length (st_og_s sp)) 2 && all_finite x && all_finite (st_og_s sp)
    && below_one (st_theta sp)
    && forallb normal_entry (breakpoints x (st_og_s sp) (c_lb (fst box_1_10)) (c_ub (fst box_1_10)))
    && (st_alpha sp <? n1)).
  assert (H : first_proposal linear box_1_10 (fzs [3; 4]%Z) P = true) by (vm_compute; reflexivity).
  apply first_proposal_ok in H as (f & s & sp & H1 & H2 & H3). exists f, s, sp. split; [exact H1|]. split; [exact H2|].
  unfold P in H3. cbv zeta in H3. clear P. rewrite !andb_true_iff in H3. destruct H3 as [[[[[[[[K1 K2] K3] K4] K5] K6] K7] K8] K9].
  apply String.eqb_eq in K1. apply Nat.eqb_eq in K3, K4.
  split; [unfold plain; rewrite K1; now left|]. split; [now apply in_box_b_ok|].
  split; [intros E; rewrite E in K3; discriminate|].
  split; [intros i Hi; split; apply all_finite_ok; auto; congruence|].
  split; [now apply below_one_ok|]. split; [|exact K9].
  apply Forall_forall. intros b Hb. apply normal_entry_ok, (proj1 (forallb_forall _ _) K8), Hb.
Qed.

(** *** Finding: the condition on theta cannot be dropped.
    The optimizer uses theta = max(theta_max, 1 - max_i |v_i g_i|), which is 1 in double precision when the scaled
    gradient is small.  Then the accepted trial point may leave the box by rounding, and minimize raises a
    RuntimeError blaming the box: here f(x) = 2e-4 x - 1.25e9 x^2 in [0, 10] from 0, all options default *)
Definition slope (c h : F64) (_ : nat) (x : list F64) : retval F64 :=
  RTuple [PScal (vsum x * c + nhalf * h * dot x x); PVec (map (fun a => c + h * a) x);
          PMat (List.length x) (map (vscale h) (eye (List.length x)))].
Definition box_0_10 : cfg F64 * opt F64 := built (fzs [0]%Z) (fzs [10]%Z) [] None false.
Theorem C12_run_refuted :
  exists e s, run_of (slope (nfrac 2 10000) (nfrac (-2500000000) 1)) box_0_10 50 (fzs [0]%Z) = (Err e, s)
    /\ (match e with ERuntime => true | _ => false end && eqflag (o_flag s) EXCEEDED_BOUNDARY
        && existsb (fun p => negb (in_box_b (fzs [0]%Z) (fzs [10]%Z) (fst p))) (o_evals s)) = true.
Proof. apply err_witness. vm_compute. reflexivity. Qed.
