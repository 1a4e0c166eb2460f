(** IEEE-754 binary64 with round to nearest, ties to even: the arithmetic numpy uses.
    From Flocq's [BinarySingleNaN] (one NaN, signed zeros, infinities, subnormals). *)
From Coq Require Import ZArith List Bool Reals Lra Lia Psatz.
From Flocq Require Import Core Plus_error BinarySingleNaN.
From Verif Require Import Num Constants ER.
Import ListNotations.

Definition prec64 : Z := 53.
Definition emax64 : Z := 1024.
#[global] Instance Hprec64 : Prec_gt_0 prec64. Proof. reflexivity. Qed.
#[global] Instance Hemax64 : Prec_lt_emax prec64 emax64. Proof. reflexivity. Qed.

Definition F64 := binary_float prec64 emax64.

Definition fofZ (z : Z) : F64 := binary_normalize prec64 emax64 _ _ mode_NE z 0 false.

#[global] Instance F64Num : Num F64 := {|
  nadd := Bplus mode_NE; nsub := Bminus mode_NE; nmul := Bmult mode_NE; ndiv := Bdiv mode_NE;
  nopp := Bopp; nabs := Babs; nsqrt := Bsqrt mode_NE;
  nltb := Bltb; nleb := Bleb; neqb := Beqb;
  nisnan := is_nan; nisfin := is_finite; nsignb := Bsign;
  nofZ := fofZ; ninf := B754_infinity false; nnan := B754_nan
|}.

(** int(v) for a finite float equal to an integer *)
#[global] Instance F64Int : NumInt F64 := {|
  ntoZ := fun x => if is_finite x && Beqb (fofZ (Btrunc x)) x then Some (Btrunc x) else None
|}.

Local Open Scope R_scope.

Ltac dltb := match goal with |- context [Rltb ?a ?b] => destruct (Rltb_spec a b) end.
Ltac dleb := match goal with |- context [Rleb ?a ?b] => destruct (Rleb_spec a b) end.
Ltac deqb := match goal with |- context [Reqb ?a ?b] => destruct (Reqb_spec a b) end.

Notation fexp64 := (SpecFloat.fexp prec64 emax64).
#[global] Instance fexp64_valid : Valid_exp fexp64 := fexp_correct prec64 emax64 Hprec64.
Definition rne (r : R) : R := round radix2 fexp64 ZnearestE r.

Definition f_emb (x : F64) : ER :=
  match x with
  | B754_nan => NaN
  | B754_infinity false => PInf
  | B754_infinity true => NInf
  | _ => Fin (B2R x)
  end.

Definition f_rnd (a : ER) : ER :=
  match a with
  | Fin r =>
      if Rlt_bool (Rabs (rne r)) (bpow radix2 emax64) then Fin (rne r)
      else if Rltb r 0 then NInf else PInf
  | _ => a
  end.

Lemma f_emb_fin x : is_finite x = true -> f_emb x = Fin (B2R x).
Proof. destruct x as [| []| |]; simpl; congruence. Qed.

Lemma rne_0 : rne 0 = 0.
Proof. apply round_0; auto with typeclass_instances. Qed.
Lemma f_rnd0 : f_rnd (Fin 0) = Fin 0.
Proof.
  unfold f_rnd. rewrite rne_0, Rabs_R0, Rlt_bool_true; [reflexivity|apply bpow_gt_0].
Qed.
Lemma rne_le a b : a <= b -> rne a <= rne b.
Proof. apply (round_le radix2 fexp64 ZnearestE). Qed.
Lemma rne_opp a : rne (- a) = - rne a.
Proof. apply round_NE_opp. Qed.
Lemma rne_B2R (x : F64) : rne (B2R x) = B2R x.
Proof. apply round_generic; auto with typeclass_instances. apply generic_format_B2R. Qed.

Lemma f_rnd_of (z : F64) (v : R) (sg : bool) :
  (if Rlt_bool (Rabs (rne v)) (bpow radix2 emax64)
   then B2R z = rne v /\ is_finite z = true
   else B2SF z = binary_overflow prec64 emax64 mode_NE sg /\ sg = Rltb v 0) ->
  f_emb z = f_rnd (Fin v).
Proof.
  simpl. destruct Rlt_bool.
  - intros [<- H]. now apply f_emb_fin.
  - intros [H ->]. destruct z as [| | |]; simpl in H; try discriminate.
    + destruct (Rltb v 0); injection H as ->; reflexivity.
Qed.

Lemma big_nz v : Rlt_bool (Rabs (rne v)) (bpow radix2 emax64) = false -> v <> 0.
Proof.
  intros H ->. rewrite rne_0, Rabs_R0, Rlt_bool_true in H; [discriminate|apply bpow_gt_0].
Qed.

Lemma Bsign_fin (x : F64) : is_finite x = true -> B2R x <> 0 -> Bsign x = Rltb (B2R x) 0.
Proof.
  destruct x as [| | |s m e H]; simpl; try congruence; intros _ _.
  destruct s; simpl; (match goal with |- context [Rltb ?a ?b] => destruct (Rltb_spec a b) as [H1|H1] end); auto.
  - exfalso; apply H1. now apply F2R_lt_0.
  - exfalso. assert (0 < F2R (Float radix2 (Z.pos m) e)) by now apply F2R_gt_0.
    simpl in *; lra.
Qed.

Lemma Bsign_le (x : F64) : is_finite x = true ->
  if Bsign x then B2R x <= 0 else 0 <= B2R x.
Proof.
  destruct x as [[]| | |s m e H]; simpl; try discriminate; intros _; try lra.
  destruct s; simpl; [apply Rlt_le, F2R_lt_0|apply Rlt_le, F2R_gt_0]; reflexivity.
Qed.

Lemma f_ltb x y : Bltb x y = er_ltb (f_emb x) (f_emb y).
Proof.
  destruct (is_finite x) eqn:Hx, (is_finite y) eqn:Hy.
  - rewrite Bltb_correct, !f_emb_fin by auto. simpl.
    dltb; [apply Rlt_bool_true|apply Rlt_bool_false]; lra.
  - rewrite (f_emb_fin x Hx). destruct y as [| []| |]; try discriminate;
    destruct x as [| []| |[]]; try discriminate; reflexivity.
  - rewrite (f_emb_fin y Hy). destruct y as [| []| |[]]; try discriminate;
    destruct x as [| []| |]; try discriminate; reflexivity.
  - destruct x as [| []| |], y as [| []| |]; try discriminate; reflexivity.
Qed.
Lemma f_leb x y : Bleb x y = er_leb (f_emb x) (f_emb y).
Proof.
  destruct (is_finite x) eqn:Hx, (is_finite y) eqn:Hy.
  - rewrite Bleb_correct, !f_emb_fin by auto. simpl.
    dleb; [apply Rle_bool_true|apply Rle_bool_false]; lra.
  - rewrite (f_emb_fin x Hx). destruct y as [| []| |]; try discriminate;
    destruct x as [| []| |[]]; try discriminate; reflexivity.
  - rewrite (f_emb_fin y Hy). destruct y as [| []| |[]]; try discriminate;
    destruct x as [| []| |]; try discriminate; reflexivity.
  - destruct x as [| []| |], y as [| []| |]; try discriminate; reflexivity.
Qed.
Lemma f_eqb x y : Beqb x y = er_eqb (f_emb x) (f_emb y).
Proof.
  destruct (is_finite x) eqn:Hx, (is_finite y) eqn:Hy.
  - rewrite Beqb_correct, !f_emb_fin by auto. simpl.
    deqb; [apply Req_bool_true|apply Req_bool_false]; auto.
  - rewrite (f_emb_fin x Hx). destruct y as [| []| |]; try discriminate;
    destruct x as [| []| |[]]; try discriminate; reflexivity.
  - rewrite (f_emb_fin y Hy). destruct y as [| []| |[]]; try discriminate;
    destruct x as [| []| |]; try discriminate; reflexivity.
  - destruct x as [| []| |], y as [| []| |]; try discriminate; reflexivity.
Qed.

Lemma f_opp x : f_emb (Bopp x) = er_opp (f_emb x).
Proof.
  destruct (is_finite x) eqn:Hx.
  - rewrite !f_emb_fin; auto. 2: now rewrite is_finite_Bopp. simpl. now rewrite B2R_Bopp.
  - destruct x as [| []| |]; try discriminate; reflexivity.
Qed.
Lemma f_abs x : f_emb (Babs x) = er_abs (f_emb x).
Proof.
  destruct (is_finite x) eqn:Hx.
  - rewrite !f_emb_fin; auto. 2: now rewrite is_finite_Babs. simpl. now rewrite B2R_Babs.
  - destruct x as [| []| |]; try discriminate; reflexivity.
Qed.

Lemma f_add x y : f_emb (Bplus mode_NE x y) = f_rnd (er_add (f_emb x) (f_emb y)).
Proof.
  destruct (is_finite x) eqn:Hx, (is_finite y) eqn:Hy.
  - rewrite (f_emb_fin x Hx), (f_emb_fin y Hy). simpl er_add.
    apply (f_rnd_of _ _ (Bsign x)).
    generalize (Bplus_correct prec64 emax64 _ _ mode_NE x y Hx Hy). fold (rne (B2R x + B2R y)).
    destruct Rlt_bool eqn:Hb; [tauto|]. intros [H1 H2]. split; auto.
    apply big_nz in Hb.
    generalize (Bsign_le x Hx) (Bsign_le y Hy). rewrite <- H2.
    destruct (Bsign x); dltb; auto; lra.
  - rewrite (f_emb_fin x Hx). destruct y as [| []| |]; try discriminate;
    destruct x as [| []| |[]]; try discriminate; reflexivity.
  - rewrite (f_emb_fin y Hy). destruct y as [| []| |[]]; try discriminate;
    destruct x as [| []| |]; try discriminate; reflexivity.
  - destruct x as [| []| |], y as [| []| |]; try discriminate; reflexivity.
Qed.
Lemma f_sub x y : f_emb (Bminus mode_NE x y) = f_rnd (er_sub (f_emb x) (f_emb y)).
Proof.
  destruct (is_finite x) eqn:Hx, (is_finite y) eqn:Hy.
  - rewrite (f_emb_fin x Hx), (f_emb_fin y Hy). unfold er_sub; simpl er_opp; simpl er_add.
    apply (f_rnd_of _ _ (Bsign x)).
    generalize (Bminus_correct prec64 emax64 _ _ mode_NE x y Hx Hy). fold (rne (B2R x - B2R y)).
    unfold Rminus.
    destruct Rlt_bool eqn:Hb; [tauto|]. intros [H1 H2]. split; auto.
    apply big_nz in Hb.
    generalize (Bsign_le x Hx) (Bsign_le y Hy). rewrite H2.
    destruct (Bsign y); simpl; dltb; auto; lra.
  - rewrite (f_emb_fin x Hx). destruct y as [| []| |]; try discriminate;
    destruct x as [| []| |[]]; try discriminate; reflexivity.
  - rewrite (f_emb_fin y Hy). destruct y as [| []| |[]]; try discriminate;
    destruct x as [| []| |]; try discriminate; reflexivity.
  - destruct x as [| []| |], y as [| []| |]; try discriminate; reflexivity.
Qed.

Lemma mul_sign a b : a * b <> 0 -> xorb (Rltb a 0) (Rltb b 0) = Rltb (a * b) 0.
Proof.
  intros H. destruct (Rltb_spec a 0), (Rltb_spec b 0), (Rltb_spec (a * b) 0); simpl; auto; exfalso;
  assert (a <> 0) by nra; assert (b <> 0) by nra; nra.
Qed.

Lemma pos_F2R m e : 0 < F2R (Float radix2 (Z.pos m) e).
Proof. now apply F2R_gt_0. Qed.
Lemma neg_F2R m e : F2R (Float radix2 (Z.neg m) e) < 0.
Proof. now apply F2R_lt_0. Qed.

Lemma f_mul x y : f_emb (Bmult mode_NE x y) = f_rnd (er_mul (f_emb x) (f_emb y)).
Proof.
  destruct (is_finite x) eqn:Hx, (is_finite y) eqn:Hy.
  - rewrite (f_emb_fin x Hx), (f_emb_fin y Hy). simpl er_mul.
    apply (f_rnd_of _ _ (xorb (Bsign x) (Bsign y))).
    generalize (Bmult_correct prec64 emax64 _ _ mode_NE x y). fold (rne (B2R x * B2R y)).
    rewrite Hx, Hy.
    destruct Rlt_bool eqn:Hb; [tauto|]. intros H1. split; auto.
    apply big_nz in Hb. rewrite !Bsign_fin; auto using mul_sign; intros E; rewrite E in Hb; lra.
  - destruct y as [| []| |]; try discriminate;
    destruct x as [| []| |[] m e]; try discriminate; try reflexivity; simpl; unfold er_infmul;
    try (dltb; [lra|]; dltb; [lra|]; reflexivity);
    try (generalize (pos_F2R m e)); try (generalize (neg_F2R m e)); intros;
    repeat dltb; try lra; try reflexivity.
  - destruct x as [| []| |]; try discriminate;
    destruct y as [| []| |[] m e]; try discriminate; try reflexivity; simpl; unfold er_infmul;
    try (dltb; [lra|]; dltb; [lra|]; reflexivity);
    try (generalize (pos_F2R m e)); try (generalize (neg_F2R m e)); intros;
    repeat dltb; try lra; try reflexivity.
  - destruct x as [| []| |], y as [| []| |]; try discriminate; reflexivity.
Qed.

Lemma div_sign a b : a / b <> 0 -> b <> 0 -> xorb (Rltb a 0) (Rltb b 0) = Rltb (a / b) 0.
Proof.
  intros H Hb. assert (/ b <> 0) by now apply Rinv_neq_0_compat.
  unfold Rdiv in *. rewrite <- mul_sign by auto. f_equal.
  destruct (Rltb_spec b 0), (Rltb_spec (/ b) 0); auto; exfalso.
  - apply Rinv_lt_0_compat in r. lra.
  - assert (0 < b) by lra. apply Rinv_0_lt_compat in H1. lra.
Qed.

Lemma f_div x y : f_emb y <> Fin 0 ->
  f_emb (Bdiv mode_NE x y) = f_rnd (er_div (f_emb x) (f_emb y)).
Proof.
  intros H0.
  destruct (is_finite x) eqn:Hx, (is_finite y) eqn:Hy.
  - rewrite (f_emb_fin y Hy) in H0. rewrite (f_emb_fin x Hx), (f_emb_fin y Hy). simpl er_div.
    assert (Hn : B2R y <> 0) by congruence.
    (match goal with |- context [Reqb ?a ?b] => destruct (Reqb_spec a b) as [?|_] end); [easy|].
    apply (f_rnd_of _ _ (xorb (Bsign x) (Bsign y))).
    generalize (Bdiv_correct prec64 emax64 _ _ mode_NE x y Hn). fold (rne (B2R x / B2R y)).
    rewrite Hx.
    destruct Rlt_bool eqn:Hb; [tauto|]. intros H1. split; auto.
    apply big_nz in Hb. rewrite !Bsign_fin; auto using div_sign.
    intros E; rewrite E in Hb; unfold Rdiv in Hb; lra.
  - destruct y as [| []| |]; try discriminate;
    destruct x as [| []| |[] m e]; try discriminate; try reflexivity; cbn [f_emb er_div];
    rewrite f_rnd0; reflexivity.
  - destruct x as [| []| |]; try discriminate;
    destruct y as [| []| |[] m e]; try discriminate; try reflexivity; simpl in *;
    try congruence;
    try (generalize (pos_F2R m e)); try (generalize (neg_F2R m e)); intros;
    repeat dltb; try lra; try reflexivity.
  - destruct x as [| []| |], y as [| []| |]; try discriminate; reflexivity.
Qed.

Lemma f_div0 x y : f_emb y = Fin 0 -> er_isfin (f_emb (Bdiv mode_NE x y)) = false.
Proof.
  destruct y as [sy| []| |[] m e]; simpl; try discriminate; intros H.
  - destruct x as [| []| |[]]; destruct sy; reflexivity.
  - exfalso. generalize (neg_F2R m e). injection H. lra.
  - exfalso. generalize (pos_F2R m e). injection H. lra.
Qed.

Lemma sqrt_small (x : F64) : is_finite x = true -> Rabs (rne (sqrt (B2R x))) < bpow radix2 emax64.
Proof.
  intros Hx. generalize (Bsqrt_correct prec64 emax64 _ _ mode_NE x). intros [H _].
  change (rne (sqrt (B2R x))) with (round radix2 fexp64 (round_mode mode_NE) (sqrt (B2R x))).
  rewrite <- H. apply abs_B2R_lt_emax.
Qed.

Lemma f_sqrt x : f_emb (Bsqrt mode_NE x) = f_rnd (er_sqrt (f_emb x)).
Proof.
  destruct (is_finite x) eqn:Hx.
  - generalize (sqrt_small x Hx). generalize (Bsqrt_correct prec64 emax64 _ _ mode_NE x).
    fold (rne (sqrt (B2R x))). rewrite (f_emb_fin x Hx). simpl er_sqrt.
    destruct x as [s| | |[] m e Hb]; try discriminate.
    + intros _ H. simpl B2R in *. dltb; [lra|]. unfold f_rnd.
      rewrite Rlt_bool_true; auto. rewrite sqrt_0, rne_0. reflexivity.
    + intros _ _. simpl. generalize (neg_F2R m e). intros.
      dltb; [reflexivity|lra].
    + intros (H1 & H2 & _) H3. (match goal with |- context [Rltb ?a ?b] => destruct (Rltb_spec a b) as [H4|_] end).
      * exfalso. simpl in H4. generalize (pos_F2R m e). lra.
      * rewrite f_emb_fin by exact H2. unfold f_rnd. rewrite Rlt_bool_true by auto.
        now rewrite H1.
  - destruct x as [| []| |]; try discriminate; reflexivity.
Qed.

Lemma IZR_format z : (Z.abs z <= 2 ^ 53)%Z -> generic_format radix2 fexp64 (IZR z).
Proof.
  intros H. change fexp64 with (FLT_exp (3 - emax64 - prec64) prec64).
  destruct (Z.eq_dec (Z.abs z) (2^53)) as [E|E].
  - assert (z = 2^53 \/ z = - 2^53)%Z as [->| ->] by lia.
    + apply generic_format_bpow' with (e := 53%Z); auto with typeclass_instances. 
      unfold FLT_exp, prec64, emax64; lia.
    + rewrite opp_IZR. apply generic_format_opp.
      apply generic_format_bpow' with (e := 53%Z); auto with typeclass_instances. 
      unfold FLT_exp, prec64, emax64; lia.
  - apply generic_format_FLT. exists (Float radix2 z 0).
    + unfold F2R; simpl; ring.
    + simpl. change (Z.pow_pos 2 53)%Z with (2^53)%Z. lia.
    + simpl. unfold emax64, prec64. lia.
Qed.

Lemma f_ofZ z : (Z.abs z <= 2 ^ 53)%Z -> f_emb (fofZ z) = Fin (IZR z).
Proof.
  intros H. assert (Hr : rne (IZR z) = IZR z).
  { apply round_generic; auto with typeclass_instances. now apply IZR_format. }
  generalize (binary_normalize_correct prec64 emax64 _ _ mode_NE z 0 false).
  cbv zeta. replace (F2R (Float radix2 z 0)) with (IZR z) by (unfold F2R; simpl; ring).
  change (round radix2 fexp64 (round_mode mode_NE) (IZR z)) with (rne (IZR z)). rewrite Hr.
  rewrite Rlt_bool_true.
  - intros (H1 & H2 & _). unfold fofZ. rewrite f_emb_fin by auto. now rewrite H1.
  - rewrite <- abs_IZR. change (bpow radix2 emax64) with (IZR (2 ^ 1024)).
    apply IZR_lt. apply Z.le_lt_trans with (1 := H). reflexivity.
Qed.

Lemma f_rnd_mono a b : er_leb a b = true -> er_leb (f_rnd a) (f_rnd b) = true.
Proof.
  destruct a as [a| | |], b as [b| | |]; cbn [er_leb f_rnd]; try discriminate; auto; intros H.
  - destruct (Rleb_spec a b) as [Hab|]; [|discriminate]. apply rne_le in Hab as Hr.
    destruct (Rlt_bool_spec (Rabs (rne a)) (bpow radix2 emax64)) as [Ha|Ha];
    destruct (Rlt_bool_spec (Rabs (rne b)) (bpow radix2 emax64)) as [Hb|Hb]; simpl.
    + dleb; auto.
    + dltb; auto. exfalso.
      assert (rne b <= 0) by (rewrite <- rne_0; apply rne_le; lra).
      assert (rne a <= 0) by lra.
      rewrite Rabs_left1 in Ha, Hb by lra. lra.
    + dltb; auto. exfalso.
      assert (0 <= rne a) by (rewrite <- rne_0; apply rne_le; lra).
      assert (0 <= rne b) by lra.
      rewrite Rabs_pos_eq in Ha, Hb by lra. lra.
    + destruct (Rltb_spec a 0), (Rltb_spec b 0); auto; lra.
  - destruct Rlt_bool; auto. destruct Rltb; auto.
  - destruct Rlt_bool; auto. destruct Rltb; auto.
Qed.

Lemma f_rnd_emb x : f_rnd (f_emb x) = f_emb x.
Proof.
  destruct (is_finite x) eqn:Hx.
  - rewrite f_emb_fin by auto. unfold f_rnd. rewrite rne_B2R, Rlt_bool_true; auto.
    apply abs_B2R_lt_emax.
  - destruct x as [| []| |]; try discriminate; reflexivity.
Qed.

Lemma rne_sub0 (x y : F64) : rne (B2R x - B2R y) = 0 -> B2R x - B2R y = 0.
Proof.
  intros H. unfold rne, Rminus in H.
  destruct (Req_dec (B2R x + - B2R y) 0) as [E|E]; [exact E|exfalso].
  revert H. change fexp64 with (FLT_exp (3 - emax64 - prec64) prec64).
  apply round_plus_neq_0; auto with typeclass_instances.
  - apply generic_format_B2R.
  - apply generic_format_opp. apply generic_format_B2R.
Qed.

Lemma f_rnd_fin0 r : f_rnd (Fin r) = Fin 0 -> rne r = 0.
Proof. simpl. destruct Rlt_bool; [congruence|]. destruct Rltb; discriminate. Qed.

Lemma f_emb_isfin x : is_finite x = er_isfin (f_emb x).
Proof. now destruct x as [| []| |]. Qed.
Lemma f_emb_isnan x : is_nan x = er_isnan (f_emb x).
Proof. now destruct x as [| []| |]. Qed.

Lemma f_rnd_notnan r : f_rnd (Fin r) <> NaN.
Proof. simpl. destruct Rlt_bool; [discriminate|]. destruct Rltb; discriminate. Qed.
Lemma f_rnd_sub0 x y r : er_sub (f_emb x) (f_emb y) = Fin r -> f_rnd (Fin r) = Fin 0 -> r = 0.
Proof.
  intros H1 H2. apply f_rnd_fin0 in H2.
  destruct (is_finite x) eqn:Hx, (is_finite y) eqn:Hy.
  - rewrite (f_emb_fin x Hx), (f_emb_fin y Hy) in H1. injection H1 as <-.
    apply (rne_sub0 x y H2).
  - rewrite (f_emb_fin x Hx) in H1. destruct y as [| []| |]; simpl in *; discriminate.
  - rewrite (f_emb_fin y Hy) in H1. destruct x as [| []| |]; simpl in *; discriminate.
  - destruct x as [| []| |], y as [| []| |]; simpl in *; discriminate.
Qed.

#[global] Instance F64Laws : NumLaws F64 := {|
  emb := f_emb; rnd := f_rnd;
  emb_ltb := f_ltb; emb_leb := f_leb; emb_eqb := f_eqb;
  emb_isnan := f_emb_isnan; emb_isfin := f_emb_isfin;
  emb_inf := eq_refl; emb_nan := eq_refl;
  emb_opp := f_opp; emb_abs := f_abs; emb_add := f_add; emb_sub := f_sub; emb_mul := f_mul;
  emb_div := f_div; emb_div0 := f_div0; emb_sqrt := f_sqrt; emb_ofZ := f_ofZ;
  rnd_nan := eq_refl; rnd_pinf := eq_refl; rnd_ninf := eq_refl;
  rnd_mono := f_rnd_mono; rnd_emb := f_rnd_emb;
  rnd_notnan := f_rnd_notnan; rnd_sub0 := f_rnd_sub0
|}.
