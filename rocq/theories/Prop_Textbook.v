(** C74: the Broyden class is the textbook one: phi = 0 is the BFGS formula, phi = 1 the DFP formula, phi interpolates linearly
    between them, and BFGS and DFP are inverse to each other when step and gradient difference exchange their roles. *)
From Coq Require Import ZArith List Bool Reals Lra Lia Psatz.
From Verif Require Import Num Constants HessApprox ER RVec Quasi Prop_Quasi.
Import ListNotations.
Local Open Scope R_scope.

(** what is assumed of one update: dimensions, symmetry, and the two denominators *)
Definition regular (n : nat) (enforce : bool) (B : rmat) (s y : rvec) : Prop :=
  is_mat n n B /\ symmetric B /\ length s = n /\ length y = n
  /\ (0 < rdot y s \/ enforce = false /\ rdot y s <> 0) /\ rdot s (rmv B s) <> 0.
(** [M] is the matrix an object of class [k] holding [B] has after the update with step [s] and gradient difference [y] *)
Definition updated (k : ikind ER) (B : rmat) (D : list (list ER)) (s y : rvec) (M : rmat) : Prop :=
  ih_mat (ih_update (holding k B D) (fv s) (fv y)) = fm M.

Lemma fv_inj a b : fv a = fv b -> a = b.
Proof. revert b. induction a as [|x a IH]; intros [|z b]; cbn; intros H; try discriminate; auto. injection H as -> H. now rewrite (IH b H). Qed.
Lemma fm_inj A B : fm A = fm B -> A = B.
Proof.
  revert B. induction A as [|x A IH]; intros [|z B]; cbn; intros H; try discriminate; auto.
  injection H as H1 H2. apply fv_inj in H1 as ->. now rewrite (IH B H2).
Qed.
Lemma updated_is n phi enforce B D s y M : regular n enforce B s y -> updated (IBroyden (Fin phi) enforce) B D s y M ->
  M = rmadd B (rbroyden y s B phi).
Proof.
  intros (HB & HS & Hs & Hy & Hb & Hc) HM. rewrite rdot_comm in Hc. apply fm_inj. rewrite <- HM.
  unfold ih_update, holding, ih_mat. cbn [ih_kind ih_base hb_hess]. rewrite (h_broyden n) by (auto; tauto || (destruct Hb as [Hb|[_ Hb]]; lra)).
  apply h_madd.
Qed.
Lemma updated_exists n phi enforce B D s y : regular n enforce B s y ->
  updated (IBroyden (Fin phi) enforce) B D s y (rmadd B (rbroyden y s B phi)) /\ is_mat n n (rmadd B (rbroyden y s B phi))
  /\ symmetric (rmadd B (rbroyden y s B phi)).
Proof.
  intros (HB & HS & Hs & Hy & Hb & Hc). rewrite rdot_comm in Hc. split; [|split].
  - unfold updated, ih_update, holding, ih_mat. cbn [ih_kind ih_base hb_hess]. rewrite (h_broyden n) by (auto; tauto || (destruct Hb as [Hb|[_ Hb]]; lra)).
    apply h_madd.
  - now apply is_mat_new.
  - now apply (rbroyden_symmetric n).
Qed.
Lemma applied n B y s phi v i : is_mat n n B -> length s = n -> length y = n -> length v = n ->
  let b := rdot y s in let u := rmv B s in let c := rdot u s in
  nth i (rmv (rmadd B (rbroyden y s B phi)) v) 0 = nth i (rmv B v) 0 + (/ b * (rdot y v * nth i y 0) - / c * (rdot u v * nth i u 0)
       + phi * c * ((/ b * rdot y v - / c * rdot u v) * (/ b * nth i y 0 - / c * nth i u 0))).
Proof.
  intros HB Hs Hy Hv b u c. destruct (mats n B y s phi HB Hy) as (H1 & H2 & H3). fold u in H2, H3. fold b c in H1, H2, H3.
  assert (Hu : length u = n) by (unfold u; rewrite rmv_length; apply HB).
  pose proof (is_mat_rbroyden n B y s phi HB Hy) as H4.
  rewrite (rmv_madd n n) by auto. unfold rbroyden. cbv zeta. fold u. fold b c. set (w := rsub (rscale (/ b) y) (rscale (/ c) u)) in *.
  assert (Hw : length w = n) by (unfold w; rewrite rsub_length; rewrite ?rscale_length; congruence).
  assert (Hwv : rdot w v = / b * rdot y v - / c * rdot u v) by (unfold w; rewrite rdot_rsub_l, !rdot_rscale_l; rewrite ?rscale_length; congruence).
  assert (Hwi : nth i w 0 = / b * nth i y 0 - / c * nth i u 0) by (unfold w; rewrite nth_rsub, !nth_rscale; rewrite ?rscale_length; congruence).
  rewrite (rmv_madd n n) by (auto using is_mat_msub). rewrite (rmv_msub n n) by auto. rewrite !rmv_mscale, !rmv_outer.
  assert (HB' : length (rmv B v) = n) by (rewrite rmv_length; apply HB).
  rewrite nth_radd, nth_radd, nth_rsub, !nth_rscale, Hwv, Hwi.
  - ring.
  - rewrite !rscale_length. congruence.
  - rewrite rsub_length, !rscale_length by (rewrite !rscale_length; congruence). congruence.
  - rewrite radd_length; rewrite rsub_length; rewrite ?rscale_length; congruence.
Qed.

(** *** the BFGS formula: B' v = B v - (s.Bv / s.Bs) B s + (y.v / y.s) y *)
Definition bfgs_formula (B : rmat) (s y v : rvec) : rvec :=
  radd (rsub (rmv B v) (rscale (rdot s (rmv B v) / rdot s (rmv B s)) (rmv B s))) (rscale (rdot y v / rdot y s) y).
(** *** the DFP formula: B' v = (1 - y s^T / y.s) B (1 - s y^T / y.s) v + (y.v / y.s) y *)
Definition dfp_formula (B : rmat) (s y v : rvec) : rvec :=
  let q := rmv B (rsub v (rscale (rdot y v / rdot y s) s)) in
  radd (rsub q (rscale (rdot s q / rdot y s) y)) (rscale (rdot y v / rdot y s) y).

Lemma denominators n enforce B s y : regular n enforce B s y -> rdot y s <> 0.
Proof. intros (_ & _ & _ & _ & [H|[_ H]] & _); lra. Qed.
Lemma sym_dot n B s v : is_mat n n B -> symmetric B -> length s = n -> length v = n -> rdot (rmv B s) v = rdot s (rmv B v).
Proof. intros. rewrite rdot_comm. exact (rform_sym n B v s H H0 H2 H1). Qed.

Theorem C74_BFGS : forall n enforce B D s y M v, regular n enforce B s y -> updated (BFGS enforce) B D s y M -> length v = n ->
  rmv M v = bfgs_formula B s y v.
Proof.
  intros n enforce B D s y M v HR HM Hv. rewrite (updated_is n _ _ _ _ _ _ _ HR HM). pose proof (denominators _ _ _ _ _ HR) as Hb.
  destruct HR as (HB & HS & Hs & Hy & _ & Hc).
  assert (L1 : length (rmv B v) = n) by (rewrite rmv_length; apply HB).
  assert (L2 : length (rmv B s) = n) by (rewrite rmv_length; apply HB).
  unfold bfgs_formula. apply rvec_ext.
  - rewrite rmv_length, rmadd_length; [|rewrite (proj1 HB); symmetry; exact (proj1 (is_mat_rbroyden n B y s 0 HB Hy))].
    rewrite radd_length; rewrite rsub_length; rewrite ?rscale_length; try congruence. rewrite (proj1 HB). congruence.
  - intros i. rewrite (applied n) by auto. cbv zeta.
    rewrite (sym_dot n B s v), (rdot_comm (rmv B s) s) by auto.
    rewrite nth_radd, nth_rsub, !nth_rscale; [field; auto| |]; rewrite ?rsub_length; rewrite ?rscale_length; congruence.
Qed.
Theorem C74_DFP : forall n enforce B D s y M v, regular n enforce B s y -> updated (DFP enforce) B D s y M -> length v = n ->
  rmv M v = dfp_formula B s y v.
Proof.
  intros n enforce B D s y M v HR HM Hv. rewrite (updated_is n _ _ _ _ _ _ _ HR HM). pose proof (denominators _ _ _ _ _ HR) as Hb.
  destruct HR as (HB & HS & Hs & Hy & _ & Hc).
  assert (L1 : length (rmv B v) = n) by (rewrite rmv_length; apply HB).
  assert (L2 : length (rmv B s) = n) by (rewrite rmv_length; apply HB).
  unfold dfp_formula. cbv zeta. rewrite rmv_rsub, rmv_rscale by (rewrite rscale_length; congruence).
  rewrite rdot_rsub_r, rdot_rscale_r by (rewrite rscale_length; congruence).
  apply rvec_ext.
  - rewrite rmv_length, rmadd_length; [|rewrite (proj1 HB); symmetry; exact (proj1 (is_mat_rbroyden n B y s 1 HB Hy))].
    rewrite radd_length; rewrite rsub_length; rewrite ?rsub_length; rewrite ?rscale_length; try congruence. rewrite (proj1 HB). congruence.
  - intros i. rewrite (applied n) by auto. cbv zeta.
    rewrite (sym_dot n B s v), (rdot_comm (rmv B s) s) by auto.
    rewrite nth_radd, !nth_rsub, !nth_rscale; [field; auto| | |]; rewrite ?rsub_length; rewrite ?rsub_length; rewrite ?rscale_length; congruence.
Qed.
(** weight phi: the combination of the two *)
Theorem C74_interpolates : forall n phi enforce B D s y M v, regular n enforce B s y -> updated (IBroyden (Fin phi) enforce) B D s y M -> length v = n ->
  rmv M v = radd (rscale (1 - phi) (bfgs_formula B s y v)) (rscale phi (dfp_formula B s y v)).
Proof.
  intros n phi enforce B D s y M v HR HM Hv. rewrite (updated_is n _ _ _ _ _ _ _ HR HM).
  destruct (updated_exists n 0 enforce B D s y HR) as (U0 & M0 & _). destruct (updated_exists n 1 enforce B D s y HR) as (U1 & M1 & _).
  destruct (updated_exists n phi enforce B D s y HR) as (_ & Mp & _).
  rewrite <- (C74_BFGS _ _ _ _ _ _ _ v HR U0 Hv), <- (C74_DFP _ _ _ _ _ _ _ v HR U1 Hv).
  destruct HR as (HB & HS & Hs & Hy & _ & Hc).
  assert (La : forall A, is_mat n n A -> length (rmv A v) = n) by (intros A HA; rewrite rmv_length; apply HA).
  apply rvec_ext.
  - rewrite radd_length, rscale_length, !La by (rewrite ?rscale_length, ?La; auto). auto.
  - intros i. rewrite nth_radd, !nth_rscale by (rewrite !rscale_length, !La; auto). rewrite !(applied n) by auto. cbv zeta. ring.
Qed.
(** if H inverts B, then the DFP update of H with step and gradient difference exchanged inverts the BFGS update of B *)
Theorem C74_dual : forall n enforce B H D D' s y M N v, regular n enforce B s y -> regular n enforce H y s ->
  (forall w, length w = n -> rmv B (rmv H w) = w) ->
  updated (BFGS enforce) B D s y M -> updated (DFP enforce) H D' y s N -> length v = n -> rmv M (rmv N v) = v.
Proof.
  intros n enforce B H D D' s y M N v RB RH Hinv UM UN Hv.
  pose proof (denominators _ _ _ _ _ RB) as Hb.
  assert (LN : length (rmv N v) = n).
  { destruct (updated_exists n 1 enforce H D' y s RH) as (_ & HN & _). rewrite (updated_is n _ _ _ _ _ _ _ RH UN), rmv_length. apply HN. }
  rewrite (C74_BFGS _ _ _ _ _ _ _ _ RB UM LN). rewrite (C74_DFP _ _ _ _ _ _ _ v RH UN Hv).
  destruct RB as (HB & HS & Hs & Hy & _ & Hc). destruct RH as (HH & _).
  unfold dfp_formula. cbv zeta. rewrite (rdot_comm s y). set (p := rsub v (rscale (rdot s v / rdot y s) y)).
  assert (Lp : length p = n) by (unfold p; rewrite rsub_length; rewrite ?rscale_length; congruence).
  assert (Lq : length (rmv H p) = n) by (rewrite rmv_length; apply HH).
  set (q := rmv H p) in *. set (k := (rdot s v - rdot y q) / rdot y s).
  assert (Ew : radd (rsub q (rscale (rdot y q / rdot y s) s)) (rscale (rdot s v / rdot y s) s) = radd q (rscale k s)).
  { apply rvec_ext.
    - rewrite !radd_length; rewrite ?rsub_length; rewrite ?rscale_length; congruence.
    - intros i. rewrite !nth_radd, nth_rsub, !nth_rscale; [unfold k; field; auto| | |]; rewrite ?rsub_length; rewrite ?rscale_length; congruence. }
  rewrite Ew. unfold bfgs_formula.
  assert (EBw : rmv B (radd q (rscale k s)) = radd p (rscale k (rmv B s))).
  { rewrite rmv_radd, rmv_rscale by (rewrite rscale_length; congruence). unfold q. now rewrite Hinv. }
  rewrite EBw.
  assert (L2 : length (rmv B s) = n) by (rewrite rmv_length; apply HB).
  assert (E1 : rdot s p = 0).
  { unfold p. rewrite rdot_rsub_r, rdot_rscale_r by (rewrite rscale_length; congruence). rewrite (rdot_comm s y). field. auto. }
  rewrite (rdot_radd_r s), rdot_rscale_r, E1 by (rewrite rscale_length; congruence).
  rewrite (rdot_radd_r y), rdot_rscale_r by (rewrite rscale_length; congruence).
  apply rvec_ext.
  - rewrite radd_length; rewrite rsub_length; rewrite ?radd_length; rewrite ?rscale_length; congruence.
  - intros i. rewrite nth_radd, nth_rsub, nth_radd, !nth_rscale;
      try (rewrite ?rsub_length; rewrite ?radd_length; rewrite ?rscale_length; congruence).
    unfold p. rewrite nth_rsub, nth_rscale by (rewrite rscale_length; congruence). unfold k. field. auto.
Qed.
(** and so after any number of updates, skipped ones included *)
Theorem C74_dual_updates : forall n pairs B0 H0 D D',
  is_mat n n B0 -> symmetric B0 -> posdef n B0 -> is_mat n n H0 -> symmetric H0 -> posdef n H0 ->
  (forall w, length w = n -> rmv B0 (rmv H0 w) = w) ->
  Forall (fun p => length (fst p) = n /\ length (snd p) = n) pairs ->
  exists B H, ih_mat (updates pairs (holding (BFGS true) B0 D)) = fm B
    /\ ih_mat (updates (map (fun p => (snd p, fst p)) pairs) (holding (DFP true) H0 D')) = fm H
    /\ is_mat n n B /\ is_mat n n H
    /\ forall v, length v = n -> rmv B (rmv H v) = v.
Proof.
  intros n pairs B0 H0 D D' MB SB PB MH SH PH Hinv Hl. revert B0 H0 D D' MB SB PB MH SH PH Hinv.
  induction Hl as [|[s y] pairs [H1 H2] _ IH]; intros B0 H0 D D' MB SB PB MH SH PH Hinv.
  - exists B0, H0. auto 8.
  - unfold updates. cbn [map fold_left fst snd] in *.
    destruct (C42_step n 0 B0 D s y) as (B1 & D1 & EB & MB1 & SB1 & PB1); auto; [lra|].
    destruct (C42_step n 1 H0 D' y s) as (N1 & D1' & EN & MN1 & SN1 & PN1); auto; [lra|].
    change (IBroyden (Fin 0) true) with (BFGS true : ikind ER) in EB. change (IBroyden (Fin 1) true) with (DFP true : ikind ER) in EN.
    assert (UB : updated (BFGS true) B0 D s y B1) by (unfold updated; now rewrite EB).
    assert (UN : updated (DFP true) H0 D' y s N1) by (unfold updated; now rewrite EN).
    rewrite EB, EN. apply IH; auto. intros w Hw.
    destruct (Rle_dec (rdot y s) 0) as [Hb|Hb].
    + pose proof (C43_exact n (Fin 0) B0 D s y MB Hb) as E1.
      assert (Hb' : rdot s y <= 0) by (rewrite rdot_comm; exact Hb). pose proof (C43_exact n (Fin 1) H0 D' y s MH Hb') as E2.
      unfold updated in UB, UN. change (BFGS true : ikind ER) with (IBroyden (Fin 0) true : ikind ER) in UB. change (DFP true : ikind ER) with (IBroyden (Fin 1) true : ikind ER) in UN.
      rewrite E1 in UB. rewrite E2 in UN. apply fm_inj in UB, UN. subst B1 N1. auto.
    + assert (NZ : forall a b : rvec, 0 < rdot a b -> nonzero b).
      { intros a b Hab. destruct (nonzero_dec b) as [Hz|Hz]; auto. exfalso. rewrite (all0_zeros b Hz), rdot_zeros_r in Hab. lra. }
      apply (C74_dual n true B0 H0 D D' s y); auto.
      * refine (conj MB (conj SB (conj H1 (conj H2 (conj (or_introl _) _))))); [lra|].
        apply Rgt_not_eq. apply PB; auto. apply (NZ y). lra.
      * refine (conj MH (conj SH (conj H2 (conj H1 (conj (or_introl _) _))))); [rewrite rdot_comm; lra|].
        apply Rgt_not_eq. apply PH; auto. apply (NZ s). rewrite rdot_comm. lra.
Qed.
(** not empty: a 2-dimensional pair of inverse matrices with a regular update *)
Example C74_ex : regular 2 true [[2; 0]; [0; 1]] [1; 1] [3; 1] /\ regular 2 true [[1 / 2; 0]; [0; 1]] [3; 1] [1; 1]
  /\ (forall w, length w = 2%nat -> rmv [[2; 0]; [0; 1]] (rmv [[1 / 2; 0]; [0; 1]] w) = w)
  /\ bfgs_formula [[2; 0]; [0; 1]] [1; 1] [3; 1] [1; 0] <> dfp_formula [[2; 0]; [0; 1]] [1; 1] [3; 1] [1; 0].
Proof.
  assert (SY : forall a d, symmetric [[a; 0]; [0; d]]).
  { intros a d i j. unfold entry. destruct i as [|[|i]], j as [|[|j]]; cbn; auto; do 2 (try match goal with |- context [match ?k with 0%nat => _ | _ => _ end] => destruct k; cbn; auto end). }
  assert (MT : forall a d, is_mat 2 2 [[a; 0]; [0; d]]) by (intros; split; cbn; repeat constructor).
  split; [|split; [|split]].
  - refine (conj (MT _ _) (conj (SY _ _) (conj eq_refl (conj eq_refl (conj (or_introl _) _))))); cbn; lra.
  - refine (conj (MT _ _) (conj (SY _ _) (conj eq_refl (conj eq_refl (conj (or_introl _) _))))); cbn; lra.
  - intros [|a [|b [|]]]; try discriminate. intros _. cbn. f_equal; [field|f_equal; field].
  - unfold bfgs_formula, dfp_formula. cbn. intros E. injection E as E1 E2. lra.
Qed.
