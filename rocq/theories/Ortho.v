(** Orthonormal families of real vectors: coordinates, Bessel's inequality, at most n orthonormal
    vectors in dimension n, and completeness of n of them. *)
From Coq Require Import ZArith List Bool Reals Lra Lia Psatz.
From Verif Require Import Num ER RVec.
Import ListNotations.
Local Open Scope R_scope.

Definition orthonormal (V : list rvec) : Prop :=
  forall i j, (i < length V)%nat -> (j < length V)%nat ->
    rdot (nth i V []) (nth j V []) = if Nat.eqb i j then 1 else 0.
Definition orthogonal_family (V : list rvec) : Prop :=
  (forall i j, (i < length V)%nat -> (j < length V)%nat -> i <> j -> rdot (nth i V []) (nth j V []) = 0)
  /\ (forall i, (i < length V)%nat -> 0 < rdot (nth i V []) (nth i V [])).

Lemma coords_of_lincomb k n V c : is_mat k n V -> orthonormal V -> length c = k ->
  rmv V (rlincomb n c V) = c.
Proof.
  intros HV HO Hc. destruct HV as [HL HF]. apply rvec_ext; [now rewrite rmv_length, HL|].
  intros i. destruct (Nat.lt_ge_cases i k) as [Hi|Hi].
  - rewrite nth_rmv, (rdot_rlincomb n) by auto. rewrite (rdot_sum k) by auto.
    rewrite (rsum_single k _ i); auto.
    + rewrite nth_rmv, HO by lia. rewrite Nat.eqb_refl. lra.
    + intros j Hj Hne. rewrite nth_rmv, HO by lia. destruct (Nat.eqb_spec j i); [contradiction|lra].
  - rewrite !nth_overflow; auto; rewrite ?rmv_length; lia.
Qed.
Lemma dot_lincomb k n V c d : is_mat k n V -> orthonormal V -> length c = k -> length d = k ->
  rdot (rlincomb n c V) (rlincomb n d V) = rdot c d.
Proof.
  intros HV HO Hc Hd. rewrite (rdot_rlincomb n) by apply HV. rewrite (coords_of_lincomb k) by auto. apply rdot_comm.
Qed.
Lemma bessel_identity k n V x : is_mat k n V -> orthonormal V -> length x = n ->
  let p := rlincomb n (rmv V x) V in
  rdot (rsub x p) (rsub x p) = rdot x x - rdot (rmv V x) (rmv V x).
Proof.
  intros HV HO Hx p. assert (HL : length (rmv V x) = k) by (rewrite rmv_length; apply HV).
  assert (Hp : length p = n) by (apply rlincomb_length, HV).
  rewrite rdot_rsub_l, !rdot_rsub_r by congruence.
  assert (E1 : rdot p p = rdot (rmv V x) (rmv V x)) by (apply (dot_lincomb k); auto).
  assert (E2 : rdot x p = rdot (rmv V x) (rmv V x)) by (apply (rdot_rlincomb n), HV).
  rewrite (rdot_comm p x), E1, E2. lra.
Qed.
Lemma bessel k n V x : is_mat k n V -> orthonormal V -> length x = n ->
  rdot (rmv V x) (rmv V x) <= rdot x x.
Proof.
  intros HV HO Hx. pose proof (bessel_identity k n V x HV HO Hx) as E. cbv zeta in E.
  match type of E with rdot ?z _ = _ => pose proof (rdot_self_nonneg z) end. lra.
Qed.
Definition unit (n j : nat) : rvec := nth j (reye n) [].
Lemma unit_length n j : (j < n)%nat -> length (unit n j) = n.
Proof. intros H. apply (is_mat_row n n); auto. apply is_mat_eye. Qed.
Lemma dot_unit n j x : (j < n)%nat -> length x = n -> rdot (unit n j) x = nth j x 0.
Proof.
  intros Hj Hx. rewrite (rdot_sum n) by now apply unit_length.
  rewrite (rsum_single n _ j); auto.
  - change (nth j (unit n j) 0) with (entry (reye n) j j). rewrite entry_eye, Nat.eqb_refl by auto. lra.
  - intros i Hi Hne. change (nth i (unit n j) 0) with (entry (reye n) j i). rewrite entry_eye by auto.
    destruct (Nat.eqb_spec j i); [congruence|lra].
Qed.
Lemma sum_coords_unit k n V : is_mat k n V -> orthonormal V ->
  rsum n (fun j => rdot (rmv V (unit n j)) (rmv V (unit n j))) = INR k.
Proof.
  intros HV HO.
  rewrite (rsum_ext n _ (fun j => rsum k (fun i => entry V i j * entry V i j))).
  - rewrite rsum_swap. rewrite (rsum_ext k _ (fun _ => 1)).
    + rewrite rsum_const. lra.
    + intros i Hi. pose proof (HO i i) as H. rewrite Nat.eqb_refl in H.
      rewrite <- H by (destruct HV; lia).
      rewrite (rdot_sum n) by (eapply is_mat_row; eauto). reflexivity.
  - intros j Hj. rewrite (rdot_sum k) by (rewrite rmv_length; apply HV).
    apply rsum_ext. intros i Hi. rewrite nth_rmv, (rdot_comm _ (unit n j)).
    rewrite dot_unit; auto. eapply is_mat_row; eauto.
Qed.
Lemma unit_sq n j : (j < n)%nat -> rdot (unit n j) (unit n j) = 1.
Proof.
  intros Hj. rewrite dot_unit by (auto using unit_length).
  change (nth j (unit n j) 0) with (entry (reye n) j j). rewrite entry_eye, Nat.eqb_refl; auto.
Qed.
Lemma orthonormal_card k n V : is_mat k n V -> orthonormal V -> (k <= n)%nat.
Proof.
  intros HV HO. apply INR_le. rewrite <- (sum_coords_unit k n V HV HO).
  replace (INR n) with (rsum n (fun _ => 1)) by (rewrite rsum_const; lra).
  apply rsum_le. intros j Hj. rewrite <- (unit_sq n j Hj). apply (bessel k n); auto using unit_length.
Qed.
Lemma orthogonal_card k n V : is_mat k n V -> orthogonal_family V -> (k <= n)%nat.
Proof.
  intros HV [HO HP]. set (f := fun v => rscale (/ rnorm v) v).
  assert (HL : length V = k) by apply HV.
  apply (orthonormal_card k n (map f V)).
  - split; [now rewrite map_length|]. apply Forall_map. eapply Forall_impl; [|apply HV].
    intros v Hv. unfold f. now rewrite rscale_length.
  - intros i j Hi Hj. rewrite map_length in Hi, Hj.
    change ([] : rvec) with (f []) at 1 2. rewrite !map_nth. unfold f.
    rewrite rdot_rscale_l, rdot_rscale_r.
    destruct (Nat.eqb_spec i j) as [<-|Hne].
    + specialize (HP i Hi). pose proof (rnorm_pos _ HP) as Hp. rewrite <- rnorm_sq. field. lra.
    + rewrite HO by auto. ring.
Qed.
Lemma rsum_all_eq n f g : (forall i, (i < n)%nat -> f i <= g i) -> rsum n f = rsum n g ->
  forall i, (i < n)%nat -> f i = g i.
Proof.
  induction n; intros H E i Hi; [lia|]. simpl in E.
  assert (rsum n f <= rsum n g) by (apply rsum_le; intros; apply H; lia).
  pose proof (H n (Nat.lt_succ_diag_r n)).
  destruct (Nat.eq_dec i n) as [->|]; [lra|]. apply IHn; [intros; apply H; lia|lra|lia].
Qed.
(** n orthonormal vectors span *)
Lemma unit_complete n V j : is_mat n n V -> orthonormal V -> (j < n)%nat ->
  unit n j = rlincomb n (rmv V (unit n j)) V.
Proof.
  intros HV HO Hj.
  assert (E : rdot (rmv V (unit n j)) (rmv V (unit n j)) = 1).
  { apply (rsum_all_eq n (fun j => rdot (rmv V (unit n j)) (rmv V (unit n j))) (fun _ => 1)); auto.
    - intros i Hi. rewrite <- (unit_sq n i Hi). apply (bessel n n); auto using unit_length.
    - rewrite (sum_coords_unit n n) by auto. rewrite rsum_const. lra. }
  pose proof (bessel_identity n n V (unit n j) HV HO (unit_length n j Hj)) as B. cbv zeta in B.
  rewrite E, unit_sq in B by auto. replace (1 - 1) with 0 in B by lra.
  assert (HL : length (rlincomb n (rmv V (unit n j)) V) = n) by (apply rlincomb_length, HV).
  pose proof (unit_length n j Hj).
  apply rvec_ext; [congruence|]. intros i.
  pose proof (rdot_self_0 _ B i) as Z. rewrite nth_rsub in Z by congruence. lra.
Qed.
Lemma complete n V x : is_mat n n V -> orthonormal V -> length x = n ->
  x = rlincomb n (rmv V x) V.
Proof.
  intros HV HO Hx.
  assert (HL : length (rlincomb n (rmv V x) V) = n) by (apply rlincomb_length, HV).
  apply rvec_ext; [congruence|]. intros j. destruct (Nat.lt_ge_cases j n) as [Hj|Hj].
  - rewrite <- (dot_unit n j x), <- (dot_unit n j (rlincomb n (rmv V x) V)) by auto.
    rewrite (rdot_rlincomb n) by apply HV. rewrite (unit_complete n V j HV HO Hj) at 1.
    rewrite rdot_comm, (rdot_rlincomb n) by apply HV. apply rdot_comm.
  - rewrite !nth_overflow; auto; lia.
Qed.
Lemma parseval n V x y : is_mat n n V -> orthonormal V -> length x = n -> length y = n ->
  rdot x y = rdot (rmv V x) (rmv V y).
Proof.
  intros HV HO Hx Hy. rewrite (complete n V x HV HO Hx) at 1.
  rewrite rdot_comm, (rdot_rlincomb n) by apply HV. reflexivity.
Qed.
Lemma orthonormal_eye n : orthonormal (reye n).
Proof.
  intros i j Hi Hj. pose proof (is_mat_eye n) as [HL _]. rewrite HL in *.
  rewrite (dot_unit n i) by (auto; apply unit_length; auto).
  change (nth i (nth j (reye n) []) 0) with (entry (reye n) j i). rewrite entry_eye by auto.
  apply (f_equal (fun b : bool => if b then 1 else 0)), Nat.eqb_sym.
Qed.

(** eigenvectors *)
Definition eig_decomposition (n : nat) (B : rmat) (vals : rvec) (vecs : list rvec) : Prop :=
  length vals = n /\ is_mat n n vecs /\ orthonormal vecs
  /\ forall i, (i < n)%nat -> rmv B (nth i vecs []) = rscale (nth i vals 0) (nth i vecs []).

Lemma rlincomb_radd n c : forall d V, length c = length d -> Forall (fun r => length r = n) V ->
  rlincomb n (radd c d) V = radd (rlincomb n c V) (rlincomb n d V).
Proof.
  induction c as [|a c IH]; intros [|b d] V H HF; simpl in *; try lia.
  - change (repeat 0 n) with (rzeros n). apply rvec_ext.
    + rewrite radd_length; rewrite ?rzeros_length; auto.
    + intros i. rewrite nth_radd by auto. rewrite nth_rzeros. lra.
  - destruct V as [|v V].
    + change (repeat 0 n) with (rzeros n). apply rvec_ext.
      * rewrite radd_length; rewrite ?rzeros_length; auto.
      * intros i. rewrite nth_radd by auto. rewrite nth_rzeros. lra.
    + inversion HF; subst. rewrite IH by (auto; lia).
      assert (L1 : length (rlincomb (length v) c V) = length v) by now apply rlincomb_length.
      assert (L2 : length (rlincomb (length v) d V) = length v) by now apply rlincomb_length.
      apply rvec_ext.
      * rewrite !radd_length; rewrite ?rscale_length, ?radd_length; rewrite ?rscale_length; congruence.
      * intros i. rewrite !nth_radd, !nth_rscale; try lra; rewrite ?radd_length; rewrite ?rscale_length; congruence.
Qed.
Lemma rmv_rlincomb n A c : forall V, Forall (fun r => length r = n) V -> length A = n ->
  rmv A (rlincomb n c V) = rlincomb n c (map (rmv A) V).
Proof.
  induction c as [|a c IH]; intros [|v V] HF HA; simpl.
  1,2,3: change (repeat 0 n) with (rzeros n); apply rvec_ext;
    [rewrite rmv_length, rzeros_length; auto|intros i; rewrite nth_rmv, nth_rzeros; apply rdot_zeros_r].
  inversion HF; subst. rewrite rmv_radd by (rewrite rscale_length, rlincomb_length; auto).
  rewrite rmv_rscale, IH; auto.
Qed.
Lemma rlincomb_scaled n c d V : length c = length V -> length d = length V ->
  rlincomb n c (map (fun p => rscale (fst p) (snd p)) (combine d V)) = rlincomb n (map (fun p => fst p * snd p) (combine c d)) V.
Proof.
  revert c d. induction V as [|v V IH]; intros [|a c] [|b d] Hc Hd; simpl in *; try lia; auto.
  rewrite IH by lia. f_equal. unfold rscale. rewrite map_map. apply map_ext. intros z. ring.
Qed.
(** coordinates of B x in the eigenbasis *)
Lemma eig_coords n B vals vecs x i : is_mat n n B -> symmetric B -> eig_decomposition n B vals vecs ->
  length x = n -> (i < n)%nat ->
  rdot (nth i vecs []) (rmv B x) = nth i vals 0 * rdot (nth i vecs []) x.
Proof.
  intros HB HS (HL & HV & HO & HE) Hx Hi.
  assert (Hv : length (nth i vecs []) = n) by (eapply is_mat_row; eauto).
  change (rdot (nth i vecs []) (rmv B x)) with (rform B (nth i vecs []) x).
  rewrite (rform_sym n) by auto. unfold rform. rewrite HE by auto. rewrite rdot_rscale_r, (rdot_comm x). reflexivity.
Qed.
Lemma eig_form n B vals vecs x : is_mat n n B -> symmetric B -> eig_decomposition n B vals vecs -> length x = n ->
  rform B x x = rsum n (fun i => nth i vals 0 * (rdot (nth i vecs []) x * rdot (nth i vecs []) x)).
Proof.
  intros HB HS HD Hx. pose proof HD as (HL & HV & HO & HE). unfold rform.
  rewrite (parseval n vecs) by (auto; rewrite rmv_length; apply HB).
  rewrite (rdot_sum n) by (rewrite rmv_length; apply HV). apply rsum_ext. intros i Hi.
  rewrite !nth_rmv, (eig_coords n B vals vecs) by auto. ring.
Qed.
(** vectors with the same coordinates are equal *)
Lemma coords_inj n V x y : is_mat n n V -> orthonormal V -> length x = n -> length y = n ->
  (forall i, (i < n)%nat -> rdot (nth i V []) x = rdot (nth i V []) y) -> x = y.
Proof.
  intros HV HO Hx Hy H. rewrite (complete n V x), (complete n V y) by auto. f_equal.
  apply rvec_ext; [now rewrite !rmv_length|]. intros i. rewrite !nth_rmv.
  destruct (Nat.lt_ge_cases i n) as [Hi|Hi]; auto. destruct HV as [HVl _].
  rewrite nth_overflow by lia. reflexivity.
Qed.
