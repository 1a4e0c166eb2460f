(** Linear algebra over real vectors (lists of reals) and matrices (lists of rows), and the
    correspondence with the model's operations on finite extended reals.
    The definitions of this file are the vocabulary in which the exact-arithmetic properties are
    stated; they do not mention the model. *)
From Coq Require Import ZArith List Bool Reals Lra Lia Psatz.
From Verif Require Import Num ER.
Import ListNotations.
Local Open Scope R_scope.

Notation rvec := (list R).
Notation rmat := (list (list R)).

Fixpoint rdot (a b : rvec) : R :=
  match a, b with x :: a', y :: b' => x * y + rdot a' b' | _, _ => 0 end.
Fixpoint radd (a b : rvec) : rvec :=
  match a, b with x :: a', y :: b' => (x + y) :: radd a' b' | _, _ => [] end.
Definition rscale (c : R) (v : rvec) : rvec := map (Rmult c) v.
Definition rsub (a b : rvec) : rvec := radd a (rscale (-1) b).
Definition rnorm (v : rvec) : R := sqrt (rdot v v).
(** A x *)
Definition rmv (A : rmat) (x : rvec) : rvec := map (fun r => rdot r x) A.
(** x^T A y *)
Definition rform (A : rmat) (x y : rvec) : R := rdot x (rmv A y).
(** entry i j *)
Definition entry (A : rmat) (i j : nat) : R := nth j (nth i A []) 0.
Definition is_mat (nr nc : nat) (A : rmat) : Prop :=
  length A = nr /\ Forall (fun r => length r = nc) A.
Definition symmetric (A : rmat) : Prop := forall i j, entry A i j = entry A j i.
Definition nonzero (x : rvec) : Prop := exists i, nth i x 0 <> 0.
Definition posdef (n : nat) (A : rmat) : Prop :=
  forall x, length x = n -> nonzero x -> 0 < rform A x x.
Definition possemidef (n : nat) (A : rmat) : Prop :=
  forall x, length x = n -> 0 <= rform A x x.
(** the quadratic model 1/2 x^T B x + g^T x *)
Definition qmodel (B : rmat) (g x : rvec) : R := / 2 * rform B x x + rdot g x.
(** sum of c_j * column_j *)
Fixpoint rlincomb (n : nat) (c : rvec) (cols : list rvec) : rvec :=
  match c, cols with
  | a :: c', col :: cols' => radd (rscale a col) (rlincomb n c' cols')
  | _, _ => repeat 0 n
  end.
Definition router (u v : rvec) : rmat := map (fun a => rscale a v) u.
Fixpoint rmadd (A B : rmat) : rmat :=
  match A, B with r :: A', q :: B' => radd r q :: rmadd A' B' | _, _ => [] end.
Definition rmscale (c : R) (A : rmat) : rmat := map (rscale c) A.
Definition rmsub (A B : rmat) : rmat := rmadd A (rmscale (-1) B).
Definition reye (n : nat) : rmat :=
  map (fun i => map (fun j => if Nat.eqb i j then 1 else 0) (seq 0 n)) (seq 0 n).
Definition rzeros (n : nat) : rvec := repeat 0 n.

(** *** finite sums *)
Fixpoint rsum (n : nat) (f : nat -> R) : R :=
  match n with O => 0 | S k => rsum k f + f k end.
Lemma rsum_ext n f g : (forall i, (i < n)%nat -> f i = g i) -> rsum n f = rsum n g.
Proof. induction n; intros H; simpl; auto. rewrite IHn, H; auto. Qed.
Lemma rsum_plus n f g : rsum n (fun i => f i + g i) = rsum n f + rsum n g.
Proof. induction n; simpl; try lra. Qed.
Lemma rsum_scal n c f : rsum n (fun i => c * f i) = c * rsum n f.
Proof. induction n; simpl; lra. Qed.
Lemma rsum_0 n : rsum n (fun _ => 0) = 0.
Proof. induction n; simpl; lra. Qed.
Lemma rsum_swap n m f : rsum n (fun i => rsum m (fun j => f i j)) = rsum m (fun j => rsum n (fun i => f i j)).
Proof.
  induction n; simpl.
  - now rewrite rsum_0.
  - now rewrite IHn, <- rsum_plus.
Qed.
Lemma rsum_S n f : rsum (S n) f = f 0%nat + rsum n (fun i => f (S i)).
Proof. induction n; simpl in *; lra. Qed.
Lemma rsum_nonneg n f : (forall i, (i < n)%nat -> 0 <= f i) -> 0 <= rsum n f.
Proof. induction n; intros H; simpl; try lra. pose proof (IHn (fun i Hi => H i (Nat.lt_lt_succ_r _ _ Hi))). pose proof (H n (Nat.lt_succ_diag_r n)). lra. Qed.
Lemma rsum_le n f g : (forall i, (i < n)%nat -> f i <= g i) -> rsum n f <= rsum n g.
Proof. induction n; intros H; simpl; try lra. pose proof (IHn (fun i Hi => H i (Nat.lt_lt_succ_r _ _ Hi))). pose proof (H n (Nat.lt_succ_diag_r n)). lra. Qed.
Lemma rsum_single n f k : (k < n)%nat -> (forall i, (i < n)%nat -> i <> k -> f i = 0) -> rsum n f = f k.
Proof.
  induction n; intros Hk H; [lia|]. simpl. destruct (Nat.eq_dec k n) as [->|Hn].
  - rewrite (rsum_ext n f (fun _ => 0)), rsum_0; [lra|]. intros i Hi. apply H; lia.
  - rewrite IHn, (H n); try lia; try lra. intros i Hi Hik. apply H; lia.
Qed.
Lemma rsum_const n c : rsum n (fun _ => c) = INR n * c.
Proof. induction n; [simpl; lra|]. rewrite S_INR. simpl. rewrite IHn. lra. Qed.

(** *** vectors *)
Lemma radd_length a : forall b, length a = length b -> length (radd a b) = length a.
Proof. induction a; intros [|y b] H; simpl in *; try lia. rewrite IHa; lia. Qed.
Lemma rscale_length c v : length (rscale c v) = length v.
Proof. apply map_length. Qed.
Lemma rsub_length a b : length a = length b -> length (rsub a b) = length a.
Proof. intros H. unfold rsub. apply radd_length. now rewrite rscale_length. Qed.
Lemma rmv_length A x : length (rmv A x) = length A.
Proof. apply map_length. Qed.
Lemma rzeros_length n : length (rzeros n) = n.
Proof. apply repeat_length. Qed.

Lemma nth_radd a : forall b i, length a = length b -> nth i (radd a b) 0 = nth i a 0 + nth i b 0.
Proof.
  induction a; intros [|y b] [|i] H; simpl in *; try lia; try lra.
  apply IHa. lia.
Qed.
Lemma nth_rscale c v i : nth i (rscale c v) 0 = c * nth i v 0.
Proof.
  unfold rscale. destruct (Nat.lt_ge_cases i (length v)).
  - rewrite (nth_indep _ 0 (c * 0)); [|now rewrite map_length]. apply map_nth.
  - rewrite !nth_overflow; try (rewrite ?map_length; lia). lra.
Qed.
Lemma nth_rsub a b i : length a = length b -> nth i (rsub a b) 0 = nth i a 0 - nth i b 0.
Proof. intros H. unfold rsub. rewrite nth_radd, nth_rscale; [lra|now rewrite rscale_length]. Qed.
Lemma nth_rzeros n i : nth i (rzeros n) 0 = 0.
Proof. unfold rzeros. revert i. induction n; intros [|i]; simpl; auto. Qed.
Lemma rvec_ext (a b : rvec) : length a = length b -> (forall i, nth i a 0 = nth i b 0) -> a = b.
Proof. intros H1 H2. apply (nth_ext _ _ 0 0); auto. Qed.

Lemma rdot_sum n a b : length a = n -> rdot a b = rsum n (fun i => nth i a 0 * nth i b 0).
Proof.
  revert n b. induction a as [|x a IH]; intros n b H; simpl in H; subst n.
  - reflexivity.
  - rewrite rsum_S. destruct b as [|y b]; simpl.
    + rewrite (rsum_ext _ _ (fun _ => 0)), rsum_0; [lra|]. intros i _. destruct i; lra.
    + now rewrite <- (IH (length a) b).
Qed.
Lemma rdot_comm a : forall b, rdot a b = rdot b a.
Proof. induction a; intros [|y b]; simpl; auto. rewrite IHa. lra. Qed.
Lemma rdot_nil_r a : rdot a [] = 0.
Proof. now destruct a. Qed.
Lemma rdot_radd_l a : forall b c, length a = length b -> rdot (radd a b) c = rdot a c + rdot b c.
Proof. induction a; intros [|y b] [|z c] H; simpl in *; try lia; try lra. rewrite IHa; try lia. lra. Qed.
Lemma rdot_radd_r a b c : length b = length c -> rdot a (radd b c) = rdot a b + rdot a c.
Proof. intros H. rewrite rdot_comm, rdot_radd_l; auto. rewrite (rdot_comm b), (rdot_comm c). lra. Qed.
Lemma rdot_rscale_l k a : forall b, rdot (rscale k a) b = k * rdot a b.
Proof. induction a; intros [|y b]; simpl; try lra. unfold rscale in IHa. rewrite IHa. lra. Qed.
Lemma rdot_rscale_r k a b : rdot a (rscale k b) = k * rdot a b.
Proof. rewrite rdot_comm, rdot_rscale_l, rdot_comm. lra. Qed.
Lemma rdot_rsub_l a b c : length a = length b -> rdot (rsub a b) c = rdot a c - rdot b c.
Proof. intros H. unfold rsub. rewrite rdot_radd_l, rdot_rscale_l; [lra|now rewrite rscale_length]. Qed.
Lemma rdot_rsub_r a b c : length b = length c -> rdot a (rsub b c) = rdot a b - rdot a c.
Proof. intros H. rewrite rdot_comm, rdot_rsub_l; auto. rewrite (rdot_comm b), (rdot_comm c). lra. Qed.
Lemma rdot_zeros_l n : forall b, rdot (rzeros n) b = 0.
Proof. induction n; intros [|y b]; simpl; auto. unfold rzeros in IHn. rewrite IHn. lra. Qed.
Lemma rdot_zeros_r a n : rdot a (rzeros n) = 0.
Proof. rewrite rdot_comm. apply rdot_zeros_l. Qed.
Lemma rdot_self_nonneg a : 0 <= rdot a a.
Proof. induction a; simpl; try lra. nra. Qed.
Lemma rdot_self_0 a : rdot a a = 0 -> forall i, nth i a 0 = 0.
Proof.
  induction a as [|x a IH]; simpl; intros H i.
  - now destruct i.
  - pose proof (rdot_self_nonneg a). assert (x = 0) by nra. assert (rdot a a = 0) by nra.
    destruct i; auto.
Qed.
Lemma nonzero_dot a : nonzero a <-> 0 < rdot a a.
Proof.
  split.
  - intros [i Hi]. pose proof (rdot_self_nonneg a) as H.
    destruct (Req_dec (rdot a a) 0) as [E|E]; [|lra]. exfalso. apply Hi. now apply rdot_self_0.
  - intros H.
    assert (D : (exists i, nth i a 0 <> 0) \/ forall i, nth i a 0 = 0).
    { clear H. induction a as [|x a IH].
      - right. intros [|i]; reflexivity.
      - destruct (Req_dec x 0) as [E|E].
        + destruct IH as [[i Hi]|IH].
          * left. exists (S i). exact Hi.
          * right. intros [|i]; simpl; auto.
        + left. exists 0%nat. exact E. }
    destruct D as [D|D]; auto. exfalso. rewrite (rdot_sum (length a)) in H by auto.
    rewrite (rsum_ext _ _ (fun _ => 0)), rsum_0 in H; [lra|]. intros i _. rewrite D. lra.
Qed.
Lemma nonzero_dec a : nonzero a \/ (forall i, nth i a 0 = 0).
Proof.
  destruct (Rle_lt_dec (rdot a a) 0) as [H|H].
  - right. apply rdot_self_0. pose proof (rdot_self_nonneg a). lra.
  - left. now apply nonzero_dot.
Qed.
Lemma all0_zeros a : (forall i, nth i a 0 = 0) -> a = rzeros (length a).
Proof. intros H. apply rvec_ext; [now rewrite rzeros_length|]. intros i. now rewrite H, nth_rzeros. Qed.
Lemma rnorm_sq a : rnorm a * rnorm a = rdot a a.
Proof. unfold rnorm. apply sqrt_sqrt, rdot_self_nonneg. Qed.
Lemma rnorm_nonneg a : 0 <= rnorm a.
Proof. apply sqrt_pos. Qed.
Lemma rnorm_pos a : 0 < rdot a a -> 0 < rnorm a.
Proof. apply sqrt_lt_R0. Qed.
Lemma rnorm_le a d : 0 <= d -> (rnorm a <= d <-> rdot a a <= d * d).
Proof.
  intros Hd. rewrite <- (rnorm_sq a). pose proof (rnorm_nonneg a). split; intros; nra.
Qed.
Lemma rnorm_lt a d : 0 <= d -> (rnorm a < d <-> rdot a a < d * d).
Proof.
  intros Hd. rewrite <- (rnorm_sq a). pose proof (rnorm_nonneg a). split; intros; nra.
Qed.
Lemma cauchy_schwarz a b : rdot a b * rdot a b <= rdot a a * rdot b b.
Proof.
  destruct (Nat.eq_dec (length a) (length b)) as [H|H].
  - destruct (Rle_lt_dec (rdot b b) 0) as [Hb|Hb].
    + assert (E : rdot b b = 0) by (pose proof (rdot_self_nonneg b); lra).
      rewrite (all0_zeros b (rdot_self_0 b E)), !rdot_zeros_r. lra.
    + set (t := rdot a b / rdot b b).
      pose proof (rdot_self_nonneg (rsub a (rscale t b))) as P.
      rewrite rdot_rsub_l, !rdot_rsub_r, !rdot_rscale_l, !rdot_rscale_r, (rdot_comm b a) in P
        by (rewrite ?rscale_length; auto).
      assert (Et : t * rdot b b = rdot a b) by (unfold t; field; lra).
      assert (P2 : 0 <= rdot a a - t * rdot a b) by nra.
      assert (t * rdot a b * rdot b b = rdot a b * rdot a b) by (rewrite <- Et; ring). nra.
  - (* different lengths: truncate *)
    revert b H. induction a as [|x a IH]; intros [|y b] H; simpl in *; try lia; try lra.
    + assert (H' : rdot a b * rdot a b <= rdot a a * rdot b b) by (apply IH; lia).
      pose proof (rdot_self_nonneg a) as Pa. pose proof (rdot_self_nonneg b) as Pb.
      assert (2 * (x * y) * rdot a b <= x * x * rdot b b + y * y * rdot a a).
      { assert (Q1 : 0 <= x * x * rdot b b) by (apply Rmult_le_pos; nra).
        assert (Q2 : 0 <= y * y * rdot a a) by (apply Rmult_le_pos; nra).
        destruct (Rle_dec ((x * y) * rdot a b) 0); [lra|].
        assert ((x*y*rdot a b) * (x*y*rdot a b) <= (x*x*rdot b b)*(y*y*rdot a a)).
        { replace ((x*y*rdot a b) * (x*y*rdot a b)) with ((x*x)*(y*y)*(rdot a b * rdot a b)) by ring.
          replace ((x*x*rdot b b)*(y*y*rdot a a)) with ((x*x)*(y*y)*(rdot a a * rdot b b)) by ring.
          apply Rmult_le_compat_l; auto. nra. }
        replace (2 * (x * y) * rdot a b) with (2 * (x * y * rdot a b)) by ring.
        revert H0 Q1 Q2 n. generalize (x * y * rdot a b) (x * x * rdot b b) (y * y * rdot a a).
        intros z p q Hz Hp Hq Hn. destruct (Rle_dec (2 * z) (p + q)); auto.
        assert ((p + q) * (p + q) < (2 * z) * (2 * z)) by nra.
        pose proof (Rle_0_sqr (p - q)) as Hs. unfold Rsqr in Hs. lra. }
      nra.
Qed.

(** *** matrices *)
Lemma nth_rmv A x i : nth i (rmv A x) 0 = rdot (nth i A []) x.
Proof.
  unfold rmv. destruct (Nat.lt_ge_cases i (length A)).
  - rewrite (nth_indep _ 0 ((fun r => rdot r x) [])); [|now rewrite map_length].
    now rewrite (map_nth (fun r => rdot r x)).
  - rewrite !nth_overflow; try (rewrite ?map_length; lia). reflexivity.
Qed.
Lemma is_mat_row nr nc A i : is_mat nr nc A -> (i < nr)%nat -> length (nth i A []) = nc.
Proof.
  intros [H1 H2] Hi. rewrite Forall_forall in H2. apply H2, nth_In. lia.
Qed.
Lemma rform_sum nr nc A x y : is_mat nr nc A -> length x = nr ->
  rform A x y = rsum nr (fun i => rsum nc (fun j => nth i x 0 * (entry A i j * nth j y 0))).
Proof.
  intros HA Hx. unfold rform. rewrite (rdot_sum nr) by auto. apply rsum_ext. intros i Hi.
  rewrite nth_rmv, (rdot_sum nc) by (eapply is_mat_row; eauto). now rewrite <- rsum_scal.
Qed.
Lemma rform_sym n A x y : is_mat n n A -> symmetric A -> length x = n -> length y = n ->
  rform A x y = rform A y x.
Proof.
  intros HA HS Hx Hy. rewrite !(rform_sum n n) by auto. rewrite rsum_swap.
  apply rsum_ext. intros i _. apply rsum_ext. intros j _. rewrite (HS j i). ring.
Qed.
Lemma rmv_radd A x y : length x = length y -> rmv A (radd x y) = radd (rmv A x) (rmv A y).
Proof.
  intros H. apply rvec_ext.
  - rewrite radd_length, !rmv_length; auto. now rewrite !rmv_length.
  - intros i. rewrite nth_radd by now rewrite !rmv_length. rewrite !nth_rmv. now apply rdot_radd_r.
Qed.
Lemma rmv_rscale A c x : rmv A (rscale c x) = rscale c (rmv A x).
Proof.
  apply rvec_ext.
  - now rewrite rscale_length, !rmv_length.
  - intros i. rewrite nth_rscale, !nth_rmv. apply rdot_rscale_r.
Qed.
Lemma rmv_rsub A x y : length x = length y -> rmv A (rsub x y) = rsub (rmv A x) (rmv A y).
Proof. intros H. unfold rsub. rewrite rmv_radd, rmv_rscale; auto. now rewrite rscale_length. Qed.
Lemma rform_radd_l A x y z : length x = length y -> rform A (radd x y) z = rform A x z + rform A y z.
Proof. apply rdot_radd_l. Qed.
Lemma rform_radd_r A x y z : length y = length z -> rform A x (radd y z) = rform A x y + rform A x z.
Proof.
  intros H. unfold rform. rewrite rmv_radd by auto. apply rdot_radd_r. now rewrite !rmv_length.
Qed.
Lemma rform_rscale_l A c x y : rform A (rscale c x) y = c * rform A x y.
Proof. apply rdot_rscale_l. Qed.
Lemma rform_rscale_r A c x y : rform A x (rscale c y) = c * rform A x y.
Proof. unfold rform. rewrite rmv_rscale. apply rdot_rscale_r. Qed.
Lemma rform_rsub_l A x y z : length x = length y -> rform A (rsub x y) z = rform A x z - rform A y z.
Proof. apply rdot_rsub_l. Qed.
Lemma rform_rsub_r A x y z : length y = length z -> rform A x (rsub y z) = rform A x y - rform A x z.
Proof.
  intros H. unfold rform. rewrite rmv_rsub by auto. apply rdot_rsub_r. now rewrite !rmv_length.
Qed.

Lemma rmadd_length A : forall B, length A = length B -> length (rmadd A B) = length A.
Proof. induction A; intros [|y B] H; simpl in *; try lia. rewrite IHA; lia. Qed.
Lemma nth_rmadd A : forall B i, length A = length B -> nth i (rmadd A B) [] = radd (nth i A []) (nth i B []).
Proof.
  induction A; intros [|y B] [|i] H; simpl in *; try lia; auto.
Qed.
Lemma is_mat_madd nr nc A B : is_mat nr nc A -> is_mat nr nc B -> is_mat nr nc (rmadd A B).
Proof.
  intros [H1 H2] [H3 H4]. split; [rewrite rmadd_length; congruence|].
  clear H1 H3 nr. revert B H4. induction H2; intros [|b B] H4; simpl; auto.
  inversion H4; subst. constructor; [rewrite radd_length; congruence|auto].
Qed.
Lemma is_mat_mscale nr nc c A : is_mat nr nc A -> is_mat nr nc (rmscale c A).
Proof.
  intros [H1 H2]. unfold rmscale. split; [now rewrite map_length|].
  apply Forall_map. eapply Forall_impl; [|exact H2]. intros r Hr. now rewrite rscale_length.
Qed.
Lemma is_mat_msub nr nc A B : is_mat nr nc A -> is_mat nr nc B -> is_mat nr nc (rmsub A B).
Proof. intros. apply is_mat_madd; auto. now apply is_mat_mscale. Qed.
Lemma is_mat_outer u v : is_mat (length u) (length v) (router u v).
Proof.
  unfold router. split; [now rewrite map_length|]. apply Forall_map, Forall_forall. intros a _. apply rscale_length.
Qed.
Lemma is_mat_eye n : is_mat n n (reye n).
Proof.
  unfold reye. split; [now rewrite map_length, seq_length|]. apply Forall_map, Forall_forall.
  intros i _. now rewrite map_length, seq_length.
Qed.
Lemma entry_madd nr nc A B i j : is_mat nr nc A -> is_mat nr nc B ->
  entry (rmadd A B) i j = entry A i j + entry B i j.
Proof.
  intros HA HB. unfold entry. rewrite nth_rmadd by (destruct HA, HB; congruence).
  apply nth_radd. destruct (Nat.lt_ge_cases i nr).
  - rewrite (is_mat_row nr nc A), (is_mat_row nr nc B); auto.
  - destruct HA, HB. rewrite !nth_overflow by lia. reflexivity.
Qed.
Lemma entry_mscale c A i j : entry (rmscale c A) i j = c * entry A i j.
Proof.
  unfold entry, rmscale. destruct (Nat.lt_ge_cases i (length A)).
  - rewrite (nth_indep _ [] (rscale c [])) by now rewrite map_length. rewrite map_nth. apply nth_rscale.
  - rewrite !(nth_overflow _ []) by (rewrite ?map_length; lia). destruct j; simpl; lra.
Qed.
Lemma entry_msub nr nc A B i j : is_mat nr nc A -> is_mat nr nc B ->
  entry (rmsub A B) i j = entry A i j - entry B i j.
Proof.
  intros HA HB. unfold rmsub. rewrite (entry_madd nr nc); auto. rewrite entry_mscale. lra.
  now apply is_mat_mscale.
Qed.
Lemma entry_outer u v i j : entry (router u v) i j = nth i u 0 * nth j v 0.
Proof.
  unfold entry, router. destruct (Nat.lt_ge_cases i (length u)).
  - rewrite (nth_indep _ [] (rscale 0 v)) by now rewrite map_length.
    rewrite (map_nth (fun a => rscale a v)). apply nth_rscale.
  - rewrite !(nth_overflow u) by lia. rewrite (nth_overflow (map _ u)) by (rewrite map_length; lia).
    destruct j; simpl; lra.
Qed.
Lemma entry_eye n i j : (i < n)%nat -> (j < n)%nat -> entry (reye n) i j = if Nat.eqb i j then 1 else 0.
Proof.
  intros Hi Hj. unfold entry, reye.
  set (F := fun i => map (fun j => if Nat.eqb i j then 1 else 0) (seq 0 n)).
  rewrite (nth_indep _ [] (F 0%nat)) by now rewrite map_length, seq_length.
  rewrite (map_nth F), seq_nth by auto. unfold F. simpl.
  set (G := fun j => if Nat.eqb i j then 1 else 0).
  rewrite (nth_indep _ 0 (G 0%nat)) by now rewrite map_length, seq_length.
  rewrite (map_nth G), seq_nth by auto. reflexivity.
Qed.
Lemma entry_oob nr nc A i j : is_mat nr nc A -> (nr <= i \/ nc <= j)%nat -> entry A i j = 0.
Proof.
  intros HA H. unfold entry. destruct (Nat.lt_ge_cases i nr).
  - destruct H; [lia|]. apply nth_overflow. rewrite (is_mat_row nr nc A); auto.
  - destruct HA. rewrite (nth_overflow A) by lia. now destruct j.
Qed.
Lemma rmv_madd nr nc A B x : is_mat nr nc A -> is_mat nr nc B ->
  rmv (rmadd A B) x = radd (rmv A x) (rmv B x).
Proof.
  intros HA HB. assert (HL : length A = length B) by (destruct HA, HB; congruence). apply rvec_ext.
  - rewrite radd_length, !rmv_length; rewrite ?rmadd_length; auto. now rewrite !rmv_length.
  - intros i. rewrite nth_radd by now rewrite !rmv_length. rewrite !nth_rmv, nth_rmadd by auto.
    apply rdot_radd_l. destruct (Nat.lt_ge_cases i nr).
    + rewrite (is_mat_row nr nc A), (is_mat_row nr nc B); auto.
    + destruct HA, HB. rewrite !nth_overflow by lia. reflexivity.
Qed.
Lemma rmv_mscale c A x : rmv (rmscale c A) x = rscale c (rmv A x).
Proof.
  unfold rmv, rmscale, rscale. rewrite !map_map. apply map_ext. intros r. apply (rdot_rscale_l c).
Qed.
Lemma rmv_msub nr nc A B x : is_mat nr nc A -> is_mat nr nc B ->
  rmv (rmsub A B) x = rsub (rmv A x) (rmv B x).
Proof.
  intros HA HB. unfold rmsub, rsub. rewrite (rmv_madd nr nc), rmv_mscale; auto. now apply is_mat_mscale.
Qed.
Lemma rmv_outer u v x : rmv (router u v) x = rscale (rdot v x) u.
Proof.
  unfold rmv, router, rscale. rewrite map_map. apply map_ext. intros a.
  fold (rscale a v). rewrite rdot_rscale_l. ring.
Qed.
Lemma rmv_eye n x : length x = n -> rmv (reye n) x = x.
Proof.
  intros Hx. apply rvec_ext.
  - rewrite rmv_length. destruct (is_mat_eye n). congruence.
  - intros i. rewrite nth_rmv. destruct (Nat.lt_ge_cases i n).
    + rewrite (rdot_sum n) by (eapply is_mat_row; eauto; apply is_mat_eye).
      rewrite (rsum_single n _ i); auto.
      * fold (entry (reye n) i i). rewrite entry_eye, Nat.eqb_refl; auto. lra.
      * intros j Hj Hne. fold (entry (reye n) i j). rewrite entry_eye; auto.
        destruct (Nat.eqb_spec i j); [congruence|lra].
    + rewrite (nth_overflow (reye n)); [|destruct (is_mat_eye n); lia]. simpl.
      rewrite nth_overflow; auto. lia.
Qed.
Lemma rform_madd nr nc A B x y : is_mat nr nc A -> is_mat nr nc B ->
  rform (rmadd A B) x y = rform A x y + rform B x y.
Proof.
  intros HA HB. unfold rform. rewrite (rmv_madd nr nc); auto. apply rdot_radd_r.
  rewrite !rmv_length. destruct HA, HB; congruence.
Qed.
Lemma rform_mscale c A x y : rform (rmscale c A) x y = c * rform A x y.
Proof. unfold rform. rewrite rmv_mscale. apply rdot_rscale_r. Qed.
Lemma rform_msub nr nc A B x y : is_mat nr nc A -> is_mat nr nc B ->
  rform (rmsub A B) x y = rform A x y - rform B x y.
Proof.
  intros HA HB. unfold rmsub. rewrite (rform_madd nr nc), rform_mscale; auto. lra. now apply is_mat_mscale.
Qed.
Lemma rform_outer u v x y : rform (router u v) x y = rdot x u * rdot v y.
Proof. unfold rform. rewrite rmv_outer, rdot_rscale_r. ring. Qed.
Lemma rform_eye n x y : length y = n -> rform (reye n) x y = rdot x y.
Proof. intros H. unfold rform. now rewrite rmv_eye. Qed.
Lemma rmat_ext nr nc A B : is_mat nr nc A -> is_mat nr nc B ->
  (forall i j, (i < nr)%nat -> (j < nc)%nat -> entry A i j = entry B i j) -> A = B.
Proof.
  intros HA HB H. apply (nth_ext _ _ [] []); [destruct HA, HB; congruence|].
  intros i Hi. destruct HA as [HA1 HA2]. rewrite HA1 in Hi. apply rvec_ext.
  - rewrite (is_mat_row nr nc A), (is_mat_row nr nc B); auto. now split.
  - intros j. destruct (Nat.lt_ge_cases j nc) as [Hj|Hj]; [now apply H|].
    fold (entry A i j). fold (entry B i j).
    rewrite (entry_oob nr nc A), (entry_oob nr nc B); auto. now split.
Qed.
Lemma symmetric_madd nr nc A B : is_mat nr nc A -> is_mat nr nc B -> symmetric A -> symmetric B ->
  symmetric (rmadd A B).
Proof. intros HA HB SA SB i j. rewrite !(entry_madd nr nc A B); auto. now rewrite SA, SB. Qed.
Lemma symmetric_mscale c A : symmetric A -> symmetric (rmscale c A).
Proof. intros SA i j. rewrite !entry_mscale. now rewrite SA. Qed.
Lemma symmetric_msub nr nc A B : is_mat nr nc A -> is_mat nr nc B -> symmetric A -> symmetric B ->
  symmetric (rmsub A B).
Proof. intros. apply (symmetric_madd nr nc); auto using is_mat_mscale, symmetric_mscale. Qed.
Lemma symmetric_outer u : symmetric (router u u).
Proof. intros i j. rewrite !entry_outer. ring. Qed.
Lemma symmetric_eye n : symmetric (reye n).
Proof.
  intros i j. pose proof (is_mat_eye n) as H.
  destruct (Nat.lt_ge_cases i n), (Nat.lt_ge_cases j n);
    try (rewrite !(entry_oob n n (reye n)); auto; lia).
  rewrite !entry_eye by auto. destruct (Nat.eqb_spec i j), (Nat.eqb_spec j i); congruence.
Qed.
Lemma posdef_eye n : posdef n (reye n).
Proof. intros x Hx Hn. rewrite rform_eye by auto. now apply nonzero_dot. Qed.

(** columns: S c *)
Lemma rlincomb_length n c : forall cols, Forall (fun r => length r = n) cols ->
  length (rlincomb n c cols) = n.
Proof.
  induction c; intros [|col cols] H; simpl; try apply repeat_length.
  inversion H; subst. rewrite radd_length, rscale_length; auto. now rewrite rscale_length, IHc.
Qed.
Lemma rdot_rlincomb n x c : forall cols, Forall (fun r => length r = n) cols ->
  rdot x (rlincomb n c cols) = rdot c (rmv cols x).
Proof.
  induction c as [|a c IH]; intros [|col cols] H; simpl; try apply rdot_zeros_r.
  inversion H; subst. rewrite rdot_radd_r, rdot_rscale_r, IH, (rdot_comm x col); auto.
  now rewrite rscale_length, rlincomb_length.
Qed.

(** *** correspondence with finite extended reals *)
Definition fv (v : rvec) : list ER := map Fin v.
Definition fm (A : rmat) : list (list ER) := map fv A.

Lemma fv_length v : length (fv v) = length v.
Proof. apply map_length. Qed.
Lemma fm_length A : length (fm A) = length A.
Proof. apply map_length. Qed.
Lemma vfinite_fv v : vfinite (fv v) = true.
Proof. induction v; simpl; auto. Qed.
Lemma vfinite_inv (v : list ER) : vfinite v = true -> exists r, v = fv r.
Proof.
  induction v as [|a v IH]; intros H.
  - now exists [].
  - simpl in H. apply andb_true_iff in H as [H1 H2]. destruct (IH H2) as [r ->].
    destruct a; try discriminate. now exists (r0 :: r).
Qed.
Lemma mfinite_inv (m : list (list ER)) : mfinite m = true -> exists A, m = fm A.
Proof.
  induction m as [|a m IH]; intros H.
  - now exists [].
  - simpl in H. apply andb_true_iff in H as [H1 H2]. destruct (IH H2) as [r ->].
    apply vfinite_inv in H1 as [r0 ->]. now exists (r0 :: r).
Qed.
Lemma fv_inj a : forall b, fv a = fv b -> a = b.
Proof. induction a; intros [|y b] H; try discriminate; auto. injection H as -> H. f_equal. now apply IHa. Qed.
Lemma fm_inj a : forall b, fm a = fm b -> a = b.
Proof. induction a; intros [|y b] H; try discriminate; auto. injection H as H1 H. f_equal. now apply fv_inj. now apply IHa. Qed.

Lemma h_vadd a : forall b, vadd (fv a) (fv b) = fv (radd a b).
Proof. induction a; intros [|y b]; simpl; auto. unfold vadd in *. simpl. now rewrite IHa. Qed.
Lemma h_vscale c v : vscale (Fin c) (fv v) = fv (rscale c v).
Proof. unfold vscale, fv, rscale. rewrite !map_map. now apply map_ext. Qed.
Lemma h_vscaler c v : vscaler (fv v) (Fin c) = fv (rscale c v).
Proof. unfold vscaler, fv, rscale. rewrite !map_map. apply map_ext. intros x. simpl. f_equal. ring. Qed.
Lemma h_vsub a : forall b, vsub (fv a) (fv b) = fv (rsub a b).
Proof.
  unfold rsub. induction a; intros [|y b]; simpl; auto. unfold vsub in *. simpl. rewrite IHa.
  unfold rscale. simpl. repeat f_equal. lra.
Qed.
Lemma h_vdivs v c : c <> 0 -> vdivs (fv v) (Fin c) = fv (rscale (/ c) v).
Proof.
  intros Hc. unfold vdivs, fv, rscale. rewrite !map_map. apply map_ext. intros x. simpl.
  destruct (Reqb_spec c 0); [contradiction|]. f_equal. unfold Rdiv. ring.
Qed.
Lemma h_vopp v : vopp (fv v) = fv (rscale (-1) v).
Proof. unfold vopp, fv, rscale. rewrite !map_map. apply map_ext. intros x. simpl. f_equal. ring. Qed.
Lemma h_vzeros n : vzeros n = fv (rzeros n).
Proof. unfold vzeros, rzeros, fv. induction n; [reflexivity|]. simpl. f_equal. exact IHn. Qed.
Lemma h_dot a : forall b, dot (fv a) (fv b) = Fin (rdot a b).
Proof.
  induction a; intros [|y b]; try reflexivity. unfold dot, vsum in *. simpl in *. rewrite IHa. reflexivity.
Qed.
Lemma h_norm a : norm (fv a) = Fin (rnorm a).
Proof.
  unfold norm. rewrite h_dot. simpl. pose proof (rdot_self_nonneg a).
  destruct (Rltb_spec (rdot a a) 0); [lra|reflexivity].
Qed.
Lemma h_matvec A x : matvec (fm A) (fv x) = fv (rmv A x).
Proof. unfold matvec, fm, fv, rmv. rewrite !map_map. apply map_ext. intros r. apply h_dot. Qed.
Lemma h_tmatvec A x : tmatvec (fm A) (fv x) = fv (rmv A x).
Proof. apply h_matvec. Qed.
Lemma h_lincomb n c : forall cols, lincomb n (fv c) (fm cols) = fv (rlincomb n c cols).
Proof.
  induction c as [|a c IH]; intros [|col cols]; try apply h_vzeros.
  simpl. rewrite IH, h_vscale, h_vadd. reflexivity.
Qed.
Lemma h_vecmat n x A : vecmat n (fv x) (fm A) = fv (rlincomb n x A).
Proof. apply h_lincomb. Qed.
Lemma h_outer u v : outer (fv u) (fv v) = fm (router u v).
Proof.
  unfold outer, fm, router. unfold fv at 2. rewrite !map_map. apply map_ext. intros a.
  exact (h_vscale a v).
Qed.
Lemma h_madd A : forall B, madd (fm A) (fm B) = fm (rmadd A B).
Proof. unfold madd. induction A; intros [|y B]; simpl; auto. rewrite IHA, h_vadd. reflexivity. Qed.
Lemma h_mscale c A : mscale (Fin c) (fm A) = fm (rmscale c A).
Proof. unfold mscale, fm, rmscale. rewrite !map_map. apply map_ext. intros r. apply h_vscale. Qed.
Lemma h_msub A : forall B, msub (fm A) (fm B) = fm (rmsub A B).
Proof.
  unfold msub, rmsub. induction A; intros [|y B]; simpl; auto. rewrite IHA, h_vsub. reflexivity.
Qed.
Lemma h_mdivs A c : c <> 0 -> mdivs (fm A) (Fin c) = fm (rmscale (/ c) A).
Proof. intros Hc. unfold mdivs, fm, rmscale. rewrite !map_map. apply map_ext. intros r. now apply h_vdivs. Qed.
Lemma h_mzeros A : mzeros_like (fm A) = fm (rmscale 0 A).
Proof.
  unfold mzeros_like, fm, rmscale. rewrite !map_map. apply map_ext. intros r.
  unfold fv, rscale. rewrite !map_map. apply map_ext. intros x. unfold n0. simpl. f_equal. ring.
Qed.
Lemma h_eye n : eye n = fm (reye n).
Proof.
  unfold eye, fm, reye. rewrite map_map. apply map_ext. intros i. unfold fv. rewrite map_map.
  apply map_ext. intros j. now destruct (Nat.eqb i j).
Qed.
Lemma h_nth i v : (i < length v)%nat -> nth i (fv v) NaN = Fin (nth i v 0).
Proof. intros H. unfold fv. rewrite (nth_indep _ NaN (Fin 0)) by now rewrite map_length. apply map_nth. Qed.
Lemma h_nth0 i v : nth i (fv v) (Fin 0) = Fin (nth i v 0).
Proof. apply map_nth. Qed.
Lemma h_all_zero v : vall_zero (fv v) = true <-> v = rzeros (length v).
Proof.
  unfold vall_zero, rzeros. induction v; simpl; [tauto|]. rewrite andb_true_iff, IHv. split.
  - intros [H1 H2]. destruct (Reqb_spec a 0); [|discriminate]. subst. now rewrite <- H2.
  - intros H. injection H as -> H. rewrite <- H at 1. split; auto. destruct (Reqb_spec 0 0); auto.
Qed.
Lemma h_all_zero_false v : vall_zero (fv v) = false <-> nonzero v.
Proof.
  split.
  - intros H. destruct (nonzero_dec v) as [|H0]; auto. apply all0_zeros in H0.
    apply h_all_zero in H0. congruence.
  - intros H. destruct (vall_zero (fv v)) eqn:E; auto. apply h_all_zero in E.
    destruct H as [i Hi]. rewrite E, nth_rzeros in Hi. contradiction.
Qed.

Lemma n0_fin : (n0 : ER) = Fin 0. Proof. reflexivity. Qed.
Lemma n1_fin : (n1 : ER) = Fin 1. Proof. reflexivity. Qed.
Lemma n2_fin : (n2 : ER) = Fin 2. Proof. reflexivity. Qed.
Lemma frac_fin p q : q <> 0%Z -> (nfrac p q : ER) = Fin (IZR p / IZR q).
Proof.
  intros H. unfold nfrac. simpl. destruct (Reqb_spec (IZR q) 0) as [E|]; auto.
  now apply eq_IZR_R0 in E.
Qed.
Lemma half_fin : (nhalf : ER) = Fin (/ 2).
Proof. unfold nhalf. rewrite frac_fin by lia. f_equal. lra. Qed.
Lemma spacing_fin : (spacing1 : ER) = Fin (/ IZR (2 ^ 52)).
Proof. unfold spacing1. rewrite frac_fin by lia. f_equal. unfold Rdiv. ring. Qed.

(** side goals about lengths *)
Ltac rlen :=
  first [ assumption | congruence
        | progress (rewrite ?rscale_length, ?rmv_length, ?rzeros_length); rlen
        | match goal with |- context [length (rsub ?a ?b)] => rewrite (rsub_length a b) by rlen end; rlen
        | match goal with |- context [length (radd ?a ?b)] => rewrite (radd_length a b) by rlen end; rlen ].
