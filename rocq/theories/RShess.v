(** The scaled Hessian D H D + diag(gd) and scaled gradient over the reals *)
From Coq Require Import ZArith List Bool Reals Lra Lia Psatz.
From Verif Require Import Num Constants Subproblem Steps ER NumFacts RVec SubNd.
Import ListNotations.
Local Open Scope R_scope.

(** elementwise product *)
Definition rmul (a b : rvec) : rvec := map2 Rmult a b.
Definition rabsv (a : rvec) : rvec := map Rabs a.
Definition rshess (n : nat) (D : rvec) (H : rmat) (gd : rvec) : rmat :=
  map (fun i => map (fun j => nth i D 0 * entry H i j * nth j D 0 + (if Nat.eqb i j then nth i gd 0 else 0))
                    (seq 0 n)) (seq 0 n).

Lemma h_vmul a : forall b, vmul (fv a) (fv b) = fv (rmul a b).
Proof. induction a as [|x a IH]; intros [|y b]; try reflexivity. unfold vmul, fv, rmul in *. cbn [map map2]. f_equal. apply IH. Qed.
Lemma h_vabs a : vabs (fv a) = fv (rabsv a).
Proof. unfold vabs, fv, rabsv. now rewrite !map_map. Qed.
Lemma rmul_length a b n : length a = n -> length b = n -> length (rmul a b) = n.
Proof. intros H1 H2. unfold rmul. rewrite map2_len' by lia. auto. Qed.
Lemma rabsv_length a : length (rabsv a) = length a.
Proof. apply map_length. Qed.
Lemma nth_rmul a b n i : length a = n -> length b = n -> nth i (rmul a b) 0 = nth i a 0 * nth i b 0.
Proof.
  revert b n i. induction a as [|x a IH]; intros [|y b] n i Ha Hb; simpl in *; subst; try discriminate.
  - destruct i; simpl; lra.
  - destruct i; auto. simpl. eapply IH; eauto.
Qed.
Lemma nth_rabsv a i : nth i (rabsv a) 0 = Rabs (nth i a 0).
Proof. unfold rabsv. rewrite <- Rabs_R0 at 1. apply map_nth. Qed.

Lemma mapi_from_map {A B} (f : nat -> A -> B) (d : A) : forall l k,
  mapi_from f k l = map (fun i => f (k + i)%nat (nth i l d)) (seq 0 (length l)).
Proof.
  induction l as [|a l IH]; intros k; simpl; auto. rewrite Nat.add_0_r. f_equal.
  rewrite IH, <- seq_shift, map_map. apply map_ext. intros i. f_equal. lia.
Qed.
Lemma mapi_map {A B} (f : nat -> A -> B) (d : A) l :
  mapi f l = map (fun i => f i (nth i l d)) (seq 0 (length l)).
Proof. unfold mapi. now rewrite (mapi_from_map f d). Qed.

Lemma h_shess n D H gd : is_mat n n H ->
  shess_of (fv D) (fm H) (fv gd) = fm (rshess n D H gd).
Proof.
  intros [LH FH]. unfold shess_of. rewrite (mapi_map _ []), fm_length, LH.
  unfold rshess, fm. rewrite map_map. apply map_ext_in. intros i Hi. apply in_seq in Hi.
  rewrite (mapi_map _ (Fin 0)).
  match goal with |- _ = fv ?l => change (fv l) with (map Fin l) end. rewrite map_map.
  assert (Er : nth i (map fv H) [] = fv (nth i H [])) by (change (@nil ER) with (fv []); apply map_nth).
  rewrite Er, fv_length. rewrite Forall_forall in FH. rewrite FH by (apply nth_In; lia).
  apply map_ext. intros j. change (n0 : ER) with (Fin 0). rewrite !h_nth0. unfold entry.
  destruct (Nat.eqb i j); reflexivity.
Qed.
Lemma is_mat_rshess n D H gd : is_mat n n (rshess n D H gd).
Proof.
  unfold rshess. split; [now rewrite map_length, seq_length|]. apply Forall_forall. intros r Hr.
  apply in_map_iff in Hr as (i & <- & _). now rewrite map_length, seq_length.
Qed.
Lemma nth_map_seq {A} (f : nat -> A) d n i : (i < n)%nat -> nth i (map f (seq 0 n)) d = f i.
Proof.
  intros H. rewrite (nth_indep _ d (f 0%nat)) by (rewrite map_length, seq_length; lia).
  rewrite map_nth, seq_nth by lia. reflexivity.
Qed.
Lemma entry_rshess n D H gd i j : (i < n)%nat -> (j < n)%nat ->
  entry (rshess n D H gd) i j = nth i D 0 * entry H i j * nth j D 0 + (if Nat.eqb i j then nth i gd 0 else 0).
Proof. intros Hi Hj. unfold entry at 1, rshess. now rewrite nth_map_seq, nth_map_seq by auto. Qed.
Lemma symmetric_rshess n D H gd : symmetric H -> symmetric (rshess n D H gd).
Proof.
  intros HS i j. destruct (le_lt_dec n i) as [Hi|Hi]; [|destruct (le_lt_dec n j) as [Hj|Hj]].
  - rewrite !(entry_oob n n) by (auto using is_mat_rshess). reflexivity.
  - rewrite !(entry_oob n n) by (auto using is_mat_rshess). reflexivity.
  - rewrite !entry_rshess by auto. rewrite (HS i j), (Nat.eqb_sym j i).
    destruct (Nat.eqb_spec i j); [subst|]; ring.
Qed.
Lemma rform_rshess n D H gd z : is_mat n n H -> length D = n -> length z = n ->
  rform (rshess n D H gd) z z = rform H (rmul D z) (rmul D z) + rsum n (fun i => nth i gd 0 * (nth i z 0 * nth i z 0)).
Proof.
  intros HH HD Hz. rewrite (rform_sum n n) by (auto using is_mat_rshess).
  rewrite (rform_sum n n H) by (auto using rmul_length).
  rewrite <- rsum_plus. apply rsum_ext. intros i Hi.
  rewrite (rsum_ext n _ (fun j => nth i (rmul D z) 0 * (entry H i j * nth j (rmul D z) 0)
            + (if Nat.eqb i j then nth i gd 0 * (nth i z 0 * nth i z 0) else 0))).
  - rewrite rsum_plus. f_equal.
    rewrite (rsum_single n _ i); [now rewrite Nat.eqb_refl|exact Hi|].
    intros j Hj Hne. destruct (Nat.eqb_spec i j); congruence.
  - intros j Hj. rewrite entry_rshess by auto. rewrite !(nth_rmul D z n) by auto.
    destruct (Nat.eqb_spec i j); [subst|]; ring.
Qed.
Lemma rdot_rmul n D g z : length D = n -> length g = n -> length z = n ->
  rdot (rmul D g) z = rdot g (rmul D z).
Proof.
  intros H1 H2 H3. rewrite !(rdot_sum n) by (auto using rmul_length). apply rsum_ext. intros i _.
  rewrite !(nth_rmul _ _ n) by auto. ring.
Qed.
(** the scaled model at z is the model of the unscaled step D z, plus the scaling's curvature *)
Lemma scaled_model n D H gd g z : is_mat n n H -> length D = n -> length g = n -> length z = n ->
  qmodel (rshess n D H gd) (rmul D g) z
  = qmodel H g (rmul D z) + / 2 * rsum n (fun i => nth i gd 0 * (nth i z 0 * nth i z 0)).
Proof.
  intros HH HD Hg Hz. unfold qmodel. rewrite rform_rshess, (rdot_rmul n) by auto. lra.
Qed.
