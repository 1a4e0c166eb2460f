(** C75: what singles out the updates of Broyden's good method and of SR1 among all matrices that satisfy the secant equation. *)
From Coq Require Import ZArith List Bool Reals Lra Lia Psatz.
From Verif Require Import Num Constants HessApprox ER RVec Quasi Prop_Quasi Prop_Textbook.
Import ListNotations.
Local Open Scope R_scope.

(** the square of the Frobenius norm *)
Definition fro2 (A : rmat) : R := rsum (length A) (fun i => rdot (nth i A []) (nth i A [])).

Lemma nth_rmscale c A i : nth i (rmscale c A) [] = rscale c (nth i A []).
Proof. unfold rmscale. change (@nil R) with (rscale c []) at 1. apply map_nth. Qed.
Lemma nth_rmsub A B i : length A = length B -> nth i (rmsub A B) [] = rsub (nth i A []) (nth i B []).
Proof. intros H. unfold rmsub, rsub. rewrite nth_rmadd, nth_rmscale; auto. unfold rmscale. now rewrite map_length. Qed.
Lemma nth_router u v i : (i < length u)%nat -> nth i (router u v) [] = rscale (nth i u 0) v.
Proof.
  intros H. unfold router. rewrite (nth_indep _ [] (rscale 0 v)) by (now rewrite map_length).
  exact (map_nth (fun a => rscale a v) u 0 i).
Qed.
Lemma fro2_nonneg A : 0 <= fro2 A.
Proof. apply rsum_nonneg. intros. apply rdot_self_nonneg. Qed.
Lemma rsum_zero n f : (forall i, (i < n)%nat -> 0 <= f i) -> rsum n f = 0 -> forall i, (i < n)%nat -> f i = 0.
Proof.
  intros H E i Hi. assert (HL : rsum n (fun j => if Nat.eqb j i then f i else 0) <= rsum n f).
  { apply rsum_le. intros j Hj. destruct (Nat.eqb_spec j i) as [->|]; auto. lra. }
  rewrite (rsum_single n _ i Hi) in HL.
  - rewrite Nat.eqb_refl in HL. specialize (H i Hi). lra.
  - intros j _ Hne. destruct (Nat.eqb_spec j i); congruence.
Qed.
Lemma fro2_zero n M B : is_mat n n M -> is_mat n n B -> fro2 (rmsub M B) = 0 -> M = B.
Proof.
  intros HM HB H. unfold fro2 in H. assert (L : length (rmsub M B) = n) by (apply (is_mat_msub n n); auto).
  rewrite L in H. pose proof (rsum_zero _ _ (fun i _ => rdot_self_nonneg _) H) as Z.
  apply (nth_ext M B [] []); [now rewrite (proj1 HM), (proj1 HB)|]. rewrite (proj1 HM). intros i Hi. specialize (Z i Hi). cbn in Z.
  pose proof (is_mat_row n n M i HM Hi) as L1. pose proof (is_mat_row n n B i HB Hi) as L2.
  rewrite nth_rmsub in Z by (rewrite (proj1 HM), (proj1 HB); auto).
  apply rvec_ext; [congruence|]. intros j. pose proof (rdot_self_0 _ Z j) as E. rewrite nth_rsub in E by congruence. lra.
Qed.

(** the matrix of Broyden's good method: Pythagoras, so it changes B least, and it alone does *)
Theorem C75_BG_pythagoras : forall n B D s y M', is_mat n n B -> length s = n -> length y = n -> nonzero s ->
  updated IBG B D s y M' ->
  rmv M' s = y
  /\ forall M, is_mat n n M -> rmv M s = y ->
     fro2 (rmsub M B) = fro2 (rmsub M' B) + fro2 (rmsub M M').
Proof.
  intros n B D s y M' HB Hs Hy Hns HM'. pose proof Hns as Hn2. apply nonzero_dot in Hns.
  destruct (C45_good_broyden n B D s y HB Hs Hy Hn2) as (B' & E & HB' & HS & _).
  unfold updated in HM'. rewrite E in HM'. apply fm_inj in HM'. subst B'. split; auto.
  set (z := rsub y (rmv B s)). assert (Hz : length z = n) by (unfold z; destruct HB as [HB _]; rlen).
  assert (EM : M' = rmadd B (rmscale (/ rdot s s) (router z s))).
  { apply fm_inj. rewrite <- E. unfold ih_update, holding, ih_mat. cbn [ih_kind ih_base hb_hess]. unfold bg_diff. cbv zeta.
    rewrite h_matvec, h_vsub, h_dot. fold z. rewrite h_outer, h_mdivs, h_madd by lra. reflexivity. }
  intros M HM HMs. unfold fro2.
  rewrite !(proj1 (is_mat_msub n n _ _ HM HB)), (proj1 (is_mat_msub n n _ _ HB' HB)), (proj1 (is_mat_msub n n _ _ HM HB')).
  rewrite <- rsum_plus. apply rsum_ext. intros i Hi.
  rewrite !nth_rmsub by (rewrite ?(proj1 HM), ?(proj1 HB), ?(proj1 HB'); auto).
  assert (LM : length (nth i M []) = n) by (apply (is_mat_row n n); auto).
  assert (LB : length (nth i B []) = n) by (apply (is_mat_row n n); auto).
  assert (LM' : length (nth i M' []) = n) by (apply (is_mat_row n n); auto).
  assert (ER : nth i M' [] = radd (nth i B []) (rscale (/ rdot s s) (rscale (nth i z 0) s))).
  { rewrite EM, nth_rmadd, nth_rmscale, nth_router; auto; try lia.
    unfold rmscale, router. rewrite !map_length. destruct HB as [HB _]. lia. }
  assert (Ez : nth i z 0 = rdot (nth i M []) s - rdot (nth i B []) s).
  { unfold z. rewrite nth_rsub, nth_rmv by (rewrite rmv_length; destruct HB as [HB _]; lia).
    rewrite <- (nth_rmv M s i). now rewrite HMs. }
  set (a := nth i M []) in *. set (b := nth i B []) in *. rewrite ER. set (k := / rdot s s * nth i z 0).
  assert (Ek : rscale (/ rdot s s) (rscale (nth i z 0) s) = rscale k s).
  { apply rvec_ext; [now rewrite !rscale_length|]. intros j. rewrite !nth_rscale. unfold k. ring. }
  rewrite Ek. clear Ek ER.
  assert (Lk : length (rscale k s) = n) by (rewrite rscale_length; auto).
  assert (Lr : length (radd b (rscale k s)) = n) by (rewrite radd_length; congruence).
  rewrite !rdot_rsub_r, !rdot_rsub_l by (rewrite ?rsub_length; congruence).
  rewrite !rdot_radd_r, !rdot_radd_l by congruence.
  rewrite ?rdot_rscale_r, ?rdot_rscale_l, ?rdot_rscale_r. rewrite ?(rdot_comm s a), ?(rdot_comm s b), ?(rdot_comm b a).
  assert (Hk : k * rdot s s = rdot a s - rdot b s) by (unfold k; rewrite <- Ez; field; lra).
  nra.
Qed.
Theorem C75_BG_least_change : forall n B D s y M' M, is_mat n n B -> length s = n -> length y = n -> nonzero s ->
  updated IBG B D s y M' -> is_mat n n M -> rmv M s = y -> M <> M' -> fro2 (rmsub M' B) < fro2 (rmsub M B).
Proof.
  intros n B D s y M' M HB Hs Hy Hns HU HM HMs Hne. destruct (C75_BG_pythagoras n B D s y M' HB Hs Hy Hns HU) as (_ & HP).
  rewrite (HP M HM HMs). assert (HM' : is_mat n n M').
  { destruct (C45_good_broyden n B D s y HB Hs Hy Hns) as (B' & E & HB' & _).
    unfold updated in HU. rewrite E in HU. apply fm_inj in HU. now subst B'. }
  pose proof (fro2_nonneg (rmsub M M')). destruct (Req_dec (fro2 (rmsub M M')) 0) as [Z|Z]; [|lra].
  elim Hne. now apply (fro2_zero n).
Qed.

(** SR1: the only matrix B + sigma v v^T that satisfies the secant equation *)
Theorem C75_SR1_unique : forall n B D s y sigma v, is_mat n n B -> length s = n -> length y = n -> length v = n ->
  let z := rsub y (rmv B s) in
  rdot z s <> 0 -> sr1_threshold s z <= Rabs (rdot z s) ->
  let M := rmadd B (rmscale sigma (router v v)) in
  rmv M s = y <-> updated ISR1 B D s y M.
Proof.
  intros n B D s y sigma v HB Hs Hy Hv z Hd Ht M.
  destruct (C44_secant n B D s y HB Hs Hy Hd Ht) as (B' & E & HB' & HS). unfold updated.
  split; [|intros H; rewrite E in H; apply fm_inj in H; now subst B'].
  intros HMs. rewrite E. f_equal.
  assert (Hz : length z = n) by (unfold z; destruct HB as [HB0 _]; rlen).
  assert (EB : B' = rmadd B (rmscale (/ rdot z s) (router z z))).
  { apply fm_inj. rewrite <- E. unfold ih_update, holding, ih_mat. cbn [ih_kind ih_base hb_hess]. unfold sr1_diff. cbv zeta.
    rewrite h_matvec, h_vsub, h_dot. fold z. rewrite sr1_test.
    destruct (Rleb_spec (sr1_threshold s z) (Rabs (rdot z s))); [|contradiction].
    rewrite h_outer, h_mdivs, h_madd by auto. reflexivity. }
  assert (HV : is_mat n n (rmscale sigma (router v v))) by (apply is_mat_mscale; rewrite <- Hv; apply is_mat_outer).
  assert (HZ : is_mat n n (rmscale (/ rdot z s) (router z z))) by (apply is_mat_mscale; rewrite <- Hz; apply is_mat_outer).
  assert (Ez : forall i, nth i z 0 = sigma * rdot v s * nth i v 0).
  { intros i. unfold z. rewrite <- HMs. unfold M. rewrite (rmv_madd n n), rmv_mscale, rmv_outer by auto.
    rewrite nth_rsub, nth_radd, !nth_rscale; [ring| |]; rewrite ?radd_length; rewrite ?rscale_length, ?rmv_length; destruct HB as [HB0 _]; lia. }
  assert (Ed : rdot z s = sigma * rdot v s * rdot v s).
  { replace z with (rscale (sigma * rdot v s) v); [now rewrite rdot_rscale_l|].
    apply rvec_ext; [rewrite rscale_length; congruence|]. intros i. now rewrite nth_rscale, Ez. }
  rewrite EB. unfold M. f_equal. apply (rmat_ext n n); auto. intros i j _ _. rewrite !entry_mscale, !entry_outer, !Ez, Ed.
  rewrite Ed in Hd. assert (sigma <> 0) by (intros ->; lra). assert (rdot v s <> 0) by (intros Z; rewrite Z in Hd; lra).
  field. auto.
Qed.
Example C75_ex : nonzero [1; 1]
  /\ rmv [[1; 2]; [3; 4]] [1; 1] = [3; 7] /\ (forall M', updated IBG [[1; 0]; [0; 1]] [] [1; 1] [3; 7] M' -> M' <> [[1; 2]; [3; 4]]).
Proof.
  split; [exists 0%nat; cbn; lra|]. split; [cbn; repeat f_equal; lra|].
  intros M' HU E. subst M'. unfold updated, ih_update, holding, ih_mat in HU. cbn [ih_kind ih_base hb_hess] in HU. unfold bg_diff in HU. cbv zeta in HU.
  rewrite h_matvec, h_vsub, h_dot, h_outer, h_mdivs, h_madd in HU by (cbn; lra). apply fm_inj in HU. cbn in HU. injection HU as H1 H2 H3 H4. lra.
Qed.
