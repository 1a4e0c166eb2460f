(** Real-arithmetic counterpart of the update formulas of hessian_approximation.py and the algebra
    behind C40-C51 (lemmas; the properties are in Prop_Quasi.v) *)
From Coq Require Import ZArith List Bool Reals Lra Lia Psatz.
From Verif Require Import Num Constants HessApprox ER RVec.
Import ListNotations.
Local Open Scope R_scope.

(** y y^T / b - u u^T / c + phi c v v^T,  u = m s, b = y.s, c = u.s, v = y/b - u/c *)
Definition rbroyden (y s : rvec) (m : rmat) (phi : R) : rmat :=
  let u := rmv m s in
  let c := rdot u s in
  let b := rdot y s in
  let v := rsub (rscale (/ b) y) (rscale (/ c) u) in
  rmadd (rmsub (rmscale (/ b) (router y y)) (rmscale (/ c) (router u u)))
        (rmscale (phi * c) (router v v)).

Section Broyden.
  Variables (n : nat) (m : rmat) (y s : rvec) (phi : R).
  Hypothesis Hm : is_mat n n m.
  Hypothesis Hy : length y = n.
  Hypothesis Hs : length s = n.
  Let u := rmv m s.
  Let c := rdot u s.
  Let b := rdot y s.
  Let v := rsub (rscale (/ b) y) (rscale (/ c) u).

  Lemma u_length : length u = n.
  Proof. unfold u. rewrite rmv_length. apply Hm. Qed.
  Lemma v_length : length v = n.
  Proof. unfold v. rewrite rsub_length, rscale_length; auto. now rewrite !rscale_length, u_length. Qed.
  Lemma mats : is_mat n n (rmscale (/ b) (router y y)) /\ is_mat n n (rmscale (/ c) (router u u))
               /\ is_mat n n (rmscale (phi * c) (router v v)).
  Proof.
    pose proof u_length. pose proof v_length.
    split; [|split]; apply is_mat_mscale; [rewrite <- Hy|rewrite <- H|rewrite <- H0]; apply is_mat_outer.
  Qed.
  Lemma is_mat_rbroyden : is_mat n n (rbroyden y s m phi).
  Proof. destruct mats as (H1 & H2 & H3). apply is_mat_madd; auto. now apply is_mat_msub. Qed.
  Lemma is_mat_new : is_mat n n (rmadd m (rbroyden y s m phi)).
  Proof. apply is_mat_madd; auto. apply is_mat_rbroyden. Qed.

  Lemma rbroyden_form x z : rform (rbroyden y s m phi) x z =
    / b * (rdot x y * rdot y z) - / c * (rdot x u * rdot u z) + phi * c * (rdot x v * rdot v z).
  Proof.
    destruct mats as (H1 & H2 & H3). unfold rbroyden. cbv zeta. fold u. fold c. fold b. fold v.
    rewrite (rform_madd n n), (rform_msub n n), !rform_mscale, !rform_outer; auto. now apply is_mat_msub.
  Qed.
  Lemma rbroyden_secant : b <> 0 -> c <> 0 -> rmv (rmadd m (rbroyden y s m phi)) s = y.
  Proof.
    intros Hb Hc. destruct mats as (H1 & H2 & H3). pose proof u_length as Hu. pose proof v_length as Hv.
    rewrite (rmv_madd n n) by (auto using is_mat_rbroyden).
    unfold rbroyden. cbv zeta. fold u. fold c. fold b. fold v.
    rewrite (rmv_madd n n), (rmv_msub n n), !rmv_mscale, !rmv_outer by (auto using is_mat_msub).
    fold b. fold c.
    assert (Evs : rdot v s = 0).
    { unfold v. rewrite rdot_rsub_l, !rdot_rscale_l by (rewrite !rscale_length; congruence).
      fold b. fold c. field. auto. }
    rewrite Evs. apply rvec_ext.
    - rlen.
    - intros i. rewrite nth_radd, nth_radd, nth_rsub, !nth_rscale
        by rlen.
      field. auto.
  Qed.

  Hypothesis Hsym : symmetric m.
  Lemma rbroyden_symmetric : symmetric (rmadd m (rbroyden y s m phi)).
  Proof.
    destruct mats as (H1 & H2 & H3).
    apply (symmetric_madd n n); auto using is_mat_rbroyden.
    apply (symmetric_madd n n); auto using is_mat_msub, symmetric_mscale, symmetric_outer.
    apply (symmetric_msub n n); auto using symmetric_mscale, symmetric_outer.
  Qed.

  (** Cauchy-Schwarz in the inner product of m *)
  Lemma form_cs x : posdef n m -> length x = n -> nonzero s ->
    rdot x u * rdot x u <= c * rform m x x
    /\ (rdot x u * rdot x u = c * rform m x x -> exists t, x = rscale t s).
  Proof.
    intros Hpd Hx Hns.
    assert (Hc : 0 < c) by (unfold c, u; rewrite rdot_comm; apply Hpd; auto).
    set (t := rdot x u / c). set (w := rsub x (rscale t s)).
    assert (Hw : length w = n) by (unfold w; rlen).
    assert (Ew : rform m w w = rform m x x - rdot x u * rdot x u / c).
    { unfold w. rewrite rform_rsub_l, !rform_rsub_r, !rform_rscale_l, !rform_rscale_r
        by rlen.
      rewrite (rform_sym n m s x) by auto.
      change (rform m x s) with (rdot x u).
      replace (rform m s s) with c by (unfold c, u, rform; apply rdot_comm).
      unfold t. field. lra. }
    destruct (nonzero_dec w) as [Hnw|Hnw].
    - assert (0 < rform m w w) by (apply Hpd; auto).
      assert (rdot x u * rdot x u = c * (rdot x u * rdot x u / c)) by (field; lra).
      assert (c * (rdot x u * rdot x u / c) < c * rform m x x) by (apply Rmult_lt_compat_l; lra).
      split; [lra|]. intros. lra.
    - assert (E0 : rform m w w = 0).
      { rewrite (all0_zeros w Hnw). unfold rform. now rewrite rdot_zeros_l. }
      assert (rdot x u * rdot x u = c * rform m x x).
      { rewrite E0 in Ew. assert (rform m x x = rdot x u * rdot x u / c) by lra. rewrite H. field. lra. }
      split; [lra|]. intros _. exists t. apply rvec_ext; [rewrite rscale_length; congruence|].
      intros i. specialize (Hnw i). unfold w in Hnw. rewrite nth_rsub in Hnw by (rewrite rscale_length; congruence). lra.
  Qed.

  Lemma rbroyden_posdef : posdef n m -> nonzero s -> 0 < b -> 0 <= phi <= 1 ->
    posdef n (rmadd m (rbroyden y s m phi)).
  Proof.
    intros Hpd Hns Hb Hphi x Hx Hnx.
    assert (Hc : 0 < c) by (unfold c, u; rewrite rdot_comm; apply Hpd; auto).
    pose proof u_length as Hu. pose proof v_length as Hv.
    rewrite (rform_madd n n) by (auto using is_mat_rbroyden). rewrite rbroyden_form.
    destruct (form_cs x Hpd Hx Hns) as [CS CSeq].
    pose proof (Hpd x Hx Hnx) as Hpx.
    rewrite (rdot_comm y x), (rdot_comm u x), (rdot_comm v x).
    assert (Hbi : 0 < / b) by now apply Rinv_0_lt_compat.
    assert (Hci : 0 < / c) by now apply Rinv_0_lt_compat.
    assert (T1 : 0 <= rform m x x - / c * (rdot x u * rdot x u)).
    { assert (/ c * (rdot x u * rdot x u) <= / c * (c * rform m x x)) by (apply Rmult_le_compat_l; lra).
      replace (/ c * (c * rform m x x)) with (rform m x x) in H by (field; lra). lra. }
    assert (T2 : 0 <= / b * (rdot x y * rdot x y)) by (apply Rmult_le_pos; [lra|apply Rle_0_sqr]).
    assert (T3 : 0 <= phi * c * (rdot x v * rdot x v)).
    { apply Rmult_le_pos; [apply Rmult_le_pos; lra|apply Rle_0_sqr]. }
    destruct (Req_dec (rdot x u * rdot x u) (c * rform m x x)) as [E|E].
    - destruct (CSeq E) as [t Et].
      assert (Ht : t <> 0).
      { intros ->. destruct Hnx as [i Hi]. rewrite Et, nth_rscale in Hi. lra. }
      assert (Exy : rdot x y = t * b) by (rewrite Et, rdot_rscale_l; unfold b; now rewrite (rdot_comm s y)).
      assert (0 < / b * (rdot x y * rdot x y)).
      { apply Rmult_lt_0_compat; auto. rewrite Exy. assert (t * b <> 0) by (apply Rmult_integral_contrapositive; lra).
        apply Rsqr_pos_lt in H. unfold Rsqr in H. lra. }
      lra.
    - assert (0 < rform m x x - / c * (rdot x u * rdot x u)).
      { assert (/ c * (rdot x u * rdot x u) < / c * (c * rform m x x)) by (apply Rmult_lt_compat_l; lra).
        replace (/ c * (c * rform m x x)) with (rform m x x) in H by (field; lra). lra. }
      lra.
  Qed.
End Broyden.

(** *** the code computes this formula on finite inputs *)
Lemma rmscale_0_add n m D : is_mat n n m -> is_mat n n D -> rmadd D (rmscale 0 m) = D.
Proof.
  intros Hm HD. apply (rmat_ext n n); auto. apply is_mat_madd; auto. now apply is_mat_mscale.
  intros i j _ _. rewrite (entry_madd n n), entry_mscale; auto. lra. now apply is_mat_mscale.
Qed.
Lemma rmadd_zero n m D : is_mat n n m -> is_mat n n D -> rmadd m (rmscale 0 D) = m.
Proof.
  intros Hm HD. apply (rmat_ext n n); auto. apply is_mat_madd; auto. now apply is_mat_mscale.
  intros i j _ _. rewrite (entry_madd n n), entry_mscale; auto. lra. now apply is_mat_mscale.
Qed.
Lemma rmadd_sub n A B : is_mat n n A -> is_mat n n B -> rmadd A (rmsub B A) = B.
Proof.
  intros HA HB. apply (rmat_ext n n); auto. apply is_mat_madd; auto. now apply is_mat_msub.
  intros i j _ _. rewrite (entry_madd n n), (entry_msub n n); auto. lra. now apply is_mat_msub.
Qed.

Lemma h_broyden n y s m phi enforce : is_mat n n m -> length y = n -> length s = n ->
  rdot y s <> 0 -> rdot (rmv m s) s <> 0 ->
  (0 < rdot y s \/ enforce = false) ->
  broyden_class_update (fv y) (fv s) (fm m) (Fin phi) enforce = fm (rbroyden y s m phi).
Proof.
  intros Hm Hy Hs Hb Hc Hg. unfold broyden_class_update, rbroyden. cbv zeta.
  rewrite h_matvec, !h_dot. cbn [nleb ERNum er_leb n0 nofZ].
  assert (Eg : Rleb (rdot y s) 0 && enforce = false).
  { destruct Hg as [Hg| ->]; [|apply andb_false_r]. destruct (Rleb_spec (rdot y s) 0); [lra|reflexivity]. }
  rewrite Eg. rewrite !h_outer, !h_mdivs, !h_vdivs, !h_msub, !h_vsub by auto.
  cbn [neqb ERNum er_eqb nmul er_mul].
  destruct (Reqb_spec phi 0) as [->|Hphi]; cbn [negb].
  - f_equal. rewrite Rmult_0_l.
    set (u := rmv m s). set (v := rsub _ _).
    assert (Hu : length u = n) by (unfold u; rewrite rmv_length; apply Hm).
    symmetry. apply (rmscale_0_add n).
    + assert (Hv : length v = n)
        by (unfold v; rlen).
      rewrite <- Hv. apply is_mat_outer.
    + apply is_mat_msub; apply is_mat_mscale; [rewrite <- Hy|rewrite <- Hu]; apply is_mat_outer.
  - rewrite h_outer, h_mscale, h_madd. reflexivity.
Qed.
Lemma h_broyden_guard y s m phi : rdot y s <= 0 ->
  broyden_class_update (fv y) (fv s) (fm m) phi true = fm (rmscale 0 m).
Proof.
  intros Hb. unfold broyden_class_update. cbv zeta.
  rewrite h_matvec, !h_dot. cbn [nleb ERNum er_leb n0 nofZ].
  destruct (Rleb_spec (rdot y s) 0); [|lra]. cbn [andb]. apply h_mzeros.
Qed.
