(** Newton's method near a nondegenerate minimizer (real analysis only): a small specification and the error recursion *)
From Coq Require Import List Reals Lra Lia Psatz.
From Verif Require Import Num NumFacts Region  RVec SubNd RShess Ortho Prop_Grad Converge Prop_SubNd UnboundedFull Unbounded2D Prop_Quadratic.
Import ListNotations.
Local Open Scope R_scope.

(** [x] is a point at distance at most [rho] of [xs] *)
Definition near (n : nat) (xs : rvec) (rho : R) (x : rvec) : Prop := length x = n /\ rnorm (rsub x xs) <= rho.

(** [xs] is a nondegenerate minimizer of [F]: the gradient [G] vanishes there and, within distance [rho], the Hessians [H] have no
    eigenvalue below [m] > 0 and the second-order Taylor expansions of [F] and [G] are off by at most the cubic and quadratic terms
    that a Hessian with Lipschitz constant [K] allows *)
Record nondegenerate (n : nat) (F : rvec -> R) (G : rvec -> rvec) (H : rvec -> rmat) (xs : rvec) (m K rho : R) : Prop := mkNondeg {
  nd_len : length xs = n;
  nd_zero : G xs = rzeros n;
  nd_m : 0 < m;
  nd_K : 0 <= K;
  nd_rho : 0 < rho;
  nd_pos : forall x z, near n xs rho x -> length z = n -> m * rdot z z <= rform (H x) z z;
  nd_grad : forall x y, near n xs rho x -> near n xs rho y ->
    rnorm (rsub (G y) (radd (G x) (rmv (H x) (rsub y x)))) <= K / 2 * rnorm (rsub y x) ^ 2;
  nd_val : forall x y, near n xs rho x -> near n xs rho y ->
    Rabs (F y - F x - qmodel (H x) (G x) (rsub y x)) <= K / 6 * rnorm (rsub y x) ^ 3
}.

(** a positive definite matrix with an eigendecomposition is invertible *)
Lemma eig_solves n B vals vecs g : (0 < n)%nat -> is_mat n n B -> symmetric B -> posdef n B -> eig_decomposition n B vals vecs -> length g = n ->
  exists l, length l = n /\ rmv B l = g.
Proof.
  intros Hn MB SB PB HD Lg. pose proof HD as (HL & HV & HO & HE).
  set (c := map2 (fun a e => a / e) (rmv vecs g) vals).
  assert (Lm : length (rmv vecs g) = n) by (rewrite rmv_length; apply HV).
  assert (Lc : length c = n) by (unfold c; rewrite map2_len'; congruence).
  exists (rlincomb n c vecs). assert (Ll : length (rlincomb n c vecs) = n) by (apply rlincomb_length, HV). split; [exact Ll|].
  apply (coords_inj n vecs); auto; [rewrite rmv_length; apply MB|]. intros i Hi.
  rewrite (eig_coords n B vals vecs) by auto.
  rewrite <- (nth_rmv vecs (rlincomb n c vecs)), (coords_of_lincomb n) by auto.
  unfold c. rewrite (nth_map2 _ 0 0) by congruence. rewrite nth_rmv. field.
  set (v := nth i vecs []) in *. assert (Lv : length v = n) by (eapply is_mat_row; eauto).
  assert (U : rdot v v = 1). { unfold v. rewrite HO by (destruct HV as [-> _]; auto). now rewrite Nat.eqb_refl. }
  assert (P : 0 < rform B v v) by (apply PB; [exact Lv|apply nonzero_dot; lra]).
  unfold rform in P. unfold v in *. rewrite HE in P by auto. rewrite rdot_rscale_r, U in P. lra.
Qed.
Lemma one_solves B g : is_mat 1 1 B -> posdef 1 B -> length g = 1%nat -> exists l, length l = 1%nat /\ rmv B l = g.
Proof.
  intros [H1 H2] PB Lg. destruct B as [|r [|]]; try discriminate. apply Forall_inv in H2. destruct r as [|h [|]]; try discriminate.
  destruct g as [|g0 [|]]; try discriminate. specialize (PB [1] eq_refl ltac:(exists 0%nat; cbn; lra)). unfold rform, rmv, rdot in PB. cbn in PB.
  exists [g0 / h]. split; [reflexivity|]. unfold rmv, rdot. cbn. f_equal. field. lra.
Qed.

Section Local.
  Variables (n : nat) (F : rvec -> R) (G : rvec -> rvec) (H : rvec -> rmat) (xs : rvec) (m K rho : R).
  Hypothesis ND : nondegenerate n F G H xs m K rho.
  Hypothesis HH : forall x, length x = n -> length (G x) = n /\ is_mat n n (H x) /\ symmetric (H x).
  Local Notation near := (near n xs rho).
  Definition err (x : rvec) : R := rnorm (rsub x xs).

  Lemma near_posdef x : near x -> posdef n (H x).
  Proof using ND.
    intros Hx z Lz Hz. pose proof (nd_pos _ _ _ _ _ _ _ _ ND x z Hx Lz) as P. pose proof (nd_m _ _ _ _ _ _ _ _ ND). 
    assert (0 < rdot z z) by now apply nonzero_dot. nra.
  Qed.

  (** the error is squared *)
  Lemma newton_error x s : near x -> length s = n -> rmv (H x) s = rscale (-1) (G x) -> m * err (radd x s) <= K / 2 * err x ^ 2.
  Proof using ND HH.
    intros Hx Ls Es. pose proof (nd_len _ _ _ _ _ _ _ _ ND) as Lxs. pose proof (proj1 Hx) as Lx.
    destruct (HH x Lx) as (LG & MH & SH). pose proof (nd_m _ _ _ _ _ _ _ _ ND) as Hm.
    assert (Hnx : near xs).
    { split; [exact Lxs|]. assert (E : rsub xs xs = rzeros n) by (apply rvec_ext; [rewrite rzeros_length; rlen|]; intros i; rewrite nth_rsub, nth_rzeros by rlen; ring).
      rewrite E. unfold rnorm. rewrite rdot_zeros_l, sqrt_0. pose proof (nd_rho _ _ _ _ _ _ _ _ ND). lra. }
    pose proof (nd_grad _ _ _ _ _ _ _ _ ND x xs Hx Hnx) as T. rewrite (nd_zero _ _ _ _ _ _ _ _ ND) in T.
    set (r := rsub (rzeros n) (radd (G x) (rmv (H x) (rsub xs x)))) in *. set (e' := rsub (radd x s) xs).
    assert (Lx1 : length (radd x s) = n) by rlen. assert (Le : length e' = n) by (unfold e'; rlen).
    assert (Hr : rmv (H x) e' = r).
    { assert (Ee : e' = radd s (rscale (-1) (rsub xs x))) by (unfold e'; apply rvec_ext; [rlen|]; intros i; rewrite nth_rsub, !nth_radd, nth_rscale, nth_rsub by rlen; ring).
      assert (Ld : length (rsub xs x) = n) by rlen.
      rewrite Ee, rmv_radd by rlen. rewrite Es, rmv_rscale. unfold r.
      assert (L1 : length (rmv (H x) (rsub xs x)) = n) by (rewrite rmv_length; apply MH).
      assert (L0 : length (rzeros n) = n) by apply rzeros_length. assert (LH : length (H x) = n) by apply MH.
      apply rvec_ext; [rlen|]. intros i. rewrite nth_rsub, !nth_radd, !nth_rscale, nth_rzeros by rlen. ring. }
    assert (Sy : rnorm (rsub xs x) = err x).
    { unfold err. assert (E : rsub xs x = rscale (-1) (rsub x xs)) by (apply rvec_ext; [rlen|]; intros i; rewrite nth_rscale, !nth_rsub by rlen; ring).
      rewrite E, rnorm_rscale. replace (Rabs (-1)) with 1 by (rewrite Rabs_left; lra). ring. }
    rewrite Sy in T. pose proof (nd_pos _ _ _ _ _ _ _ _ ND x e' Hx Le) as P. unfold rform in P. rewrite Hr in P.
    rewrite <- (rnorm_sq e') in P. pose proof (dot_le e' r) as D. pose proof (Rle_abs (rdot e' r)).
    pose proof (rnorm_nonneg e') as Ne. pose proof (rnorm_nonneg r) as Nr. unfold err. fold e'. fold (err x).
    destruct (Req_dec (rnorm e') 0) as [E0|E0]; [rewrite E0; lra|].
    apply (Rmult_le_reg_r (rnorm e')); nra.
  Qed.

  (** the Newton step *)
  Section Step.
    Variables (x s : rvec).
    Hypothesis Hx : near x.
    Hypothesis Ls : length s = n.
    Hypothesis Es : rmv (H x) s = rscale (-1) (G x).
    Hypothesis Hq : K / (2 * m) * err x <= / 2.
    Lemma newton_halves : err (radd x s) <= err x / 2.
    Proof using All.
      pose proof (newton_error x s Hx Ls Es) as T. pose proof (nd_m _ _ _ _ _ _ _ _ ND) as Hm. pose proof (rnorm_nonneg (rsub x xs)) as Ne. fold (err x) in Ne.
      apply (Rmult_le_reg_l m); [exact Hm|]. eapply Rle_trans; [exact T|].
      replace (K / 2 * err x ^ 2) with (m * err x * (K / (2 * m) * err x)) by (field; lra). 
      assert (0 <= m * err x) by (apply Rmult_le_pos; lra). nra.
    Qed.
    Lemma newton_near : near (radd x s).
    Proof using All.
      pose proof newton_halves as T. pose proof (proj1 Hx) as Lx. split; [rlen|]. unfold err in T. pose proof (rnorm_nonneg (rsub x xs)). pose proof (proj2 Hx). lra.
    Qed.
    Lemma newton_length : err x / 2 <= rnorm s <= 3 / 2 * err x.
    Proof using All.
      pose proof newton_halves as T. pose proof (nd_len _ _ _ _ _ _ _ _ ND) as Lxs. pose proof (proj1 Hx) as Lx. assert (Lx1 : length (radd x s) = n) by rlen.
      assert (E1 : rsub x xs = radd (rsub (radd x s) xs) (rscale (-1) s)) by (apply rvec_ext; [rlen|]; intros i; rewrite nth_radd, nth_rscale, !nth_rsub, nth_radd by rlen; ring).
      assert (E2 : s = radd (rsub (radd x s) xs) (rscale (-1) (rsub x xs))) by (apply rvec_ext; [rlen|]; intros i; rewrite nth_radd, nth_rscale, !nth_rsub, nth_radd by rlen; ring).
      assert (Lr : length (rsub (radd x s) xs) = n) by rlen. assert (Lr2 : length (rsub x xs) = n) by rlen.
      pose proof (rnorm_triangle (rsub (radd x s) xs) (rscale (-1) s) ltac:(rlen)) as T1. rewrite <- E1, rnorm_rscale in T1.
      pose proof (rnorm_triangle (rsub (radd x s) xs) (rscale (-1) (rsub x xs)) ltac:(rlen)) as T2. rewrite <- E2, rnorm_rscale in T2.
      replace (Rabs (-1)) with 1 in * by (rewrite Rabs_left; lra). unfold err in *. lra.
    Qed.
    Lemma newton_model : qmodel (H x) (G x) s = - (/ 2) * rform (H x) s s /\ m * rnorm s ^ 2 <= rform (H x) s s.
    Proof using All.
      split.
      - unfold qmodel. rewrite (rdot_comm (G x) s). unfold rform. rewrite Es, rdot_rscale_r. lra.
      - pose proof (nd_pos _ _ _ _ _ _ _ _ ND x s Hx Ls) as P. rewrite <- rnorm_sq in P. replace (rnorm s ^ 2) with (rnorm s * rnorm s) by ring. exact P.
    Qed.
    (** the quotient of actual and predicted decrease *)
    Lemma newton_ratio : 0 < rnorm s -> Rabs ((F x - F (radd x s)) / (- qmodel (H x) (G x) s) - 1) <= K * rnorm s / (3 * m).
    Proof using All.
      intros Hs. destruct newton_model as [M1 M2]. pose proof (nd_m _ _ _ _ _ _ _ _ ND) as Hm. pose proof (nd_K _ _ _ _ _ _ _ _ ND) as HK.
      assert (Lx : length x = n) by apply Hx. assert (Lx1 : length (radd x s) = n) by rlen.
      pose proof (nd_val _ _ _ _ _ _ _ _ ND x (radd x s) Hx newton_near) as V.
      assert (E : rsub (radd x s) x = s) by (apply rvec_ext; [rlen|]; intros i; rewrite nth_rsub, nth_radd by rlen; ring). rewrite E in V.
      set (Q := rform (H x) s s) in *. assert (HQ : m * rnorm s ^ 2 <= Q) by exact M2. assert (0 < m * rnorm s ^ 2) by (apply Rmult_lt_0_compat; [lra|apply pow_lt; lra]).
      rewrite M1 in *. set (d := F (radd x s) - F x - - / 2 * Q) in *.
      replace ((F x - F (radd x s)) / (- (- / 2 * Q)) - 1) with (- d * / (/ 2 * Q)) by (unfold d; field; lra).
      rewrite Rabs_mult, Rabs_Ropp, (Rabs_pos_eq (/ (/ 2 * Q))) by (left; apply Rinv_0_lt_compat; lra).
      apply (Rmult_le_reg_r (/ 2 * Q)); [lra|]. rewrite Rmult_assoc, Rinv_l, Rmult_1_r by lra.
      eapply Rle_trans; [exact V|].
      replace (K / 6 * rnorm s ^ 3) with (K * rnorm s / (3 * m) * (/ 2 * (m * rnorm s ^ 2))) by (field; lra).
      apply Rmult_le_compat_l; [|lra]. apply Rmult_le_pos; [apply Rmult_le_pos; lra|left; apply Rinv_0_lt_compat; lra].
    Qed.
  End Step.

  (** the model is minimized on a ball containing the Newton step by the Newton step only *)
  Lemma newton_unique x l w : length x = n -> posdef n (H x) -> length l = n -> length w = n -> rmv (H x) l = G x ->
    qmodel (H x) (G x) w <= qmodel (H x) (G x) (rscale (-1) l) -> w = rscale (-1) l.
  Proof using HH.
    intros Lx PH Ll Lw El Hle. destruct (HH x Lx) as (LG & MH & SH).
    set (z := radd w l). assert (Lz : length z = n) by (unfold z; rlen).
    assert (Ew : w = radd (rscale (-1) l) z) by (unfold z; apply rvec_ext; [rlen|]; intros i; rewrite !nth_radd, nth_rscale by rlen; ring).
    assert (Zz : z = rzeros n).
    { apply (form_0 n (H x) PH); [exact Lz|]. rewrite Ew in Hle. unfold qmodel in Hle.
      rewrite rform_radd_l, !rform_radd_r, rdot_radd_r in Hle by rlen.
      rewrite !rform_rscale_l, !rform_rscale_r, rdot_rscale_r, (rform_sym n (H x) z l) in Hle by auto.
      assert (E1 : rdot (G x) z = rform (H x) l z) by (rewrite <- El; rewrite (rdot_comm _ z); fold (rform (H x) z l); now apply (rform_sym n)).
      lra. }
    rewrite Ew, Zz. apply rvec_ext; [rewrite radd_length; rewrite ?rzeros_length; rlen|]. intros i. rewrite nth_radd, nth_rzeros by (rewrite ?rzeros_length; rlen). ring.
  Qed.
End Local.
