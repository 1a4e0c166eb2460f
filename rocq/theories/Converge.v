(** Elementary inequalities behind the convergence of a trust region method (real analysis only; nothing of fides here
    except the quadratic model) *)
From Coq Require Import ZArith List Bool Reals Lra Lia Psatz.
From Verif Require Import ER RVec SubNd Prop_TwoD Region.
Import ListNotations.
Local Open Scope R_scope.

(** [F] is bounded by its first-order expansion up to L/2 |s|^2 (the gradient [G] is L-Lipschitz) *)
Definition smooth (n : nat) (L : R) (F : rvec -> R) (G : rvec -> rvec) : Prop :=
  forall x s, length x = n -> length s = n ->
    length (G x) = n /\ Rabs (F (radd x s) - F x - rdot (G x) s) <= L / 2 * rdot s s.
(** curvature of the matrix [B] is at most [M] *)
Definition curvature_le (n : nat) (M : R) (B : rmat) : Prop :=
  forall z, length z = n -> Rabs (rform B z z) <= M * rdot z z.

Lemma Rabs_le_inv a b : Rabs a <= b -> - b <= a <= b.
Proof. intros H. pose proof (Rle_abs a). pose proof (Rle_abs (- a)). rewrite Rabs_Ropp in *. lra. Qed.

Lemma cauchy_decrease n B g q delta M :
  length g = n -> curvature_le n M B -> 0 < M -> 0 < delta -> 0 < rnorm g ->
  (forall a, rnorm (rscale a g) <= delta -> q <= qmodel B g (rscale a g)) ->
  rnorm g / 2 * Rmin delta (rnorm g / M) <= - q.
Proof.
  intros Lg HB HM Hd Hg Ho.
  assert (Q : forall a, qmodel B g (rscale a g) <= / 2 * (a * a) * (M * (rnorm g * rnorm g)) + a * (rnorm g * rnorm g)).
  { intros a. unfold qmodel. rewrite rform_rscale_l, rform_rscale_r, rdot_rscale_r.
    pose proof (HB g Lg) as K. rewrite <- rnorm_sq in *. apply Rabs_le_inv in K. pose proof (Rle_0_sqr a) as Sa. unfold Rsqr in Sa.
    assert (a * a * rform B g g <= a * a * (M * (rnorm g * rnorm g))) by (apply Rmult_le_compat_l; lra). lra. }
  assert (Nm : forall a, rnorm (rscale a g) = Rabs a * rnorm g) by (intros; apply rnorm_rscale).
  set (N := rnorm g) in *.
  unfold Rmin. destruct (Rle_dec delta (N / M)) as [Hc|Hc].
  - assert (Hc' : delta * M <= N). { apply (Rmult_le_compat_r M) in Hc; [|lra]. unfold Rdiv in Hc. rewrite Rmult_assoc, Rinv_l in Hc; lra. }
    specialize (Ho (- (delta / N))). rewrite Nm, Rabs_Ropp, Rabs_right in Ho.
    2:{ apply Rle_ge. apply Rmult_le_pos; [lra|]. left. now apply Rinv_0_lt_compat. }
    assert (E : delta / N * N = delta) by (field; lra). rewrite E in Ho. specialize (Ho (Rle_refl _)).
    specialize (Q (- (delta / N))).
    assert (E2 : / 2 * (- (delta / N) * - (delta / N)) * (M * (N * N)) + - (delta / N) * (N * N) = / 2 * delta * (delta * M) - delta * N) by (field; lra).
    rewrite E2 in Q. assert (delta * (delta * M) <= delta * N) by (apply Rmult_le_compat_l; lra). lra.
  - specialize (Ho (- (/ M))). rewrite Nm, Rabs_Ropp, Rabs_right in Ho.
    2:{ apply Rle_ge. left. now apply Rinv_0_lt_compat. }
    assert (E : / M * N = N / M) by (unfold Rdiv; ring). rewrite E in Ho.
    assert (K : N / M <= delta) by lra. specialize (Ho K). specialize (Q (- (/ M))).
    assert (E2 : / 2 * (- / M * - / M) * (M * (N * N)) + - / M * (N * N) = - (N / 2 * (N / M))) by (field; lra).
    rewrite E2 in Q. lra.
Qed.

(** the same along a direction close to the gradient *)
Lemma cauchy_near n B g u q e delta M :
  length g = n -> length u = n -> rnorm u = 1 -> curvature_le n M B -> 0 < M -> 0 < delta -> 0 < rnorm g ->
  rnorm (rorth u g) <= e -> 2 * e <= rnorm g ->
  (forall a, Rabs a <= delta -> q <= qmodel B g (rscale a u)) ->
  3 / 4 * (rnorm g / 2 * Rmin delta (rnorm g / M)) <= - q.
Proof.
  intros Lg Lu Nu HB HM Hd Hg Ho He Hq. set (h := rdot u g).
  assert (Uu : rdot u u = 1) by (rewrite <- rnorm_sq, Nu; ring).
  assert (Hh : 3 / 4 * (rnorm g * rnorm g) <= h * h).
  { assert (K : rnorm (rorth u g) * rnorm (rorth u g) = rnorm g * rnorm g - h * h).
    { rewrite !rnorm_sq. unfold rorth. fold h. rewrite rdot_rsub_l, !rdot_rsub_r by rlen. rewrite !rdot_rscale_l, !rdot_rscale_r, Uu, (rdot_comm g u).
      fold h. ring. }
    pose proof (rnorm_nonneg (rorth u g)). nra. }
  set (g' := rscale h u). assert (Lg' : length g' = n) by (unfold g'; rlen).
  assert (Ng' : rnorm g' = Rabs h) by (unfold g'; rewrite rnorm_rscale, Nu; ring).
  assert (Ph : 0 < Rabs h). { apply Rabs_pos_lt. intros E. rewrite E in Hh. nra. }
  assert (K : rnorm g' / 2 * Rmin delta (rnorm g' / M) <= - q).
  { apply (cauchy_decrease n B g' q); auto; [lra|]. intros a Ha.
    assert (E : qmodel B g' (rscale a g') = qmodel B g (rscale (a * h) u)).
    { assert (E1 : rscale a g' = rscale (a * h) u) by (unfold g'; apply rvec_ext; [rlen|]; intros i; rewrite !nth_rscale; ring).
      rewrite E1. unfold qmodel. f_equal. rewrite !rdot_rscale_r. unfold g'. rewrite rdot_rscale_l, Uu, (rdot_comm g u). fold h. ring. }
    rewrite E. apply Hq. rewrite rnorm_rscale, Ng' in Ha. now rewrite Rabs_mult. }
  rewrite Ng' in K. set (b := Rabs h) in *.
  assert (Hb : 3 / 4 * (rnorm g * rnorm g) <= b * b). { unfold b. rewrite <- Rabs_mult, Rabs_pos_eq by nra. exact Hh. }
  set (N := rnorm g) in *. assert (Hle : 0 < / M) by now apply Rinv_0_lt_compat.
  eapply Rle_trans; [|exact K]. clear - Hb Ph Hg HM Hd Hle.
  assert (Bn : N * (3 / 4) <= b) by nra.
  unfold Rmin. destruct (Rle_dec delta (N / M)) as [H1|H1], (Rle_dec delta (b / M)) as [H2|H2].
  - nra.
  - assert (b / M < delta) by lra. assert (E : b / M = b * / M) by reflexivity. assert (E2 : N / M = N * / M) by reflexivity. rewrite E, E2 in *.
    assert (3 / 4 * (N * (N * / M)) <= b * (b * / M)) by nra.
    assert (3 / 4 * (N * delta) <= 3 / 4 * (N * (N * / M))) by nra. lra.
  - assert (E2 : N / M = N * / M) by reflexivity. rewrite E2 in *. assert (N * / M < delta) by lra. nra.
  - assert (E : b / M = b * / M) by reflexivity. assert (E2 : N / M = N * / M) by reflexivity. rewrite E, E2 in *. nra.
Qed.

(** agreement of the model and the function *)
Lemma model_error n L M F G B x w :
  smooth n L F G -> curvature_le n M B -> length x = n -> length w = n ->
  F (radd x w) - F x - qmodel B (G x) w <= (L + M) / 2 * rdot w w.
Proof.
  intros HF HB Lx Lw. destruct (HF x w Lx Lw) as [_ K]. pose proof (HB w Lw) as K2.
  apply Rabs_le_inv in K; apply Rabs_le_inv in K2. unfold qmodel. lra.
Qed.

Section Radius.
  (** a step no longer than [sigma] times the radius achieves [chi] times the decrease of the best step along the gradient *)
  Variables (chi sigma L M eps mu : R).
  Hypothesis Hchi : 0 < chi <= 1.
  Hypothesis Hsig : 1 <= sigma.
  Hypothesis HL : 0 <= L.
  Hypothesis HM : 0 < M.
  Hypothesis He : 0 < eps.
  Hypothesis Hmu : 0 < mu < 1.

  (** below this radius every step is successful *)
  Definition kappa : R := chi * (1 - mu) * eps / ((L + M) * (sigma * sigma)).
  Lemma sig2 : 1 <= sigma * sigma. Proof using Hsig. nra. Qed.
  Lemma kappa_pos : 0 < kappa.
  Proof using All.
    pose proof sig2. unfold kappa. apply Rmult_lt_0_compat; [apply Rmult_lt_0_compat; [apply Rmult_lt_0_compat; lra|lra]|].
    apply Rinv_0_lt_compat. apply Rmult_lt_0_compat; lra.
  Qed.
  Lemma kappa_eq : kappa * (sigma * sigma) * (L + M) = chi * (1 - mu) * eps.
  Proof using All. pose proof sig2. unfold kappa. field. split; lra. Qed.
  Lemma kappa_le : kappa <= eps / M.
  Proof using All.
    pose proof sig2 as S2. pose proof kappa_pos as Kp.
    apply (Rmult_le_reg_r (M * (L + M))); [apply Rmult_lt_0_compat; lra|].
    replace (eps / M * (M * (L + M))) with (eps * (L + M)) by (field; lra).
    assert (K : kappa * (L + M) <= chi * (1 - mu) * eps).
    { rewrite <- kappa_eq. apply Rmult_le_compat_r; [lra|]. nra. }
    assert (K2 : chi * (1 - mu) * eps <= eps).
    { assert (chi * (1 - mu) <= 1) by nra. rewrite <- (Rmult_1_l eps) at 2. apply Rmult_le_compat_r; lra. }
    replace (kappa * (M * (L + M))) with (M * (kappa * (L + M))) by ring.
    assert (M * (kappa * (L + M)) <= M * eps) by (apply Rmult_le_compat_l; lra). assert (0 <= L * eps) by (apply Rmult_le_pos; lra). lra.
  Qed.
  Lemma failure_bounds N pred delta nw :
    eps <= N -> 0 < delta -> 0 <= nw <= sigma * delta ->
    chi * (N / 2 * Rmin delta (N / M)) <= pred ->
    (1 - mu) * pred <= (L + M) / 2 * (nw * nw) ->
    kappa <= delta /\ kappa <= nw.
  Proof using All.
    intros HN Hd Hw Hp Hf.
    pose proof kappa_pos as Kp. pose proof kappa_eq as Ke. pose proof kappa_le as Kl. pose proof sig2 as S2.
    assert (Hm : eps / M <= N / M) by (apply Rmult_le_compat_r; [left; now apply Rinv_0_lt_compat|lra]).
    set (m := Rmin delta (eps / M)).
    assert (Hm' : m <= Rmin delta (N / M)) by (unfold m; apply Rmin_glb; [apply Rmin_l|eapply Rle_trans; [apply Rmin_r|exact Hm]]).
    assert (Pm : 0 < m) by (unfold m; apply Rmin_glb_lt; [lra|apply Rmult_lt_0_compat; [lra|now apply Rinv_0_lt_compat]]).
    assert (P2 : chi * (eps / 2 * m) <= pred).
    { eapply Rle_trans; [|exact Hp]. apply Rmult_le_compat_l; [lra|]. apply Rmult_le_compat; lra. }
    set (k0 := kappa * (sigma * sigma)) in *.
    assert (P3 : k0 * (L + M) * m <= (L + M) * (nw * nw)).
    { rewrite Ke. assert ((1 - mu) * (chi * (eps / 2 * m)) <= (1 - mu) * pred) by (apply Rmult_le_compat_l; lra). lra. }
    assert (P4 : k0 * m <= nw * nw).
    { apply (Rmult_le_reg_l (L + M)); [lra|]. lra. }
    assert (Kd : kappa <= delta).
    { destruct (Rle_dec delta (eps / M)) as [Hc|Hc].
      - assert (Em : m = delta) by (unfold m; now apply Rmin_left). rewrite Em in P4.
        assert (nw * nw <= (sigma * delta) * (sigma * delta)) by nra.
        assert (k0 * delta <= sigma * sigma * delta * delta) by lra.
        assert (K : kappa * (sigma * sigma * delta) <= delta * (sigma * sigma * delta)) by (unfold k0 in *; lra).
        apply (Rmult_le_reg_r (sigma * sigma * delta)); nra.
      - lra. }
    split; [exact Kd|].
    assert (Km : kappa <= m) by (unfold m; now apply Rmin_glb).
    assert (kappa * kappa <= nw * nw).
    { eapply Rle_trans; [|exact P4]. unfold k0. assert (kappa <= kappa * (sigma * sigma)) by nra. apply Rmult_le_compat; lra. }
    destruct (Rle_dec kappa nw) as [|Hc]; [auto|]. exfalso. assert (nw < kappa) by lra. nra.
  Qed.
End Radius.

(** counting successful (S) and unsuccessful (U) passes *)
Lemma count_failures (g1 g2 D0 Dm : R) (p q S U : nat) :
  0 < g1 < 1 -> 1 <= g2 -> 0 < D0 ->
  g2 * g1 ^ p <= 1 -> D0 * g1 ^ q < Dm ->
  Dm <= D0 * g2 ^ S * g1 ^ U -> (U < q + p * S)%nat.
Proof.
  intros H1 H2 H0 Hp Hq Hd. destruct (Nat.lt_ge_cases U (q + p * S)) as [|Hge]; auto. exfalso.
  assert (E : g1 ^ U <= g1 ^ q * (g1 ^ p) ^ S).
  { rewrite <- pow_mult, <- pow_add. 
    replace U with ((q + p * S) + (U - (q + p * S)))%nat by lia. rewrite pow_add.
    assert (0 < g1 ^ (q + p * S)) by (apply pow_lt; lra).
    assert (K : g1 ^ (U - (q + p * S)) <= 1). { rewrite <- (pow1 (U - (q + p * S))). apply pow_incr. lra. }
    rewrite <- (Rmult_1_r (g1 ^ (q + p * S))) at 2. apply Rmult_le_compat_l; lra. }
  assert (G2 : 0 < g2 ^ S) by (apply pow_lt; lra).
  assert (K : g2 ^ S * (g1 ^ p) ^ S <= 1).
  { rewrite <- Rpow_mult_distr. rewrite <- (pow1 S). apply pow_incr. split; [|exact Hp].
    apply Rmult_le_pos; [lra|]. apply pow_le. lra. }
  assert (Q : 0 < g1 ^ q) by (apply pow_lt; lra).
  assert (D0 * g2 ^ S * g1 ^ U <= D0 * g2 ^ S * (g1 ^ q * (g1 ^ p) ^ S)).
  { apply Rmult_le_compat_l; [|exact E]. apply Rmult_le_pos; lra. }
  assert (D0 * g2 ^ S * (g1 ^ q * (g1 ^ p) ^ S) <= D0 * g1 ^ q).
  { replace (D0 * g2 ^ S * (g1 ^ q * (g1 ^ p) ^ S)) with (D0 * g1 ^ q * (g2 ^ S * (g1 ^ p) ^ S)) by ring.
    rewrite <- (Rmult_1_r (D0 * g1 ^ q)) at 2. apply Rmult_le_compat_l; [|exact K]. apply Rmult_le_pos; lra. }
  lra.
Qed.
(** such p and q exist *)
Lemma pow_small g1 c : 0 < g1 < 1 -> 0 < c -> exists k : nat, g1 ^ k < c.
Proof.
  intros H Hc. destruct (pow_lt_1_zero g1) with (y := c) as (k & Hk); [rewrite Rabs_pos_eq; lra|lra|].
  exists k. specialize (Hk k (le_n _)). rewrite Rabs_pos_eq in Hk; [exact Hk|]. apply pow_le. lra.
Qed.
