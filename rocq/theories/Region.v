(** Candidate steps and the trust region (exact arithmetic): finite candidates, NaN candidates *)
From Coq Require Import String ZArith List Bool Reals Lra Lia Psatz.
From Verif Require Import Num Subproblem Steps TrustRegion ER NumFacts RVec SubNd RShess Argmin Cand StepFacts Prop_Sub1d Prop_Pred Prop_Box Prop_Cand RealStep Prop_Grad.
Import ListNotations.
Local Open Scope R_scope.
Local Open Scope list_scope.

Lemma rnorm_triangle a b : length a = length b -> rnorm (radd a b) <= rnorm a + rnorm b.
Proof.
  intros Hl. pose proof (rnorm_nonneg a) as Na. pose proof (rnorm_nonneg b) as Nb.
  apply rnorm_le; [lra|]. rewrite rdot_radd_l, !rdot_radd_r by auto. rewrite (rdot_comm b a).
  pose proof (rnorm_sq a). pose proof (rnorm_sq b). pose proof (cauchy_schwarz a b).
  assert (rdot a b <= rnorm a * rnorm b).
  { destruct (Rle_dec (rdot a b) 0); [nra|].
    assert (0 <= rnorm a * rnorm b) by nra.
    apply Rsqr_incr_0; [|lra|lra]. unfold Rsqr. nra. }
  nra.
Qed.
Lemma rnorm_rscale t a : rnorm (rscale t a) = Rabs t * rnorm a.
Proof.
  unfold rnorm. rewrite rdot_rscale_l, rdot_rscale_r.
  replace (t * (t * rdot a a)) with (Rsqr t * rdot a a) by (unfold Rsqr; ring).
  rewrite sqrt_mult; [|apply Rle_0_sqr|apply rdot_self_nonneg]. now rewrite sqrt_Rsqr_abs.
Qed.
(** the ball is convex *)
Lemma ball_segment z w a rho : length z = length w -> 0 <= a <= 1 -> rnorm z <= rho -> rnorm (radd z w) <= rho ->
  rnorm (radd z (rscale a w)) <= rho.
Proof.
  intros Hl Ha H0 H1.
  replace (radd z (rscale a w)) with (radd (rscale (1 - a) z) (rscale a (radd z w))).
  2:{ apply rvec_ext; [rewrite !radd_length; rewrite ?rscale_length, ?radd_length; auto|].
      intros i. rewrite !nth_radd; rewrite ?rscale_length, ?radd_length; auto.
      rewrite !nth_rscale, nth_radd by auto. ring. }
  eapply Rle_trans; [apply rnorm_triangle; rewrite ?rscale_length, ?radd_length; auto|].
  rewrite !rnorm_rscale, !Rabs_pos_eq by lra. nra.
Qed.

Section Region.
  Variables (O : StepOracles ER) (n : nat) (x g : rvec) (H : rmat) (D dv : rvec) (delta theta : R) (lb ub : list ER).
  Hypothesis P : problem n x g H D dv delta theta lb ub.
  Local Notation A := (rA x g H D dv delta theta lb ub).
  Local Notation B := (rB n g H D dv).
  Local Notation sg := (rsg g D).
  Local Notation box c := (boxed A theta c).

  Lemma A_theta : a_theta A = Fin theta. Proof. reflexivity. Qed.
  Lemma th01 : 0 <= theta <= 1. Proof. destruct P. lra. Qed.
  Lemma A_len : length (a_x A) = length (a_sg A).
  Proof. rewrite rA_sg, fv_length, (rsg_length n x g H D dv delta theta lb ub P). change (a_x A) with (fv x). rewrite fv_length. apply (pb_x _ _ _ _ _ _ _ _ _ _ P). Qed.
  Lemma nth_out {X} (l : list X) i d : (length l <= i)%nat -> nth i l d = d.
  Proof. intros. now apply nth_overflow. Qed.
  Lemma box_nan y : length y = n -> box_in n lb ub y -> forall i, nan_or_within (nth i lb NaN) (nth i ub NaN) (nth i (fv y) NaN).
  Proof.
    intros Hy Hb i. destruct (Nat.lt_ge_cases i n) as [Hi|Hi].
    - right. rewrite h_nth by lia. exact (Hb i Hi).
    - left. apply nth_out. rewrite fv_length. lia.
  Qed.
  Lemma nan_box y : length y = n -> (forall i, nan_or_within (nth i lb NaN) (nth i ub NaN) (nth i (fv y) NaN)) -> box_in n lb ub y.
  Proof. intros Hy Hb i Hi. destruct (Hb i) as [E|E]; rewrite h_nth in E by lia; [discriminate|exact E]. Qed.
  Lemma A_box : forall i, nan_or_within (nth i (a_lb A) NaN) (nth i (a_ub A) NaN) (nth i (a_x A) NaN).
  Proof. destruct P. now apply box_nan. Qed.

  (** a candidate all of whose numbers are finite and whose full step stays in the ball of radius rho *)
  Definition fcand (rho : R) (c : step ER) (w z : rvec) : Prop :=
    box c /\ length w = n /\ length z = n /\ st_og_ss c = fv w /\ st_ss0 c = fv z
    /\ (exists os z0, length os = n /\ length z0 = n /\ st_og_s c = fv os /\ st_s0 c = fv z0)
    /\ st_ss c = vscaler (st_og_ss c) (st_alpha c)
    /\ rnorm z <= rho /\ rnorm (radd z w) <= rho.
  (** a candidate whose step is NaN throughout *)
  Definition ncand (c : step ER) : Prop :=
    box c /\ st_alpha c = n1 /\ length (st_ss c) = n /\ Forall (fun v => v = NaN) (st_ss c).

  Lemma fcand_alpha rho c w z : fcand rho c w z -> exists a, st_alpha c = Fin a /\ 0 <= a <= 1
    /\ (st_minbr c = PInf /\ a = 1 \/ exists m, st_minbr c = Fin m /\ 0 <= m /\ a = Rmin 1 (theta * m)
          /\ exists i, (i < n)%nat /\ nth i (st_br c) NaN = Fin m).
  Proof.
    intros (Hb & _ & _ & _ & _ & (os & z0 & L1 & L2 & E1 & E2) & _). pose proof P as P'. destruct P'.
    assert (Ex : st_x c = fv (radd x z0)) by (rewrite (bx_x _ _ _ Hb), E2; change (a_x A) with (fv x); apply h_vadd).
    assert (Ly : length (radd x z0) = n) by rlen.
    destruct (back_real n theta lb ub pb_n pb_theta pb_lb pb_ub (radd x z0) os (st_br c)) as [_ (a & Ea & Ha & Hm & _) _]; auto.
    - apply nan_box; auto. rewrite <- Ex. apply (bx_in _ _ _ Hb).
    - rewrite (bx_br _ _ _ Hb), Ex, E1. reflexivity.
    - exists a. rewrite (bx_alpha _ _ _ Hb), (bx_minbr _ _ _ Hb). auto.
  Qed.
  Lemma fcand_norm rho c w z : fcand rho c w z -> exists a, st_alpha c = Fin a /\ 0 <= a <= 1
    /\ vadd (st_ss c) (st_ss0 c) = fv (radd z (rscale a w)) /\ rnorm (radd z (rscale a w)) <= rho.
  Proof.
    intros Hc. destruct (fcand_alpha _ _ _ _ Hc) as (a & Ea & Ha & _).
    destruct Hc as (Hb & Lw & Lz & Ew & Ez & _ & Es & N1 & N2).
    exists a. split; [exact Ea|]. split; [exact Ha|]. split.
    - rewrite Es, Ew, Ez, Ea, h_vscaler, h_vadd. f_equal. apply rvec_ext; [rlen|]. intros i. rewrite !nth_radd by rlen. ring.
    - apply ball_segment; auto. congruence.
  Qed.

  Lemma lincomb_nan u : length u = n -> lincomb n [NaN] (fm [u]) = repeat NaN n.
  Proof.
    clear P. intros <-. unfold fm. cbn [map lincomb]. induction u as [|a u IH]; [reflexivity|].
    cbn [length repeat fv map vscale vadd map2 vzeros] in *. f_equal. exact IH.
  Qed.
  Lemma vmul_nan k v : length v = k -> vmul (fv v) (repeat NaN k) = repeat NaN k.
  Proof. intros <-. induction v as [|a v IH]; [reflexivity|]. unfold vmul in *. cbn [fv map length repeat map2] in *. f_equal. exact IH. Qed.
  Lemma breakpoints_nan y l u k : length y = k -> length l = k -> length u = k -> breakpoints y (repeat NaN k) l u = repeat PInf k.
  Proof.
    revert l u k. induction y as [|a y IH]; intros [|b l] [|d u] k E1 E2 E3; simpl in *; subst; try discriminate; try reflexivity.
    cbn [repeat breakpoints]. rewrite breakpoint_nan. f_equal. apply IH; lia.
  Qed.
  Lemma npmin_pinf k : (1 <= k)%nat -> npmin (repeat PInf k) = PInf.
  Proof.
    intros Hk. destruct k; [lia|]. cbn [repeat npmin]. clear. induction k; [reflexivity|]. cbn [repeat fold_left]. exact IHk.
  Qed.

  (** one-dimensional subproblem: outcome *)
  Lemma line_calc rho typ y u z0 z refl tr pd nw c :
    y = vadd (a_x A) (fv z0) -> (forall i, nan_or_within (nth i (a_lb A) NaN) (nth i (a_ub A) NaN) (nth i y NaN)) ->
    length u = n -> length z0 = n -> length z = n -> rnorm z <= rho -> delta <= rho ->
    calculate O (new_step typ A y (fm [u]) (fv z0) (fv z) refl tr pd nw) = Ok c ->
    (exists tau, fcand rho c (rscale tau u) z) \/ (ncand c /\ delta <= rnorm z).
  Proof.
    intros Ey Hy Lu Lz0 Lz Nz Hr Hc. pose proof P as P'. destruct P'.
    apply calculate_fields in Hc as (sc & ss & s & Hsol & Ess & Es & Hst & _).
    cbn [new_step st_s0 st_subspace st_scaling fm map] in Ess, Es.
    change (st_scaling (new_step typ A y (fm [u]) (fv z0) (fv z) refl tr pd nw)) with (fv D) in Es.
    change (a_scaling A) with (fv D) in Es. rewrite fv_length, Lz0 in Ess. change [fv u] with (fm [u]) in Ess.
    unfold solved in Hsol. cbn [new_step st_subspace fm map st_shess st_sg st_delta st_ss0] in Hsol.
    rewrite (rA_shess n x g H D dv delta theta lb ub P), rA_sg in Hsol. change (a_delta A) with (Fin delta) in Hsol.
    assert (Bx : box c).
    { eapply stepped_boxed; [reflexivity|exact Ey|exact Hy|exact Hst]. }
    assert (R : (sc = [NaN] /\ delta <= rnorm z) \/ exists tau, sc = fv [tau] /\ rnorm (radd z (rscale tau u)) <= rho).
    { destruct (nonzero_dec u) as [Hnz|Hz].
      - destruct (C25_any_start n B sg u z delta) as [E|(tau & E & Hf & _)]; auto.
        + apply rB_mat.
        + apply (rB_sym n x g H D dv delta theta lb ub P).
        + apply (rsg_length n x g H D dv delta theta lb ub P).
        + left. split; [now rewrite Hsol, E|]. apply Rnot_lt_le. intros Hlt.
          destruct (C25_exact_line_minimizer n B sg u z delta) as (tau & E' & _); auto.
          * apply rB_mat.
          * apply (rB_sym n x g H D dv delta theta lb ub P).
          * apply (rsg_length n x g H D dv delta theta lb ub P).
          * rewrite E in E'. discriminate.
        + right. exists tau. split; [now rewrite Hsol, E|lra].
      - right. exists 0. rewrite Hsol. rewrite C25_degenerate by (right; intros (i & Hi); now apply Hi).
        split; [reflexivity|]. replace (radd z (rscale 0 u)) with z; auto.
        apply rvec_ext; [rlen|]. intros i. rewrite nth_radd, nth_rscale by rlen. ring. }
    destruct Hst. cbn [new_step st_x st_lb st_ub st_theta st_s0 st_ss0] in *.
    destruct R as [[-> Hge]|(tau & -> & Hf)].
    - right. split; [|exact Hge]. rewrite lincomb_nan in Ess by auto. subst ss. rewrite vmul_nan in Es by auto. subst s.
      assert (Ly : length y = n) by (rewrite Ey; change (a_x A) with (fv x); rewrite h_vadd, fv_length; rlen).
      rewrite breakpoints_nan in sb_br by auto. rewrite sb_br, npmin_pinf in sb_minbr by auto.
      assert (Ea : st_alpha c = n1).
      { rewrite sb_alpha, sb_minbr. change (a_theta A) with (Fin theta). cbn [nmul ERNum er_mul]. unfold er_infmul.
        destruct (Rltb_spec 0 theta); [|lra]. reflexivity. }
      assert (Vn : vscaler (repeat NaN n) (st_alpha c) = repeat NaN n).
      { rewrite Ea. unfold vscaler. clear. induction n; [reflexivity|]. cbn [repeat map]. f_equal. exact IHn0. }
      split; [exact Bx|]. split; [exact Ea|]. rewrite sb_ss, Vn, repeat_length. split; [reflexivity|].
      apply Forall_forall. intros v Hv. now apply repeat_spec in Hv.
    - left. exists tau. rewrite h_lincomb in Ess.
      assert (E1 : rlincomb n [tau] [u] = rscale tau u).
      { cbn [rlincomb]. apply rvec_ext; [rlen|]. intros i. rewrite nth_radd, nth_rzeros by rlen. ring. }
      rewrite E1 in Ess. subst ss. rewrite h_vmul in Es. subst s.
      split; [exact Bx|]. split; [rlen|]. split; [exact Lz|]. split; [exact sb_og_ss|]. split; [exact sb_ss0|].
      split; [exists (rmul D (rscale tau u)), z0; repeat split; auto; apply rmul_length; rlen|].
      split; [now rewrite sb_og_ss|]. auto.
  Qed.

  Lemma mapi_fv (f : nat -> ER -> ER) (f' : nat -> R -> R) v : (forall i a, f i (Fin a) = Fin (f' i a)) ->
    mapi f (fv v) = fv (mapi f' v).
  Proof.
    intros Hf. unfold mapi, fv. generalize 0%nat. induction v as [|a v IH]; intros k; [reflexivity|].
    cbn [map mapi_from]. rewrite Hf. f_equal. apply IH.
  Qed.

  (** reflection keeps the ball *)
  Lemma reflected_region rho p w z c : fcand rho p w z -> delta <= rho ->
    calculate O (tr_step_reflected A p) = Ok c -> (exists w' z', fcand rho c w' z') \/ ncand c.
  Proof.
    intros Hp Hr Hc. destruct (fcand_alpha _ _ _ _ Hp) as (a & Ea & Ha & Hm).
    destruct Hp as (Hb & Lw & Lz & Ew & Ez & (os & z0 & L1 & L2 & E1 & E2) & Es & N1 & N2).
    assert (Hb1 : exists b, pymin (st_minbr p) n1 = Fin b /\ 0 <= b <= 1).
    { unfold pymin. destruct Hm as [[-> _]|(m & -> & Hm & _)].
      - exists 1. split; [reflexivity|lra].
      - cbn [nltb ERNum n1 nofZ er_ltb]. destruct (Rltb_spec 1 m); [exists 1|exists m]; split; auto; lra. }
    destruct Hb1 as (b & Eb & Hb1).
    assert (BX : forall c, calculate O (tr_step_reflected A p) = Ok c -> box c).
    { intros c' Hc'. eapply reflected_boxed; eauto; try apply A_theta; try apply th01; apply A_len. }
    specialize (BX c Hc).
    unfold tr_step_reflected in Hc. rewrite Eb, Ew, Ez, E1, E2, !h_vscale, !h_vadd in Hc.
    rewrite (mapi_fv _ (fun i a => if mem i (st_iminbr p) then a * - 1 else a)) in Hc
      by (intros i v; destruct (mem i (st_iminbr p)); reflexivity).
    rewrite h_normalize in Hc. set (nss := mapi _ w) in Hc.
    assert (Ln : length nss = n) by (unfold nss; rewrite mapi_length; auto).
    set (u := if Rltb 0 (rnorm nss) then _ else nss) in Hc.
    assert (Lu : length u = n) by (unfold u; destruct (Rltb 0 (rnorm nss)); rlen).
    change [fv u] with (fm [u]) in Hc. set (y := vadd (a_x A) (fv (radd (rscale b os) z0))) in Hc.
    assert (Hx : st_x c = y).
    { apply calculate_fields in Hc as (sc & ss & s & _ & _ & _ & Hst & _). destruct Hst. rewrite sb_x. reflexivity. }
    assert (Hy : forall i, nan_or_within (nth i (a_lb A) NaN) (nth i (a_ub A) NaN) (nth i y NaN)).
    { intros i. rewrite <- Hx. apply (bx_in _ _ _ BX). }
    apply (line_calc rho) in Hc; auto; try rlen.
    - destruct Hc as [(tau & Hc)|[Hc _]]; [left; eauto|auto].
    - replace (radd (rscale b w) z) with (radd z (rscale b w)).
      + apply ball_segment; auto; congruence.
      + apply rvec_ext; [rlen|]. intros i. rewrite !nth_radd by rlen. ring.
  Qed.
End Region.
