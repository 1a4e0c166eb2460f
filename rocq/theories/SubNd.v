(** The n-dimensional trust-region subproblem in exact arithmetic, given an orthonormal
    eigen-decomposition: what the code computes, in real numbers. *)
From Coq Require Import ZArith List Bool Reals Lra Lia Psatz.
From Verif Require Import Num Constants Subproblem ER NumFacts RVec Ortho Argmin.
Import ListNotations.
Local Open Scope R_scope.

Lemma map2_len' {A B C} (f : A -> B -> C) a : forall b, length a = length b -> length (map2 f a b) = length a.
Proof. induction a; intros [|y b] H; simpl in *; try lia. rewrite IHa; lia. Qed.
Lemma h_map2 (f : ER -> ER -> ER) (g : R -> R -> R) :
  (forall a b, f (Fin a) (Fin b) = Fin (g a b)) ->
  forall x y, map2 f (fv x) (fv y) = fv (map2 g x y).
Proof. intros H. induction x; intros [|b y]; simpl; auto. rewrite H. f_equal. apply IHx. Qed.
Lemma nth_map2 {A B C} (f : A -> B -> C) da db dc : forall a b i, length a = length b -> (i < length a)%nat ->
  nth i (map2 f a b) dc = f (nth i a da) (nth i b db).
Proof.
  induction a; intros [|y b] [|i] H Hi; simpl in *; try lia; auto. apply IHa; lia.
Qed.
Lemma norm_fin v d : (norm v <=? Fin d)%num = true -> exists r, v = fv r.
Proof.
  intros H.
  assert (D : exists q, dot v v = Fin q).
  { unfold norm in H. cbn [nsqrt ERNum nleb] in H.
    destruct (dot v v) eqn:E; simpl in H; try discriminate. now exists r. }
  clear H. revert D. induction v as [|x v IH]; intros [q Hq].
  - now exists [].
  - unfold dot, vsum in Hq. cbn [map2 fold_right] in Hq. fold (@vsum ER _) in Hq.
    change (er_add (er_mul x x) (dot v v) = Fin q) in Hq.
    destruct (er_mul x x) eqn:E1, (dot v v) eqn:E2; try discriminate.
    destruct IH as [r' ->]; [now exists r0|].
    destruct x; try discriminate. now exists (r1 :: r').
Qed.
Lemma sqrt_spacing : (nsqrt (spacing1 : ER)) = Fin (/ IZR (2 ^ 26)).
Proof.
  rewrite spacing_fin. cbn [nsqrt ERNum er_sqrt].
  assert (E : / IZR (2 ^ 52) = (/ IZR (2 ^ 26)) * (/ IZR (2 ^ 26))).
  { rewrite <- Rinv_mult. f_equal. rewrite <- mult_IZR. reflexivity. }
  assert (P : 0 < / IZR (2 ^ 26)) by (apply Rinv_0_lt_compat, IZR_lt; reflexivity).
  rewrite E. destruct (Rltb_spec (/ IZR (2 ^ 26) * / IZR (2 ^ 26)) 0); [nra|].
  rewrite sqrt_square by lra. reflexivity.
Qed.

Section Nd.
  Variables (n : nat) (B : rmat) (g : rvec) (delta : R) (vals : rvec) (vecs : list rvec).
  Hypothesis HB : is_mat n n B.
  Hypothesis HS : symmetric B.
  Hypothesis Hg : length g = n.
  Hypothesis Hd : 0 < delta.
  Hypothesis Hn : (0 < n)%nat.
  Hypothesis HD : eig_decomposition n B vals vecs.

  Let HL : length vals = n := proj1 HD.
  Let HV : is_mat n n vecs := proj1 (proj2 HD).
  Let HO : orthonormal vecs := proj1 (proj2 (proj2 HD)).

  Definition vi (i : nat) := nth i vecs [].
  Definition ev (i : nat) := nth i vals 0.

  (** the model in eigen-coordinates *)
  Lemma q_coords y : length y = n ->
    qmodel B g y = rsum n (fun i => / 2 * (ev i * (rdot (vi i) y * rdot (vi i) y)) + rdot (vi i) g * rdot (vi i) y).
  Proof.
    intros Hy. unfold qmodel. rewrite (eig_form n B vals vecs) by auto.
    rewrite (parseval n vecs g y) by auto. rewrite (rdot_sum n) by (rewrite rmv_length; apply HV).
    rewrite <- rsum_scal, <- rsum_plus. apply rsum_ext. intros i Hi. rewrite !nth_rmv. reflexivity.
  Qed.
  Lemma sq_coords y : length y = n -> rdot y y = rsum n (fun i => rdot (vi i) y * rdot (vi i) y).
  Proof.
    intros Hy. rewrite (parseval n vecs) by auto. rewrite (rdot_sum n) by (rewrite rmv_length; apply HV).
    apply rsum_ext. intros i Hi. rewrite !nth_rmv. reflexivity.
  Qed.
  (** the identity behind the optimality conditions *)
  Lemma q_identity lam s y : length s = n -> length y = n ->
    (forall i, (i < n)%nat -> (ev i + lam) * rdot (vi i) s = - rdot (vi i) g) ->
    qmodel B g y - qmodel B g s
    = rsum n (fun i => / 2 * ((ev i + lam) * ((rdot (vi i) y - rdot (vi i) s) * (rdot (vi i) y - rdot (vi i) s))))
      + / 2 * lam * (rdot s s - rdot y y).
  Proof.
    intros Hs Hy H. rewrite !q_coords, (sq_coords s), (sq_coords y) by auto.
    replace (rsum n (fun i => rdot (vi i) s * rdot (vi i) s) - rsum n (fun i => rdot (vi i) y * rdot (vi i) y))
      with (rsum n (fun i => rdot (vi i) s * rdot (vi i) s) + -1 * rsum n (fun i => rdot (vi i) y * rdot (vi i) y)) by lra.
    match goal with |- ?a - ?b = _ => replace (a - b) with (a + -1 * b) by lra end.
    rewrite <- !rsum_scal, <- !rsum_plus, <- rsum_scal, <- rsum_plus.
    apply rsum_ext. intros i Hi.
    assert (E : rdot (vi i) g = - ((ev i + lam) * rdot (vi i) s)) by (rewrite H by auto; lra).
    rewrite E. field.
  Qed.
  Lemma optimal lam s y : length s = n -> length y = n -> 0 <= lam ->
    (forall i, (i < n)%nat -> 0 <= ev i + lam) ->
    (forall i, (i < n)%nat -> (ev i + lam) * rdot (vi i) s = - rdot (vi i) g) ->
    lam * rdot y y <= lam * rdot s s -> qmodel B g s <= qmodel B g y.
  Proof.
    intros Hs Hy Hl Hp H Hsy. pose proof (q_identity lam s y Hs Hy H) as E.
    match type of E with _ = ?S + _ => assert (0 <= S) end.
    { apply rsum_nonneg. intros i Hi. specialize (Hp i Hi).
      apply Rmult_le_pos; [lra|]. apply Rmult_le_pos; [lra|]. apply Rle_0_sqr. }
    nra.
  Qed.

  (** the code's w, s(lambda) *)
  Definition ww := rscale (-1) (rmv vecs g).
  Lemma ww_length : length ww = n.
  Proof. unfold ww. rewrite rscale_length, rmv_length. apply HV. Qed.
  Lemma nth_ww i : (i < n)%nat -> nth i ww 0 = - rdot (vi i) g.
  Proof. intros Hi. unfold ww. rewrite nth_rscale, nth_rmv. unfold vi. lra. Qed.

  Definition cf (w e : R) := if Reqb e 0 then w else w / e.
  Definition coefs (lam : R) (w : rvec) := map2 cf w (map (fun e => e + lam) vals).
  Definition rslam (lam : R) (w : rvec) := rlincomb n (coefs lam w) vecs.
  Lemma coefs_length lam w : length w = n -> length (coefs lam w) = n.
  Proof. intros H. unfold coefs. rewrite map2_len'; rewrite ?map_length; congruence. Qed.
  Lemma nth_coefs lam w i : length w = n -> (i < n)%nat -> nth i (coefs lam w) 0 = cf (nth i w 0) (ev i + lam).
  Proof.
    intros Hw Hi. unfold coefs. rewrite (nth_map2 _ 0 (0 + lam)) by (rewrite ?map_length; congruence).
    now rewrite (map_nth (fun e => e + lam)).
  Qed.
  Lemma rslam_length lam w : length (rslam lam w) = n.
  Proof. apply rlincomb_length, HV. Qed.
  Lemma rslam_coord lam w i : length w = n -> (i < n)%nat -> rdot (vi i) (rslam lam w) = cf (nth i w 0) (ev i + lam).
  Proof.
    intros Hw Hi. unfold rslam, vi. rewrite <- (nth_rmv vecs), (coords_of_lincomb n) by auto using coefs_length.
    now apply nth_coefs.
  Qed.
  Lemma rslam_sq lam w : length w = n ->
    rdot (rslam lam w) (rslam lam w) = rsum n (fun i => cf (nth i w 0) (ev i + lam) * cf (nth i w 0) (ev i + lam)).
  Proof.
    intros Hw. rewrite sq_coords by apply rslam_length. apply rsum_ext. intros i Hi. now rewrite rslam_coord.
  Qed.
  Lemma h_slam lam w : slam (Fin lam) (fv w) (fv vals) (fm vecs) = fv (rslam lam w).
  Proof.
    unfold slam, rslam, coefs. cbv zeta.
    assert (E : map (fun e : ER => (e + Fin lam)%num) (fv vals) = fv (map (fun e => e + lam) vals)).
    { unfold fv. rewrite !map_map. now apply map_ext. }
    rewrite E, (h_map2 _ cf), fv_length, HL.
    - apply h_lincomb.
    - intros a b. cbn [neqb ERNum n0 nofZ er_eqb]. unfold cf. cbn [ndiv ERNum er_div].
      destruct (Reqb b 0); reflexivity.
  Qed.

  (** the smallest eigenvalue *)
  Definition jm := argmin (fv vals).
  Definition mineig := ev jm.
  Lemma fv_notnan (v : rvec) : Forall (fun x : ER => nisnan x = false) (fv v).
  Proof. apply Forall_map, Forall_forall. reflexivity. Qed.
  Lemma vals_nonempty : fv vals <> [].
  Proof. intros E. assert (length (fv vals) = 0%nat) by now rewrite E. rewrite fv_length in H. lia. Qed.
  Lemma jm_lt : (jm < n)%nat.
  Proof. pose proof (argmin_lt (fv vals) vals_nonempty) as H. rewrite fv_length, HL in H. exact H. Qed.
  Lemma mineig_nth : nth jm (fv vals) nnan = Fin mineig.
  Proof. apply (h_nth jm vals). rewrite HL. apply jm_lt. Qed.
  Lemma mineig_le i : (i < n)%nat -> mineig <= ev i.
  Proof.
    intros Hi. pose proof (argmin_le (fv vals) (fv_notnan vals) i) as H. rewrite fv_length, HL in H.
    specialize (H Hi). fold jm in H. rewrite mineig_nth in H. change (@nnan ER _) with NaN in H.
    rewrite (h_nth i vals) in H by lia. cbn in H. unfold ev at 1. destruct (Rleb_spec mineig (nth i vals 0)); auto. discriminate.
  Qed.
  Lemma npmin_vals : npmin (fv vals) = Fin mineig.
  Proof.
    destruct (npmin_spec (fv vals) vals_nonempty (fv_notnan vals)) as [P1 P2].
    unfold fv in P2. apply in_map_iff in P2 as (m & E & Hin). fold (fv vals) in E. rewrite <- E in *.
    f_equal. apply (In_nth _ _ 0) in Hin as (k & Hk & Ek). rewrite HL in Hk.
    pose proof (mineig_le k Hk) as Q1. unfold ev in Q1 at 1. rewrite Ek in Q1.
    assert (Q2 : (Fin m <=? Fin mineig)%num = true).
    { apply P1. unfold fv. apply in_map. apply nth_In. rewrite HL. apply jm_lt. }
    cbn in Q2. destruct (Rleb_spec m mineig); [lra|discriminate].
  Qed.

  (** the secular function *)
  Definition sn lam := rnorm (rslam lam ww).
  Definition phi lam : ER := secular (Fin lam) (fv ww) (fv vals) (fm vecs) (Fin delta).
  Lemma phi_eq lam : phi lam =
    if Rltb lam (- mineig) then PInf else if Rltb 0 (sn lam) then Fin (1 / sn lam - 1 / delta) else PInf.
  Proof.
    unfold phi, secular. rewrite npmin_vals, h_slam, h_norm. fold (sn lam).
    cbn [nopp ERNum er_opp nltb er_ltb n0 nofZ n1 ndiv nsub ninf].
    destruct (Rltb lam (- mineig)); auto. destruct (Rltb_spec 0 (sn lam)); auto.
    cbn [er_div]. destruct (Reqb_spec (sn lam) 0); [lra|]. destruct (Reqb_spec delta 0); [lra|].
    cbn. reflexivity.
  Qed.
  Lemma inv_lt a b : 0 < a -> 0 < b -> 1 / a - 1 / b < 0 -> b < a.
  Proof.
    intros Ha Hb H. apply Rnot_le_lt. intros Hle.
    pose proof (Rinv_le_contravar a b Ha Hle). unfold Rdiv in H. lra.
  Qed.
  Lemma phi_neg lam : (phi lam <? n0)%num = true <-> (- mineig <= lam /\ delta < sn lam).
  Proof.
    rewrite phi_eq. destruct (Rltb_spec lam (- mineig)); [|destruct (Rltb_spec 0 (sn lam))];
      cbn [nltb ERNum Num.n0 nofZ er_ltb].
    - split; [discriminate|intros [? ?]; lra].
    - destruct (Rltb_spec (1 / sn lam - 1 / delta) 0) as [H|H].
      + split; auto. intros _. split; [lra|]. now apply inv_lt.
      + split; [discriminate|]. intros [_ Hlt]. exfalso. apply H.
        pose proof (Rinv_lt_contravar delta (sn lam)) as P. unfold Rdiv.
        assert (0 < delta * sn lam) by nra. specialize (P H0 Hlt). lra.
    - split; [discriminate|]. intros [_ H]. unfold sn in *. pose proof (rnorm_nonneg (rslam lam ww)). lra.
  Qed.
  Lemma phi_zero lam : phi lam = Fin 0 -> - mineig <= lam /\ sn lam = delta.
  Proof.
    rewrite phi_eq. destruct (Rltb_spec lam (- mineig)); [discriminate|].
    destruct (Rltb_spec 0 (sn lam)); [|discriminate]. intros E. injection E as E. split; [lra|].
    assert (E2 : / sn lam = / delta) by (unfold Rdiv in E; lra).
    now rewrite <- (Rinv_inv (sn lam)), E2, Rinv_inv.
  Qed.
  (** s(lambda) solves the shifted system when no shifted eigenvalue vanishes *)
  Lemma rslam_solves lam i : (i < n)%nat -> ev i + lam <> 0 ->
    (ev i + lam) * rdot (vi i) (rslam lam ww) = - rdot (vi i) g.
  Proof.
    intros Hi Hne. rewrite rslam_coord, nth_ww by auto using ww_length.
    unfold cf. destruct (Reqb_spec (ev i + lam) 0); [contradiction|]. field. auto.
  Qed.

  (** the hard-case step *)
  Definition w0 := map2 (fun wi e => if Reqb (e - mineig) 0 then 0 else wi) ww vals.
  Lemma w0_length : length w0 = n.
  Proof. unfold w0. rewrite map2_len'; rewrite ww_length; congruence. Qed.
  Lemma nth_w0 i : (i < n)%nat -> nth i w0 0 = if Reqb (ev i - mineig) 0 then 0 else nth i ww 0.
  Proof. intros Hi. unfold w0. rewrite (nth_map2 _ 0 0); auto; rewrite ww_length; congruence. Qed.
  Definition p0 := rslam (- mineig) w0.
  Definition sigma := sqrt (if Rltb (delta * delta - rnorm p0 * rnorm p0) 0 then 0 else delta * delta - rnorm p0 * rnorm p0).
  Definition rhard := radd p0 (rscale sigma (vi jm)).
  Lemma vi_length i : (i < n)%nat -> length (vi i) = n.
  Proof. intros Hi. eapply is_mat_row; eauto. Qed.
  Lemma h_hard : hard_case (Fin delta) (fv ww) (fv vals) (fm vecs) jm (Fin mineig) = fv rhard.
  Proof.
    unfold hard_case. cbv zeta.
    rewrite (h_map2 _ (fun wi e => if Reqb (e - mineig) 0 then 0 else wi)).
    2:{ intros a b. cbn [nsub ERNum er_sub er_add er_opp neqb er_eqb n0 nofZ].
        replace (b + - mineig) with (b - mineig) by lra. now destruct (Reqb (b - mineig) 0). }
    fold w0. cbn [nopp ERNum er_opp]. rewrite h_slam. fold p0. rewrite h_norm. unfold nsq.
    cbn [nmul ERNum er_mul nsub er_sub er_add er_opp].
    unfold pymax. cbn [nltb ERNum er_ltb n0 nofZ].
    replace (delta * delta + - (rnorm p0 * rnorm p0)) with (delta * delta - rnorm p0 * rnorm p0) by lra.
    assert (E : nsqrt (if Rltb (delta * delta - rnorm p0 * rnorm p0) 0 then (Fin 0 : ER) else Fin (delta * delta - rnorm p0 * rnorm p0)) = Fin sigma).
    { unfold sigma. destruct (Rltb_spec (delta * delta - rnorm p0 * rnorm p0) 0); cbn [nsqrt ERNum er_sqrt].
      - destruct (Rltb_spec 0 0); [lra|reflexivity].
      - destruct (Rltb_spec (delta * delta - rnorm p0 * rnorm p0) 0); [lra|reflexivity]. }
    rewrite E. unfold rhard. rewrite <- h_vadd, <- h_vscale. do 2 f_equal.
    unfold fm. rewrite (nth_indep _ [] (fv [])) by (rewrite map_length; destruct HV; pose proof jm_lt; lia).
    now rewrite map_nth.
  Qed.
  Lemma p0_length : length p0 = n. Proof. apply rslam_length. Qed.
  Lemma rhard_length : length rhard = n.
  Proof. unfold rhard. pose proof p0_length. pose proof (vi_length jm jm_lt). rlen. Qed.
  Lemma p0_coord i : (i < n)%nat ->
    rdot (vi i) p0 = if Reqb (ev i - mineig) 0 then 0 else - rdot (vi i) g / (ev i - mineig).
  Proof.
    intros Hi. unfold p0. rewrite rslam_coord, nth_w0, nth_ww by auto using w0_length. unfold cf.
    replace (ev i + - mineig) with (ev i - mineig) by lra.
    now destruct (Reqb (ev i - mineig) 0).
  Qed.
  Lemma p0_orth : rdot p0 (vi jm) = 0.
  Proof.
    rewrite rdot_comm, p0_coord by apply jm_lt. unfold mineig.
    destruct (Reqb_spec (ev jm - ev jm) 0); [reflexivity|lra].
  Qed.
  Lemma vi_dot i j : (i < n)%nat -> (j < n)%nat -> rdot (vi i) (vi j) = if Nat.eqb i j then 1 else 0.
  Proof. intros Hi Hj. apply HO; destruct HV; lia. Qed.
  Lemma sigma_sq : sigma * sigma = Rmax 0 (delta * delta - rdot p0 p0).
  Proof.
    unfold sigma. rewrite rnorm_sq. destruct (Rltb_spec (delta * delta - rdot p0 p0) 0).
    - rewrite sqrt_0, Rmax_left by lra. lra.
    - rewrite sqrt_sqrt, Rmax_right by lra. reflexivity.
  Qed.
  Lemma rhard_sq : rdot rhard rhard = Rmax (rdot p0 p0) (delta * delta).
  Proof.
    unfold rhard. pose proof p0_length. pose proof (vi_length jm jm_lt).
    assert (length p0 = length (rscale sigma (vi jm))) by rlen.
    rewrite rdot_radd_l, !rdot_radd_r, !rdot_rscale_l, !rdot_rscale_r by auto.
    rewrite (rdot_comm (vi jm) p0), p0_orth, vi_dot, Nat.eqb_refl by apply jm_lt.
    replace (rdot p0 p0 + sigma * 0 + (sigma * 0 + sigma * (sigma * 1))) with (rdot p0 p0 + sigma * sigma) by lra.
    rewrite sigma_sq. unfold Rmax. destruct (Rle_dec 0 (delta * delta - rdot p0 p0)), (Rle_dec (rdot p0 p0) (delta * delta)); lra.
  Qed.
  Lemma rhard_coord i : (i < n)%nat -> rdot (vi i) rhard = rdot (vi i) p0 + (if Nat.eqb i jm then sigma else 0).
  Proof.
    intros Hi. unfold rhard. pose proof p0_length. pose proof (vi_length jm jm_lt).
    rewrite rdot_radd_r, rdot_rscale_r, vi_dot by (auto using jm_lt; rlen).
    destruct (Nat.eqb i jm); lra.
  Qed.
  Lemma p0_le_sn : rdot p0 p0 <= sn (- mineig) * sn (- mineig).
  Proof.
    unfold sn. rewrite rnorm_sq. rewrite (sq_coords p0) by apply p0_length.
    rewrite rslam_sq by apply ww_length. apply rsum_le. intros i Hi.
    rewrite p0_coord, nth_ww by auto. unfold cf. replace (ev i + - mineig) with (ev i - mineig) by lra.
    destruct (Reqb (ev i - mineig) 0); [|lra].
    pose proof (Rle_0_sqr (- rdot (vi i) g)). unfold Rsqr in *. lra.
  Qed.
End Nd.
