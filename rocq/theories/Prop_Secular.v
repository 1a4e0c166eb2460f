(** C30: the secular function and its derivative *)
From Coq Require Import ZArith List Bool Reals Lra Lia Psatz Ranalysis5.
From Verif Require Import Num Constants Subproblem ER NumFacts RVec Ortho Argmin SubNd Prop_SubNd.
Import ListNotations.
Local Open Scope R_scope.

(** the real number behind a finite value *)
Definition er_val (x : ER) : R := match x with Fin r => r | _ => 0 end.

Lemma rsum_derivable n f d x : (forall i, (i < n)%nat -> derivable_pt_lim (f i) x (d i)) ->
  derivable_pt_lim (fun z => rsum n (fun i => f i z)) x (rsum n d).
Proof.
  induction n; intros H; simpl.
  - apply (derivable_pt_lim_const 0).
  - apply (derivable_pt_lim_plus (fun z => rsum n (fun i => f i z)) (f n)); auto.
Qed.
Lemma quot_derivable w e x : e + x <> 0 -> derivable_pt_lim (fun z => w / (e + z)) x (w / - ((e + x) * (e + x))).
Proof.
  intros H.
  replace (w / - ((e + x) * (e + x))) with ((0 * (e + x) - (0 + 1) * w) / Rsqr (e + x)) by (unfold Rsqr; field; auto).
  apply (derivable_pt_lim_div (fct_cte w) (fun z => e + z)); auto.
  - apply derivable_pt_lim_const.
  - apply (derivable_pt_lim_plus (fct_cte e) id); [apply derivable_pt_lim_const|apply derivable_pt_lim_id].
Qed.

Section Sec.
  Variables (n : nat) (B : rmat) (g : rvec) (delta : R) (vals : rvec) (vecs : list rvec).
  Hypothesis HB : is_mat n n B.
  Hypothesis HS : symmetric B.
  Hypothesis Hg : length g = n.
  Hypothesis Hd : 0 < delta.
  Hypothesis Hn : (0 < n)%nat.
  Hypothesis HD : eig_decomposition n B vals vecs.
  Hypothesis Hng : nonzero g.
  Local Notation w := (ww g vecs).
  Local Notation m := (mineig vals).
  Let HL : length vals = n := proj1 HD.
  Let HV : is_mat n n vecs := proj1 (proj2 HD).
  Let HO : orthonormal vecs := proj1 (proj2 (proj2 HD)).
  Definition wi i := nth i w 0.
  Definition el i x := nth i vals 0 + x.
  Definition NN x := rsum n (fun i => (wi i / el i x) * (wi i / el i x)).
  Lemma el_pos i x : (i < n)%nat -> - m < x -> 0 < el i x.
  Proof. intros Hi Hx. pose proof (mineig_le n B g vals vecs Hg Hn HD i Hi). unfold el, ev in *. lra. Qed.
  Lemma w_len : length w = n. Proof. apply (ww_length n B g vals); auto. Qed.
  Lemma some_w : exists i, (i < n)%nat /\ wi i <> 0.
  Proof.
    assert (Hw : 0 < rdot w w).
    { unfold ww. rewrite rdot_rscale_l, rdot_rscale_r, <- (parseval n vecs) by auto.
      apply nonzero_dot in Hng. lra. }
    apply nonzero_dot in Hw. destruct Hw as [i Hi]. exists i. split; auto.
    destruct (Nat.lt_ge_cases i n); auto. exfalso. apply Hi. apply nth_overflow. rewrite w_len. auto.
  Qed.
  Lemma sn_sq x : - m < x -> sn n g vals vecs x * sn n g vals vecs x = NN x.
  Proof.
    intros Hx. unfold sn. rewrite rnorm_sq, (rslam_sq n B) by (auto using w_len).
    apply rsum_ext. intros i Hi. pose proof (el_pos i x Hi Hx). unfold el in *. unfold cf, ev, wi.
    destruct (Reqb_spec (nth i vals 0 + x) 0); [lra|]. reflexivity.
  Qed.
  Lemma NN_pos x : - m < x -> 0 < NN x.
  Proof.
    intros Hx. destruct some_w as (i & Hi & Hw). unfold NN.
    apply Rlt_le_trans with ((wi i / el i x) * (wi i / el i x)).
    - apply Rsqr_pos_lt. pose proof (el_pos i x Hi Hx). unfold Rdiv.
      apply Rmult_integral_contrapositive. split; auto. apply Rinv_neq_0_compat. lra.
    - apply (rsum_ge_term (fun i => (wi i / el i x) * (wi i / el i x))); auto. intros j. apply Rle_0_sqr.
  Qed.
  Lemma sn_sqrt x : - m < x -> sn n g vals vecs x = sqrt (NN x).
  Proof.
    intros Hx. rewrite <- sn_sq by auto. symmetry. apply sqrt_square. apply rnorm_nonneg.
  Qed.
  Lemma sn_pos x : - m < x -> 0 < sn n g vals vecs x.
  Proof. intros Hx. rewrite sn_sqrt by auto. apply sqrt_lt_R0. now apply NN_pos. Qed.
  Lemma secular_value x : - m < x -> phiE g delta vals vecs (Fin x) = Fin (1 / sqrt (NN x) - 1 / delta).
  Proof.
    intros Hx. change (phiE g delta vals vecs (Fin x)) with (phi g delta vals vecs x).
    rewrite (phi_eq n B) by auto. destruct (Rltb_spec x (- m)); [lra|].
    pose proof (sn_pos x Hx). destruct (Rltb_spec 0 (sn n g vals vecs x)); [|lra].
    now rewrite sn_sqrt.
  Qed.
  (** the code's derivative *)
  Definition dc x := map2 (fun wi e => if Reqb e 0 then (if Reqb wi 0 then wi else 0) else wi / - (e * e)) w (map (fun e => e + x) vals).
  Definition DD x := rsum n (fun i => (wi i / el i x) * (wi i / - (el i x * el i x))).
  Lemma dslam_value x : - m < x -> dslam (Fin x) (fv w) (fv vals) (fm vecs) = fv (rlincomb n (dc x) vecs).
  Proof.
    intros Hx. unfold dslam, dc. cbv zeta.
    assert (E : map (fun e : ER => (e + Fin x)%num) (fv vals) = fv (map (fun e => e + x) vals)).
    { unfold fv. rewrite !map_map. now apply map_ext. }
    rewrite E, fv_length, HL.
    assert (Hpos : Forall (fun e => 0 < e) (map (fun e => e + x) vals)).
    { apply Forall_map, Forall_forall. intros e He. apply (In_nth _ _ 0) in He as (i & Hi & Ei).
      rewrite HL in Hi. pose proof (el_pos i x Hi Hx). unfold el in *. lra. }
    assert (Em : forall a b, Forall (fun e => 0 < e) b ->
       map2 (fun wi eli : ER => if (eli =? Num.n0)%num then if (wi =? Num.n0)%num then wi else ninf else (wi / - nsq eli)%num) (fv a) (fv b)
       = fv (map2 (fun wi e => if Reqb e 0 then (if Reqb wi 0 then wi else 0) else wi / - (e * e)) a b)).
    { induction a as [|p a IH]; intros [|q b] Hp; simpl; auto. inversion Hp; subst.
      change (fv a) with (map Fin a) in IH. change (map Fin b) with (fv b). f_equal; [|apply IH; auto].
      destruct (Reqb_spec q 0); [lra|]. destruct (Reqb_spec (- (q * q)) 0); [nra|]. reflexivity. }
    rewrite Em by auto. apply h_lincomb.
  Qed.
  Lemma dc_length x : length (dc x) = n.
  Proof. unfold dc. rewrite map2_len'; rewrite ?map_length, w_len; auto. Qed.
  Lemma dot_sds x : - m < x -> rdot (rslam n vals vecs x w) (rlincomb n (dc x) vecs) = DD x.
  Proof.
    intros Hx. unfold rslam. rewrite (dot_lincomb n) by (auto using dc_length; apply (coefs_length n B vals vecs); auto using w_len).
    rewrite (rdot_sum n) by (apply (coefs_length n B vals vecs); auto using w_len).
    apply rsum_ext. intros i Hi. rewrite (nth_coefs n B vals vecs) by (auto using w_len).
    unfold dc. rewrite (nth_map2 _ 0 (0 + x)) by (rewrite ?map_length, ?w_len; auto).
    rewrite (map_nth (fun e => e + x)). pose proof (el_pos i x Hi Hx). unfold el in *. unfold cf, ev, wi.
    destruct (Reqb_spec (nth i vals 0 + x) 0); [lra|]. reflexivity.
  Qed.
  Lemma DD_neg x : - m < x -> DD x < 0.
  Proof.
    intros Hx. unfold DD. destruct some_w as (i & Hi & Hw).
    assert (E : rsum n (fun i => (wi i / el i x) * (wi i / - (el i x * el i x)))
                = -1 * rsum n (fun i => (wi i / el i x) * (wi i / el i x) * / el i x)).
    { rewrite <- rsum_scal. apply rsum_ext. intros j Hj. pose proof (el_pos j x Hj Hx). field. lra. }
    rewrite E.
    assert (0 < rsum n (fun i => (wi i / el i x) * (wi i / el i x) * / el i x)); [|lra].
    pose proof (el_pos i x Hi Hx) as Hp.
    assert (Hterm : forall j, (j < n)%nat -> 0 <= (wi j / el j x) * (wi j / el j x) * / el j x).
    { intros j Hj. pose proof (el_pos j x Hj Hx). apply Rmult_le_pos; [apply Rle_0_sqr|].
      apply Rlt_le, Rinv_0_lt_compat. auto. }
    apply Rlt_le_trans with ((wi i / el i x) * (wi i / el i x) * / el i x).
    - apply Rmult_lt_0_compat; [|now apply Rinv_0_lt_compat]. apply Rsqr_pos_lt. unfold Rdiv.
      apply Rmult_integral_contrapositive. split; auto. apply Rinv_neq_0_compat. lra.
    - clear - Hi Hterm. set (f := fun i : nat => wi i / el i x * (wi i / el i x) * / el i x) in *.
      change (f i <= rsum n f). assert (P : forall j, (j < n)%nat -> 0 <= f j) by exact Hterm.
      clearbody f. clear Hterm. induction n as [|k IHk]; [lia|]. simpl.
      assert (0 <= rsum k f) by (apply rsum_nonneg; intros; apply P; lia).
      destruct (Nat.eq_dec i k) as [->|]; [lra|].
      pose proof (P k (Nat.lt_succ_diag_r k)). assert (f i <= rsum k f) by (apply IHk; [lia|intros; apply P; lia]). lra.
  Qed.
  Lemma dsecular_value x : - m < x ->
    dphiE g delta vals vecs (Fin x) = Fin (- DD x / (sqrt (NN x) * sqrt (NN x) * sqrt (NN x))).
  Proof.
    intros Hx. unfold dphiE, dsecular. cbv zeta. rewrite dslam_value, (h_slam n B) by auto.
    rewrite h_norm, h_dot, dot_sds by auto. fold (sn n g vals vecs x). rewrite sn_sqrt by auto.
    pose proof (sn_pos x Hx) as Hp. rewrite sn_sqrt in Hp by auto.
    cbn [nltb ERNum er_ltb Num.n0 nofZ nopp er_opp nmul er_mul].
    destruct (Rltb_spec 0 (sqrt (NN x))); [|contradiction]. cbn [ndiv ERNum er_div].
    destruct (Reqb_spec (sqrt (NN x) * sqrt (NN x) * sqrt (NN x)) 0) as [E|]; [|reflexivity].
    exfalso. assert (0 < sqrt (NN x) * sqrt (NN x) * sqrt (NN x)); [|lra].
    apply Rmult_lt_0_compat; auto. now apply Rmult_lt_0_compat.
  Qed.
  Lemma NN_derivable x : - m < x -> derivable_pt_lim NN x (2 * DD x).
  Proof.
    intros Hx. unfold DD. rewrite <- rsum_scal. unfold NN.
    apply (rsum_derivable n (fun i z => (wi i / el i z) * (wi i / el i z))). intros i Hi.
    pose proof (el_pos i x Hi Hx) as Hp.
    replace (2 * (wi i / el i x * (wi i / - (el i x * el i x))))
      with (wi i / - (el i x * el i x) * (wi i / el i x) + wi i / el i x * (wi i / - (el i x * el i x))) by ring.
    apply (derivable_pt_lim_mult (fun z => wi i / el i z) (fun z => wi i / el i z));
      unfold el in *; apply quot_derivable; lra.
  Qed.
  Lemma S_derivable x : - m < x ->
    derivable_pt_lim (fun z => 1 / sqrt (NN z) - 1 / delta) x (- DD x / (sqrt (NN x) * sqrt (NN x) * sqrt (NN x))).
  Proof.
    intros Hx. pose proof (NN_pos x Hx) as HN. pose proof (sqrt_lt_R0 _ HN) as Hs.
    replace (- DD x / (sqrt (NN x) * sqrt (NN x) * sqrt (NN x)))
      with ((0 * sqrt (NN x) - (/ (2 * sqrt (NN x)) * (2 * DD x)) * 1) / Rsqr (sqrt (NN x)) - 0)
      by (unfold Rsqr; field; lra).
    apply (derivable_pt_lim_minus (fun z => 1 / sqrt (NN z)) (fct_cte (1 / delta))); [|apply derivable_pt_lim_const].
    apply (derivable_pt_lim_div (fct_cte 1) (fun z => sqrt (NN z))); [apply derivable_pt_lim_const| |lra].
    apply (derivable_pt_lim_comp NN sqrt); [now apply NN_derivable|]. now apply derivable_pt_lim_sqrt.
  Qed.
  Lemma NN_decreasing a b : - m < a -> a < b -> NN b < NN a.
  Proof.
    intros Ha Hab. unfold NN.
    assert (T : forall i, (i < n)%nat -> (wi i / el i b) * (wi i / el i b) <= (wi i / el i a) * (wi i / el i a)
              /\ (wi i <> 0 -> (wi i / el i b) * (wi i / el i b) < (wi i / el i a) * (wi i / el i a))).
    { intros i Hi. pose proof (el_pos i a Hi Ha) as P1. assert (P2 : el i a < el i b) by (unfold el; lra).
      set (p := el i a) in *. set (q := el i b) in *.
      assert (Q : 0 < / q * / q < / p * / p).
      { assert (0 < / q < / p).
        { split; [apply Rinv_0_lt_compat; lra|]. apply Rinv_lt_contravar; [|lra]. apply Rmult_lt_0_compat; lra. }
        split; [apply Rmult_lt_0_compat; lra|]. nra. }
      replace (wi i / q * (wi i / q)) with (wi i * wi i * (/ q * / q)) by (unfold Rdiv; ring).
      replace (wi i / p * (wi i / p)) with (wi i * wi i * (/ p * / p)) by (unfold Rdiv; ring).
      pose proof (Rle_0_sqr (wi i)) as S0. unfold Rsqr in S0. split; [nra|].
      intros Hw. apply Rsqr_pos_lt in Hw. unfold Rsqr in Hw. nra. }
    destruct some_w as (i & Hi & Hw).
    destruct (Rlt_dec (rsum n (fun i => (wi i / el i b) * (wi i / el i b))) (rsum n (fun i => (wi i / el i a) * (wi i / el i a)))) as [|Hno]; auto.
    exfalso.
    assert (E : (wi i / el i b) * (wi i / el i b) = (wi i / el i a) * (wi i / el i a)).
    { apply (rsum_all_eq n (fun i => (wi i / el i b) * (wi i / el i b)) (fun i => (wi i / el i a) * (wi i / el i a))); auto.
      - intros j Hj. apply T; auto.
      - apply Rle_antisym; [apply rsum_le; intros j Hj; apply T; auto|lra]. }
    destruct (T i Hi) as [_ T2]. specialize (T2 Hw). lra.
  Qed.
  Lemma S_increasing a b : - m < a -> a < b -> 1 / sqrt (NN a) - 1 / delta < 1 / sqrt (NN b) - 1 / delta.
  Proof.
    intros Ha Hab. pose proof (NN_decreasing a b Ha Hab). pose proof (NN_pos b ltac:(lra)) as Pb.
    pose proof (NN_pos a Ha) as Pa.
    assert (sqrt (NN b) < sqrt (NN a)) by (apply sqrt_lt_1; lra).
    assert (0 < sqrt (NN b)) by now apply sqrt_lt_R0.
    assert (/ sqrt (NN a) < / sqrt (NN b)) by (apply Rinv_lt_contravar; [apply Rmult_lt_0_compat; lra|auto]).
    unfold Rdiv. lra.
  Qed.
End Sec.

Definition code_dsecular (g : rvec) (delta : R) (vals : rvec) (vecs : list rvec) : ER -> ER :=
  fun lam => dsecular lam (vopp (tmatvec (fm vecs) (fv g))) (fv vals) (fm vecs) (Fin delta).

(** Right of the left end, for a non-zero gradient, both functions passed to Newton's method are finite,
    the second is the derivative of the first and is positive, the first is strictly increasing. *)
Theorem C30_secular_derivative : forall n B g delta vals vecs m,
  is_mat n n B -> symmetric B -> length g = n -> (0 < n)%nat -> 0 < delta ->
  eig_decomposition n B vals vecs -> smallest n vals m -> nonzero g ->
  (forall x, - m < x -> exists v d,
     code_secular g delta vals vecs (Fin x) = Fin v /\ code_dsecular g delta vals vecs (Fin x) = Fin d
     /\ 0 < d /\ derivable_pt_lim (fun z => er_val (code_secular g delta vals vecs (Fin z))) x d)
  /\ (forall a b, - m < a -> a < b ->
        er_val (code_secular g delta vals vecs (Fin a)) < er_val (code_secular g delta vals vecs (Fin b)))
  /\ (forall a b, - m < a -> - m < b -> code_secular g delta vals vecs (Fin a) = Fin 0 ->
        code_secular g delta vals vecs (Fin b) = Fin 0 -> a = b).
Proof.
  intros n B g delta vals vecs m HB HS Hg Hn Hd HD Hm Hng.
  set (O := oracles_with vals vecs (fun _ _ _ => NoConv) (fun _ _ _ _ => NoConv)).
  assert (HP : nd_problem n B g delta vals vecs O).
  { split; [exact HB|]. split; [exact HS|]. split; [exact Hg|]. split; [exact Hn|]. split; [exact Hd|]. split; [exact HD|reflexivity]. }
  rewrite (smallest_mineig n B g delta vals vecs O m HP Hm) in *. clear Hm m.
  rewrite code_secular_eq.
  assert (Ed : code_dsecular g delta vals vecs = dphiE g delta vals vecs).
  { unfold code_dsecular, dphiE. rewrite h_tmatvec, h_vopp. reflexivity. }
  rewrite Ed.
  assert (Inc : forall a b, - mineig vals < a -> a < b ->
        er_val (phiE g delta vals vecs (Fin a)) < er_val (phiE g delta vals vecs (Fin b))).
  { intros a b Ha Hab. rewrite !(secular_value n B) by (auto; lra). cbn [er_val]. apply (S_increasing n B); auto. }
  split; [|split; [exact Inc|]].
  - intros x Hx. eexists. eexists. split; [apply (secular_value n B); auto|].
    split; [apply (dsecular_value n B); auto|]. split.
    + pose proof (DD_neg n B g vals vecs Hg Hn HD Hng x Hx). pose proof (NN_pos n B g vals vecs Hg Hn HD Hng x Hx) as HN.
      apply sqrt_lt_R0 in HN. apply Rmult_lt_0_compat; [lra|]. apply Rinv_0_lt_compat.
      apply Rmult_lt_0_compat; auto. now apply Rmult_lt_0_compat.
    + apply (derivable_pt_lim_locally_ext (fun z => 1 / sqrt (NN n g vals vecs z) - 1 / delta) _ x (- mineig vals) (x + 1)); [lra| |].
      * intros z Hz. rewrite (secular_value n B) by (auto; lra). reflexivity.
      * apply (S_derivable n B); auto.
  - intros a b Ha Hb Ea Eb. destruct (Rtotal_order a b) as [H|[H|H]]; auto.
    + specialize (Inc a b Ha H). rewrite Ea, Eb in Inc. simpl in Inc. lra.
    + specialize (Inc b a Hb H). rewrite Ea, Eb in Inc. simpl in Inc. lra.
Qed.
Example C30_ex : is_mat 2 2 (diag2 (-1) 1) /\ symmetric (diag2 (-1) 1) /\ eig_decomposition 2 (diag2 (-1) 1) [-1; 1] (reye 2)
  /\ smallest 2 [-1; 1] (-1) /\ nonzero [3; 0].
Proof.
  destruct C28_ex_newton as ((HB & HS & _ & _ & _ & HD & _) & _ & Hm & _).
  split; [exact HB|]. split; [exact HS|]. split; [exact HD|]. split; [exact Hm|]. exists 0%nat. simpl. lra.
Qed.
