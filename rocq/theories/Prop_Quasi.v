(** Properties of the Hessian update schemes (C40, C42-C52).  "Exact arithmetic" is [ER]; the
    statements talk about real vectors and matrices ([rvec], [rmat] of RVec.v) which [fv]/[fm]
    embed as the finite arrays the code works on. *)
From Coq Require Import ZArith List Bool Reals Lra Lia Psatz.
From Verif Require Import Num Constants HessApprox ER NumFacts RVec Quasi.
Import ListNotations.
Local Open Scope R_scope.

(** an iterative scheme holding the finite matrix B *)
Definition holding (k : ikind ER) (B : rmat) (D : list (list ER)) : ihapp ER :=
  mkIhapp k (mkHbase (fm B) D).

(** *** C40 *)
Theorem C40_secant_equation : forall n phi enforce B D s y,
  is_mat n n B -> length s = n -> length y = n ->
  (0 < rdot y s \/ enforce = false /\ rdot y s <> 0) ->
  rdot s (rmv B s) <> 0 ->
  exists B', ih_mat (ih_update (holding (IBroyden (Fin phi) enforce) B D) (fv s) (fv y)) = fm B'
    /\ is_mat n n B' /\ rmv B' s = y.
Proof.
  intros n phi enforce B D s y HB Hs Hy Hb Hc. rewrite rdot_comm in Hc.
  assert (Hb0 : rdot y s <> 0) by (destruct Hb as [Hb|[_ Hb]]; lra).
  exists (rmadd B (rbroyden y s B phi)). split; [|split].
  - unfold ih_update, holding, ih_mat. cbn [ih_kind ih_base hb_hess].
    rewrite (h_broyden n) by (tauto). apply h_madd.
  - now apply is_mat_new.
  - now apply (rbroyden_secant n).
Qed.
(** BFGS and DFP are the instances the library offers *)
Corollary C40_BFGS_DFP : forall n k B D s y,
  k = BFGS true \/ k = DFP true ->
  is_mat n n B -> length s = n -> length y = n -> 0 < rdot y s -> rdot s (rmv B s) <> 0 ->
  exists B', ih_mat (ih_update (holding k B D) (fv s) (fv y)) = fm B' /\ rmv B' s = y.
Proof.
  intros n k B D s y [-> | ->] HB Hs Hy Hb Hc;
    [destruct (C40_secant_equation n 0 true B D s y) as (B' & H1 & _ & H2)
    |destruct (C40_secant_equation n 1 true B D s y) as (B' & H1 & _ & H2)]; auto;
    exists B'; auto.
Qed.
Example C40_ex : let B := [[1; 0]; [0; 1]] in let s := [1; 1] in let y := [3; 1] in
  is_mat 2 2 B /\ 0 < rdot y s /\ rdot s (rmv B s) <> 0 /\ rmv B s <> y.
Proof.
  cbv zeta. split; [split; [reflexivity|repeat constructor]|].
  unfold rdot, rmv; simpl. split; [lra|]. split; [lra|]. intros H. injection H as H1 H2. lra.
Qed.

(** *** C43 *)
(** In every IEEE-like number system (exact, binary64): with the guard on, a pair with y.s <= 0
    leaves every entry of the matrix with the same value, and the reported update is zero.
    ([emb] only identifies +0.0 and -0.0.) *)
Theorem C43_guard_discards : forall (T : Type) (N : Num T) (L : NumLaws T) phi base s y,
  (dot y s <=? n0)%num = true ->
  let h := mkIhapp (IBroyden phi true) base in
  map (map emb) (ih_mat (ih_update h s y)) = map (map emb) (ih_mat h)
  /\ Forall (Forall (fun d => d = n0)) (ih_diff (ih_update h s y))
  /\ map (@length T) (ih_diff (ih_update h s y)) = map (@length T) (ih_mat h).
Proof.
  intros T N L phi base s y Hb. cbv zeta.
  unfold ih_update, ih_mat, ih_diff. cbn [ih_kind ih_base hb_hess hb_diff].
  unfold broyden_class_update. rewrite Hb. cbn [andb].
  generalize (hb_hess base). intros m. split; [|split].
  - induction m as [|r m IH]; simpl; auto. f_equal; [|exact IH]. clear.
    induction r as [|x r IH]; simpl; auto. f_equal; [|exact IH].
    rewrite emb_add. unfold n0. rewrite emb_ofZ by lia.
    replace (er_add (emb x) (Fin (IZR 0))) with (emb x); [apply rnd_emb|].
    destruct (emb x); simpl; auto. f_equal. lra.
  - unfold mzeros_like. apply Forall_map, Forall_forall. intros r _.
    apply Forall_map, Forall_forall. auto.
  - unfold mzeros_like. rewrite map_map. apply map_ext. intros r. apply map_length.
Qed.
(** in exact arithmetic the matrix is the same object *)
Theorem C43_exact : forall n phi B D s y,
  is_mat n n B -> rdot y s <= 0 ->
  ih_mat (ih_update (holding (IBroyden phi true) B D) (fv s) (fv y)) = fm B.
Proof.
  intros n phi B D s y HB Hb. unfold ih_update, holding, ih_mat. cbn [ih_kind ih_base hb_hess].
  rewrite h_broyden_guard, h_madd by auto. f_equal. now apply (rmadd_zero n).
Qed.
Example C43_ex : rdot [1; -2] [1; 1] <= 0.
Proof. unfold rdot; simpl; lra. Qed.

(** *** C42 *)
Definition updates (k : list (rvec * rvec)) (h : ihapp ER) : ihapp ER :=
  fold_left (fun h p => ih_update h (fv (fst p)) (fv (snd p))) k h.

Lemma C42_step n phi B D s y : 0 <= phi <= 1 -> is_mat n n B -> symmetric B -> posdef n B ->
  length s = n -> length y = n ->
  exists B' D', ih_update (holding (IBroyden (Fin phi) true) B D) (fv s) (fv y)
             = holding (IBroyden (Fin phi) true) B' D'
    /\ is_mat n n B' /\ symmetric B' /\ posdef n B'.
Proof.
  intros Hphi HB HS HP Hs Hy.
  destruct (Rle_dec (rdot y s) 0) as [Hb|Hb].
  - exists B, (fm (rmscale 0 B)). split; [|auto].
    unfold ih_update, holding, ih_mat. cbn [ih_kind ih_base hb_hess].
    rewrite h_broyden_guard, h_madd by auto. now rewrite (rmadd_zero n).
  - assert (Hb' : 0 < rdot y s) by lra.
    assert (Hns : nonzero s).
    { destruct (nonzero_dec s) as [H|H]; auto. exfalso.
      rewrite (all0_zeros s H), rdot_zeros_r in Hb'. lra. }
    assert (Hc : 0 < rdot (rmv B s) s) by (rewrite rdot_comm; apply HP; auto).
    exists (rmadd B (rbroyden y s B phi)), (fm (rbroyden y s B phi)). split; [|split; [|split]].
    + unfold ih_update, holding, ih_mat. cbn [ih_kind ih_base hb_hess].
      rewrite (h_broyden n), h_madd by (auto; lra). reflexivity.
    + now apply is_mat_new.
    + now apply (rbroyden_symmetric n).
    + now apply rbroyden_posdef.
Qed.
(** with the guard on and phi in [0, 1] any sequence of updates keeps a symmetric positive
    definite matrix finite, symmetric and positive definite *)
Theorem C42_positive_definite : forall n phi B0 D pairs,
  0 <= phi <= 1 -> is_mat n n B0 -> symmetric B0 -> posdef n B0 ->
  Forall (fun p => length (fst p) = n /\ length (snd p) = n) pairs ->
  exists B, ih_mat (updates pairs (holding (IBroyden (Fin phi) true) B0 D)) = fm B
    /\ is_mat n n B /\ symmetric B /\ posdef n B.
Proof.
  intros n phi B0 D pairs Hphi HB HS HP Hl. revert B0 D HB HS HP.
  induction Hl as [|[s y] pairs [H1 H2] _ IH]; intros B0 D HB HS HP.
  - exists B0. auto.
  - unfold updates. cbn [fold_left fst snd] in *.
    destruct (C42_step n phi B0 D s y) as (B1 & D1 & E & M1 & S1 & P1); auto.
    rewrite E. now apply IH.
Qed.
(** in particular from the default initialization, the identity *)
Corollary C42_default_start : forall n phi i pairs h,
  0 <= phi <= 1 -> ih_kind i = IBroyden (Fin phi) true -> ih_init i n None = Ok h ->
  Forall (fun p => length (fst p) = n /\ length (snd p) = n) pairs ->
  exists B, ih_mat (updates pairs h) = fm B /\ is_mat n n B /\ symmetric B /\ posdef n B.
Proof.
  intros n phi i pairs h Hphi Hk Hi Hl. unfold ih_init, hb_init in Hi. rewrite Hk, h_eye in Hi.
  injection Hi as <-. apply C42_positive_definite; auto.
  apply is_mat_eye. apply symmetric_eye. apply posdef_eye.
Qed.
Example C42_ex : exists pairs : list (rvec * rvec),
  Forall (fun p => length (fst p) = 2%nat /\ length (snd p) = 2%nat) pairs
  /\ Exists (fun p => 0 < rdot (snd p) (fst p)) pairs /\ Exists (fun p => rdot (snd p) (fst p) < 0) pairs.
Proof.
  exists [([1; 1], [3; 1]); ([1; 0], [-1; 1])]. repeat split.
  - repeat constructor.
  - apply Exists_cons_hd. unfold rdot; simpl; lra.
  - apply Exists_cons_tl, Exists_cons_hd. unfold rdot; simpl; lra.
Qed.
(** the same claim for positive semidefinite starts (hessian_approximation.py:127-129, 168, 187) is false:
    B0 = 0 and a pair with positive curvature give NaN *)
Theorem C42_semidefinite_refuted :
  exists B0 s y, is_mat 1 1 B0 /\ symmetric B0 /\ possemidef 1 B0 /\ 0 < rdot y s
    /\ mfinite (ih_mat (ih_update (holding (BFGS true) B0 []) (fv s) (fv y))) = false.
Proof.
  exists [[0]], [1], [1].
  split; [split; [reflexivity|repeat constructor]|].
  split; [intros [|[|i]] [|[|j]]; reflexivity|].
  split; [intros [|a []] Hx; simpl in Hx; try lia; unfold rform, rmv, rdot; simpl; lra|].
  split; [unfold rdot; simpl; lra|].
  unfold ih_update, holding, ih_mat, BFGS. cbn [ih_kind ih_base hb_hess].
  unfold broyden_class_update. cbv zeta. rewrite h_matvec, !h_dot.
  assert (E1 : rdot [1] [1] = 1) by (unfold rdot; simpl; lra).
  assert (E2 : rmv [[0]] [1] = [0]) by (unfold rmv, rdot; simpl; f_equal; lra).
  assert (E3 : rdot [0] [1] = 0) by (unfold rdot; simpl; lra).
  rewrite E2, E1, E3. cbn [nleb ERNum er_leb n0 nofZ].
  destruct (Rleb_spec 1 0); [lra|]. cbn [andb]. cbn [neqb ERNum er_eqb].
  destruct (Reqb_spec 0 0); [|lra]. cbn [negb].
  rewrite !h_outer. rewrite (h_mdivs _ 1) by lra.
  cbn. replace (0 * 0) with 0 by lra. destruct (Reqb_spec 0 0); [|lra].
  unfold er_infmul. destruct (Rltb_spec 0 0); [lra|]. reflexivity.
Qed.

(** *** C44 *)
Lemma Fin_mul a b : (Fin a * Fin b)%num = Fin (a * b). Proof. reflexivity. Qed.
Definition sr1_threshold (s z : rvec) : R := sqrt (/ IZR (2 ^ 52)) * rnorm s * rnorm z.
Lemma sr1_test s z d : (nsqrt spacing1 * norm (fv s) * norm (fv z) <=? nabs (Fin d))%num
  = Rleb (sr1_threshold s z) (Rabs d).
Proof.
  rewrite spacing_fin, !h_norm. cbn [nsqrt ERNum er_sqrt].
  destruct (Rltb_spec (/ IZR (2 ^ 52)) 0) as [H|H].
  - exfalso. assert (0 < / IZR (2 ^ 52)) by (apply Rinv_0_lt_compat; apply IZR_lt; reflexivity). lra.
  - reflexivity.
Qed.
Theorem C44_secant : forall n B D s y, is_mat n n B -> length s = n -> length y = n ->
  let z := rsub y (rmv B s) in
  rdot z s <> 0 -> sr1_threshold s z <= Rabs (rdot z s) ->
  exists B', ih_mat (ih_update (holding ISR1 B D) (fv s) (fv y)) = fm B'
    /\ is_mat n n B' /\ rmv B' s = y.
Proof.
  intros n B D s y HB Hs Hy z Hd Ht.
  assert (Hz : length z = n) by (unfold z; destruct HB as [HB _]; rlen).
  exists (rmadd B (rmscale (/ rdot z s) (router z z))).
  assert (HM : is_mat n n (rmscale (/ rdot z s) (router z z))).
  { apply is_mat_mscale. rewrite <- Hz. apply is_mat_outer. }
  split; [|split].
  - unfold ih_update, holding, ih_mat. cbn [ih_kind ih_base hb_hess]. unfold sr1_diff. cbv zeta.
    rewrite h_matvec, h_vsub, h_dot. fold z. rewrite sr1_test.
    destruct (Rleb_spec (sr1_threshold s z) (Rabs (rdot z s))); [|contradiction].
    rewrite h_outer, h_mdivs, h_madd by auto. reflexivity.
  - now apply is_mat_madd.
  - rewrite (rmv_madd n n), rmv_mscale, rmv_outer by auto.
    destruct HB as [HB _]. apply rvec_ext; [rlen|].
    intros i. rewrite nth_radd, !nth_rscale by rlen. unfold z at 3. rewrite nth_rsub by rlen.
    field. auto.
Qed.
Theorem C44_skipped : forall n B D s y, is_mat n n B -> length s = n -> length y = n ->
  let z := rsub y (rmv B s) in
  Rabs (rdot z s) < sr1_threshold s z ->
  ih_mat (ih_update (holding ISR1 B D) (fv s) (fv y)) = fm B.
Proof.
  intros n B D s y HB Hs Hy z Ht.
  unfold ih_update, holding, ih_mat. cbn [ih_kind ih_base hb_hess]. unfold sr1_diff. cbv zeta.
  rewrite h_matvec, h_vsub, h_dot. fold z. rewrite sr1_test.
  destruct (Rleb_spec (sr1_threshold s z) (Rabs (rdot z s))); [lra|].
  rewrite h_mzeros, h_madd. f_equal. now apply (rmadd_zero n).
Qed.
(** the two cases are exhaustive when s and z = y - B s are non-zero *)
Theorem C44_exhaustive : forall s z, nonzero s -> nonzero z ->
  sr1_threshold s z <= Rabs (rdot z s) -> rdot z s <> 0.
Proof.
  intros s z Hs Hz H E. rewrite E, Rabs_R0 in H.
  apply nonzero_dot in Hs, Hz. apply rnorm_pos in Hs, Hz.
  assert (0 < sqrt (/ IZR (2 ^ 52))).
  { apply sqrt_lt_R0. apply Rinv_0_lt_compat. apply IZR_lt. reflexivity. }
  unfold sr1_threshold in H.
  assert (0 < sqrt (/ IZR (2 ^ 52)) * rnorm s * rnorm z) by (repeat apply Rmult_lt_0_compat; auto). lra.
Qed.
(** finiteness is false: if the matrix already satisfies the secant equation, the update is 0/0 *)
Theorem C44_exact_model_refuted : forall n B D s y,
  is_mat n n B -> length s = n -> (0 < n)%nat -> y = rmv B s ->
  ih_mat (ih_update (holding ISR1 B D) (fv s) (fv y)) = map (map (fun _ => NaN)) (fm B).
Proof.
  intros n B D s y HB Hs Hn ->.
  unfold ih_update, holding, ih_mat. cbn [ih_kind ih_base hb_hess]. unfold sr1_diff. cbv zeta.
  rewrite h_matvec, h_vsub, h_dot.
  set (z := rsub (rmv B s) (rmv B s)).
  assert (Ez : z = rzeros n).
  { apply rvec_ext.
    - unfold z. destruct HB as [HB _]. rewrite rzeros_length. rlen.
    - intros i. unfold z. rewrite nth_rsub, nth_rzeros by auto. lra. }
  assert (Ed : rdot z s = 0) by (rewrite Ez; apply rdot_zeros_l).
  rewrite sr1_test, Ed.
  assert (Et : sr1_threshold s z = 0).
  { unfold sr1_threshold. assert (rnorm z = 0); [|rewrite H; lra].
    unfold rnorm. rewrite Ez, rdot_zeros_l. apply sqrt_0. }
  rewrite Et, Rabs_R0. destruct (Rleb_spec 0 0); [|lra].
  rewrite h_outer, Ez. destruct HB as [HB1 HB2].
  assert (Enan : mdivs (fm (router (rzeros n) (rzeros n))) (Fin 0) = repeat (repeat NaN n) n).
  { assert (Hz : er_div (Fin 0) (Fin 0) = NaN).
    { simpl. destruct (Reqb_spec 0 0); [|lra]. unfold er_infmul. destruct (Rltb_spec 0 0); [lra|]. reflexivity. }
    unfold mdivs, fm, router. rewrite !map_map.
    assert (Hr : forall k, map (fun x => vdivs (fv (rscale x (rzeros n))) (Fin 0)) (rzeros k) = repeat (repeat NaN n) k).
    { induction k as [|k IH]; [reflexivity|]. change (rzeros (S k)) with (0 :: rzeros k). cbn [map repeat].
      f_equal; auto. clear. unfold vdivs, fv, rscale. rewrite !map_map.
      assert (Hd : (Fin (0 * 0) / Fin 0)%num = NaN).
      { simpl. replace (0 * 0) with 0 by lra. destruct (Reqb_spec 0 0); [|lra].
        unfold er_infmul. destruct (Rltb_spec 0 0); [lra|]. reflexivity. }
      induction n as [|n' IH']; [reflexivity|]. change (rzeros (S n')) with (0 :: rzeros n'). cbn [map repeat].
      f_equal; auto. }
    apply Hr. }
  rewrite Enan. clear Enan. subst n. clear -HB2.
  assert (G : forall k (M : rmat), Forall (fun r => length r = k) M ->
    madd (fm M) (repeat (repeat NaN k) (length M)) = map (map (fun _ => NaN)) (fm M)).
  { intros k M HM. induction HM as [|r M Hr _ IH]; [reflexivity|]. cbn. f_equal; [|exact IH].
    subst k. clear. induction r as [|a r IH]; [reflexivity|]. cbn. f_equal. exact IH. }
  apply G. exact HB2.
Qed.
Example C44_ex : let B := [[1]] in let z := rsub [3] (rmv B [1]) in
  rdot z [1] <> 0 /\ sr1_threshold [1] z <= Rabs (rdot z [1]).
Proof.
  cbv zeta. assert (Ez : rsub [3] (rmv [[1]] [1]) = [2]).
  { unfold rsub, radd, rscale, rmv, rdot. simpl. f_equal. lra. }
  rewrite Ez. assert (Ed : rdot [2] [1] = 2) by (unfold rdot; simpl; lra). rewrite Ed.
  split; [lra|]. rewrite Rabs_pos_eq by lra. unfold sr1_threshold.
  assert (E1 : rnorm [1] = 1).
  { unfold rnorm, rdot; simpl. replace (1 * 1 + 0) with 1 by lra. apply sqrt_1. }
  assert (E2 : rnorm [2] = 2).
  { unfold rnorm, rdot; simpl. replace (2 * 2 + 0) with (2 * 2) by lra. apply sqrt_square. lra. }
  rewrite E1, E2. assert (sqrt (/ IZR (2 ^ 52)) <= 1).
  { rewrite <- sqrt_1. apply sqrt_le_1_alt. rewrite <- Rinv_1. apply Rinv_le_contravar; [lra|].
    apply IZR_le. discriminate. }
  lra.
Qed.

(** *** C45 *)
Theorem C45_good_broyden : forall n B D s y, is_mat n n B -> length s = n -> length y = n ->
  nonzero s ->
  exists B', ih_mat (ih_update (holding IBG B D) (fv s) (fv y)) = fm B' /\ is_mat n n B'
    /\ rmv B' s = y
    /\ forall w, length w = n -> rdot s w = 0 -> rmv B' w = rmv B w.
Proof.
  intros n B D s y HB Hs Hy Hns. apply nonzero_dot in Hns.
  set (z := rsub y (rmv B s)).
  assert (Hz : length z = n) by (unfold z; destruct HB as [HB _]; rlen).
  assert (HM : is_mat n n (rmscale (/ rdot s s) (router z s))).
  { apply is_mat_mscale. rewrite <- Hz at 1. rewrite <- Hs. apply is_mat_outer. }
  exists (rmadd B (rmscale (/ rdot s s) (router z s))). split; [|split; [|split]].
  - unfold ih_update, holding, ih_mat. cbn [ih_kind ih_base hb_hess]. unfold bg_diff. cbv zeta.
    rewrite h_matvec, h_vsub, h_dot. fold z. rewrite h_outer, h_mdivs, h_madd by lra. reflexivity.
  - now apply is_mat_madd.
  - rewrite (rmv_madd n n), rmv_mscale, rmv_outer by auto.
    destruct HB as [HB _]. apply rvec_ext; [rlen|].
    intros i. rewrite nth_radd, !nth_rscale by rlen. unfold z. rewrite nth_rsub by rlen.
    field. lra.
  - intros w Hw Ho. rewrite (rmv_madd n n), rmv_mscale, rmv_outer, Ho by auto.
    destruct HB as [HB _]. apply rvec_ext; [rlen|].
    intros i. rewrite nth_radd, !nth_rscale by rlen. lra.
Qed.
Example C45_ex : nonzero [0; 2].
Proof. exists 1%nat. simpl. lra. Qed.

(** *** C46 *)
(** the matrix of Broyden's bad method never changes, in any number system *)
Theorem C46_never_updates : forall (T : Type) (N : Num T) base pairs,
  ih_mat (fold_left (fun h p => ih_update h (fst p) (snd p)) pairs (mkIhapp IBB base)) = hb_hess base.
Proof.
  intros T N base pairs. revert base.
  induction pairs as [|p pairs IH]; intros base; [reflexivity|]. cbn [fold_left].
  unfold ih_update at 2. cbn [ih_kind]. rewrite IH. reflexivity.
Qed.
Theorem C46_secant_refuted : exists B s y, is_mat 1 1 B /\ nonzero s /\ 0 < rdot y s
  /\ forall B', ih_mat (ih_update (holding IBB B []) (fv s) (fv y)) = fm B' -> rmv B' s <> y.
Proof.
  exists [[1]], [1], [2]. split; [split; [reflexivity|repeat constructor]|].
  split; [exists 0%nat; simpl; lra|]. split; [unfold rdot; simpl; lra|].
  intros B' H. change (fm [[1]] = fm B') in H. apply fm_inj in H. subst B'.
  unfold rmv, rdot. simpl. intros H. injection H as H. lra.
Qed.
