(** C61: symmetric rank one on quadratics (exact arithmetic): a displacement the approximation has learned stays learned *)
From Coq Require Import String ZArith List Bool Reals Lra Lia Psatz.
From Verif Require Import Num Constants Subproblem HessApprox Steps TrustRegion Minimize
  ER NumFacts MonadFacts MinFacts Spec Run RunInv HessRun RVec Quasi Prop_Quasi Prop_Sym Prop_Run Prop_Run2 Prop_QuasiRun Unbounded.
Import ListNotations.
Local Open Scope R_scope.
Local Open Scope list_scope.

(** the pairs an optimizer feeds to the scheme when the gradient is x -> A x + b *)
Definition quadratic_pairs (A : rmat) (ss : list rvec) : list (rvec * rvec) := map (fun s => (s, rmv A s)) ss.

Lemma sr1_cases n B D s y : is_mat n n B -> length s = n -> length y = n ->
  let z := rsub y (rmv B s) in
  let h' := ih_update (holding ISR1 B D) (fv s) (fv y) in
  ih_mat h' = fm B
  \/ (rdot z s <> 0 /\ ih_mat h' = fm (rmadd B (rmscale (/ rdot z s) (router z z))))
  \/ ((0 < n)%nat -> mfinite (ih_mat h') = false).
Proof.
  intros HB Hs Hy z h'. assert (Hz : length z = n) by (unfold z; destruct HB as [HB _]; rlen).
  destruct (Rlt_dec (Rabs (rdot z s)) (sr1_threshold s z)) as [Ht|Ht]; [left; now apply (C44_skipped n)|].
  destruct (Req_dec (rdot z s) 0) as [Hd|Hd].
  - destruct (nonzero_dec s) as [Ns|Ns]; [destruct (nonzero_dec z) as [Nz|Nz]|].
    + exfalso. apply (C44_exhaustive s z Ns Nz); auto. lra.
    + assert (Ey : y = rmv B s).
      { destruct HB as [HB _]. apply rvec_ext; [rlen|]. intros i. pose proof (Nz i) as K. unfold z in K. rewrite nth_rsub in K by rlen. lra. }
      right. right. intros Hn. unfold h'. rewrite (C44_exact_model_refuted n) by auto.
      destruct HB as [HB1 HB2]. destruct B as [|r B]; [simpl in HB1; lia|]. inversion HB2 as [|? ? Hr]; subst.
      destruct r as [|a r]; [simpl in Hr; lia|]. reflexivity.
    + (* s = 0: z z' / 0 is NaN or infinite on the diagonal *)
      right. right. intros Hn. unfold h', ih_update, holding, ih_mat. cbn [ih_kind ih_base hb_hess]. unfold sr1_diff. cbv zeta.
      rewrite h_matvec, h_vsub, h_dot. fold z. rewrite sr1_test. destruct (Rleb_spec (sr1_threshold s z) (Rabs (rdot z s))); [|lra].
      rewrite h_outer, Hd.
      assert (Q1 : square n (fm B)) by now apply square_fm.
      assert (Q2 : square n (fm (router z z))) by (apply square_fm; rewrite <- Hz; apply is_mat_outer).
      destruct (mfinite _) eqn:Ef; [|reflexivity]. exfalso.
      assert (Q3 : square n (mdivs (fm (router z z)) (Fin 0))) by now apply (square_map n (fun x => (x / Fin 0)%num)).
      assert (Q4 : square n (madd (fm B) (mdivs (fm (router z z)) (Fin 0)))) by now apply square_map2.
      pose proof (mfinite_cell n _ 0 0 Q4 Hn Hn Ef) as K.
      unfold madd, vadd in K. rewrite (cell_map2 n) in K by auto.
      change (mdivs (fm (router z z)) (Fin 0)) with (map (map (fun x => (x / Fin 0)%num)) (fm (router z z))) in K.
      rewrite (cell_map n) in K by auto. cbn [nadd ndiv ERNum] in K.
      assert (F1 : er_isfin (cell (fm (router z z)) 0 0) = true).
      { apply (mfinite_cell n); auto. clear. unfold mfinite, fm. induction (router z z) as [|r M IH]; [reflexivity|]. cbn [map forallb].
        rewrite vfinite_fv. exact IH. }
      destruct (cell (fm (router z z)) 0 0) as [c| | |]; try discriminate F1.
      assert (F2 : er_isfin (er_div (Fin c) (Fin 0)) = false).
      { simpl. destruct (Reqb_spec 0 0); [|lra]. apply infmul_nf. }
      rewrite nf_add in K; [discriminate|now right].
  - right. left. split; [exact Hd|]. unfold h', ih_update, holding, ih_mat. cbn [ih_kind ih_base hb_hess]. unfold sr1_diff. cbv zeta.
    rewrite h_matvec, h_vsub, h_dot. fold z. rewrite sr1_test.
    destruct (Rleb_spec (sr1_threshold s z) (Rabs (rdot z s))); [|lra].
    rewrite h_outer, h_mdivs, h_madd by auto. reflexivity.
Qed.

(** one update with a pair of the quadratic *)
Lemma sr1_step n A B B' D s : is_mat n n A -> symmetric A -> is_mat n n B -> symmetric B -> length s = n -> (0 < n)%nat ->
  ih_mat (ih_update (holding ISR1 B D) (fv s) (fv (rmv A s))) = fm B' ->
  is_mat n n B' /\ symmetric B' /\ (forall w, length w = n -> rmv B w = rmv A w -> rmv B' w = rmv A w)
  /\ (B' <> B -> rmv B' s = rmv A s).
Proof.
  intros MA SA MB SB Ls Hn H.
  assert (LA : forall v, length (rmv A v) = n) by (intros v; rewrite rmv_length; apply MA).
  assert (LB : forall v, length (rmv B v) = n) by (intros v; rewrite rmv_length; apply MB).
  destruct (sr1_cases n B D s (rmv A s)) as [K|[[Hd K]|K]]; auto.
  - rewrite K in H. apply fm_inj in H. subst B'. split; [exact MB|]. split; [exact SB|]. split; [auto|congruence].
  - set (z := rsub (rmv A s) (rmv B s)) in *. rewrite K in H. apply fm_inj in H. subst B'.
    assert (Lz : length z = n) by (unfold z; pose proof (proj1 MA); pose proof (proj1 MB); rlen).
    assert (HM : is_mat n n (rmscale (/ rdot z s) (router z z))).
    { apply is_mat_mscale. rewrite <- Lz. apply is_mat_outer. }
    split; [now apply is_mat_madd|]. split.
    { apply (symmetric_madd n n); auto. apply symmetric_mscale, symmetric_outer. }
    split.
    + intros w Lw Ew. rewrite (rmv_madd n n), rmv_mscale, rmv_outer by auto.
      assert (Zw : rdot z w = 0).
      { unfold z. rewrite rdot_rsub_l by (rewrite LA, LB; auto).
        rewrite (rdot_comm (rmv A s)), (rdot_comm (rmv B s)). fold (rform A w s). fold (rform B w s).
        rewrite (rform_sym n A w s), (rform_sym n B w s) by auto. unfold rform. rewrite Ew. lra. }
      rewrite Zw, Ew. pose proof (proj1 MA). apply rvec_ext; [rlen|]. intros i. rewrite nth_radd, !nth_rscale by rlen. lra.
    + intros _. rewrite (rmv_madd n n), rmv_mscale, rmv_outer by auto. pose proof (proj1 MA). pose proof (proj1 MB).
      apply rvec_ext; [rlen|]. intros i. rewrite nth_radd, !nth_rscale by rlen. unfold z at 3. rewrite nth_rsub by rlen. field. auto.
  - specialize (K Hn). rewrite H in K. exfalso. revert K. clear. unfold mfinite, fm. intros K.
    assert (X : forallb vfinite (map fv B') = true) by (induction B' as [|r M IH]; [reflexivity|]; cbn [map forallb]; rewrite vfinite_fv; apply IH; cbn [map forallb] in K; now rewrite vfinite_fv in K).
    unfold vfinite in *. congruence.
Qed.

(** a matrix that is not finite never becomes finite again *)
Lemma vadd_finite (a : list ER) : forall b, length a = length b -> vfinite (vadd a b) = true -> vfinite a = true /\ vfinite b = true.
Proof.
  induction a as [|x a IH]; intros [|y b] Hl H; try discriminate; [auto|]. unfold vadd, vfinite in *. cbn in H. apply andb_true_iff in H as [H1 H2].
  cbn in Hl. destruct (IH b) as [K1 K2]; [lia|exact H2|]. cbn [forallb]. rewrite K1, K2. destruct x, y; try discriminate H1; auto.
Qed.
Lemma madd_finite n (a : list (list ER)) : forall b, length a = length b -> Forall (fun r => length r = n) a -> Forall (fun r => length r = n) b ->
  mfinite (madd a b) = true -> mfinite a = true.
Proof.
  induction a as [|x a IH]; intros [|y b] Hl Ha Hb H; try discriminate; [reflexivity|]. inversion Ha. inversion Hb. subst.
  unfold madd, mfinite in *. cbn in H. apply andb_true_iff in H as [H1 H2]. cbn in Hl.
  cbn [forallb]. rewrite (IH b) by (auto; lia). apply andb_true_iff. split; [|reflexivity]. apply (vadd_finite x y); [congruence|exact H1].
Qed.
Lemma sr1_square n (i : ihapp ER) s y : ih_kind i = ISR1 -> square n (ih_mat i) -> length y = n ->
  square n (ih_mat (ih_update i s y)) /\ (mfinite (ih_mat (ih_update i s y)) = true -> mfinite (ih_mat i) = true).
Proof.
  intros Hk Hm Hy. unfold ih_update. rewrite Hk. set (m := ih_mat i) in *. unfold ih_mat. cbn [ih_base hb_hess].
  assert (Hd : square n (sr1_diff m s y)).
  { unfold sr1_diff. cbv zeta. destruct (_ <=? _)%num; [|now apply square_map].
    apply (square_map n (fun x => (x / _)%num)), square_outer. unfold vsub. rewrite map2_len; [exact Hy|]. unfold matvec. rewrite map_length. destruct Hm. congruence. }
  split; [now apply square_map2|]. destruct Hm as [M1 M2], Hd as [D1 D2]. apply (madd_finite n); auto. congruence.
Qed.
Lemma ih_update_kind (i : ihapp ER) s y : ih_kind (ih_update i s y) = ih_kind i.
Proof. unfold ih_update. destruct (ih_kind i) eqn:E; auto. Qed.
Lemma updates_app k l h : updates (k ++ l) h = updates l (updates k h).
Proof. apply fold_left_app. Qed.
Lemma updates_kind k : forall h, ih_kind (updates k h) = ih_kind h.
Proof. induction k as [|p k IH]; intros h; [reflexivity|]. cbn. unfold updates in IH. now rewrite IH, ih_update_kind. Qed.
Lemma updates_finite n k : forall h, ih_kind h = ISR1 -> square n (ih_mat h) -> Forall (fun p => length (snd p) = n) k ->
  mfinite (ih_mat (updates k h)) = true -> mfinite (ih_mat h) = true.
Proof.
  induction k as [|p k IH]; intros h Hk Hs Hl H; [exact H|]. inversion Hl as [|? ? H1 H2]. subst.
  destruct (sr1_square (length (snd p)) h (fv (fst p)) (fv (snd p))) as [K1 K2]; auto; [apply fv_length|]. apply K2. apply (IH _); auto. now rewrite ih_update_kind.
Qed.
Lemma holding_of (i : ihapp ER) B : ih_kind i = ISR1 -> ih_mat i = fm B -> i = holding ISR1 B (ih_diff i).
Proof. destruct i as [k [hm d]]. unfold ih_mat, ih_diff, holding. cbn. intros -> ->. reflexivity. Qed.

(** *** any number of updates *)
Lemma sr1_many n A : is_mat n n A -> symmetric A -> (0 < n)%nat ->
  forall ss i B B', ih_kind i = ISR1 -> ih_mat i = fm B -> is_mat n n B -> symmetric B ->
    Forall (fun s => length s = n) ss -> ih_mat (updates (quadratic_pairs A ss) i) = fm B' ->
    is_mat n n B' /\ symmetric B' /\ (forall w, length w = n -> rmv B w = rmv A w -> rmv B' w = rmv A w).
Proof.
  intros MA SA Hn. induction ss as [|s ss IH]; intros i B B' Hk Em MB SB Hl H.
  - unfold updates in H. cbn in H. rewrite Em in H. apply fm_inj in H. subst B'. auto.
  - inversion Hl as [|? ? Ls Hl']. subst.
    assert (LA : forall v, length (rmv A v) = length s) by (intros v; rewrite rmv_length; apply MA).
    change (updates (quadratic_pairs A (s :: ss)) i) with (updates (quadratic_pairs A ss) (ih_update i (fv s) (fv (rmv A s)))) in H.
    set (i1 := ih_update i (fv s) (fv (rmv A s))) in *.
    assert (Q : square (length s) (ih_mat i)) by (rewrite Em; now apply square_fm).
    destruct (sr1_square (length s) i (fv s) (fv (rmv A s))) as [Q1 _]; auto; [now rewrite fv_length|]. fold i1 in Q1.
    assert (K1 : ih_kind i1 = ISR1) by (unfold i1; now rewrite ih_update_kind).
    assert (F1 : mfinite (ih_mat i1) = true).
    { apply (updates_finite (length s) (quadratic_pairs A ss)); auto.
      - unfold quadratic_pairs. apply Forall_map. apply Forall_forall. intros w _. apply LA.
      - rewrite H. clear. unfold mfinite, fm. induction B' as [|r M IH]; [reflexivity|]. cbn [map forallb]. rewrite vfinite_fv. exact IH. }
    destruct (mat_of _ _ Q1 F1) as (B1 & E1 & M1).
    assert (X : ih_mat (ih_update (holding ISR1 B (ih_diff i)) (fv s) (fv (rmv A s))) = fm B1) by (rewrite <- holding_of; auto).
    destruct (sr1_step (length s) A B B1 _ s MA SA MB SB eq_refl Hn X) as (_ & S1 & P1 & _).
    destruct (IH i1 B1 B' K1 E1 M1 S1 Hl' H) as (M2 & S2 & P2). split; [exact M2|]. split; [exact S2|]. intros w Lw Ew. apply P2; auto.
Qed.

(** Feed SR1 any sequence of displacements with the gradient changes of a quadratic with Hessian A.  As long as the result is a
    matrix of numbers, it is symmetric, and it maps every displacement whose update changed the matrix to A times it: later
    updates never undo an earlier one. *)
Theorem C61_hereditary : forall n A B0 D ss B,
  (0 < n)%nat -> is_mat n n A -> symmetric A -> is_mat n n B0 -> symmetric B0 -> Forall (fun s => length s = n) ss ->
  ih_mat (updates (quadratic_pairs A ss) (holding ISR1 B0 D)) = fm B ->
  is_mat n n B /\ symmetric B
  /\ forall before s after, ss = before ++ s :: after ->
       ih_mat (updates (quadratic_pairs A (before ++ [s])) (holding ISR1 B0 D))
       <> ih_mat (updates (quadratic_pairs A before) (holding ISR1 B0 D)) ->
       rmv B s = rmv A s.
Proof.
  intros n A B0 D ss B Hn MA SA MB SB Hl H.
  destruct (sr1_many n A MA SA Hn ss (holding ISR1 B0 D) B0 B) as (M & S & _); auto.
  split; [exact M|]. split; [exact S|]. intros before s after -> Hne.
  assert (LA : forall v, length (rmv A v) = n) by (intros v; rewrite rmv_length; apply MA).
  assert (LP : forall l, Forall (fun p : rvec * rvec => length (snd p) = n) (quadratic_pairs A l)).
  { intros l. unfold quadratic_pairs. apply Forall_map. apply Forall_forall. intros w _. apply LA. }
  assert (FF : forall X : rmat, mfinite (fm X) = true).
  { intros X. unfold mfinite, fm. induction X as [|r X IH]; [reflexivity|]. cbn [map forallb]. rewrite vfinite_fv. exact IH. }
  apply Forall_app in Hl as [Hl1 Hl2]. inversion Hl2 as [|? ? Ls Hl3]. subst.
  set (h0 := holding ISR1 B0 D) in *.
  assert (SQ : forall l, square (length s) (ih_mat (updates (quadratic_pairs A l) h0))).
  { intros l. assert (Z : forall k h, ih_kind h = ISR1 -> square (length s) (ih_mat h) -> Forall (fun p : rvec * rvec => length (snd p) = length s) k -> square (length s) (ih_mat (updates k h))).
    { induction k as [|p k IH]; intros h Kh Qh Lk; [exact Qh|]. inversion Lk. subst. apply (IH _); auto; [now rewrite ih_update_kind|].
      apply sr1_square; auto. now rewrite fv_length. }
    apply Z; auto. apply square_fm, MB. }
  set (h1 := updates (quadratic_pairs A before) h0) in *.
  assert (E1 : forall l, updates (quadratic_pairs A (before ++ l)) h0 = updates (quadratic_pairs A l) h1).
  { intros l. unfold quadratic_pairs, h1. rewrite map_app. apply updates_app. }
  assert (K1 : ih_kind h1 = ISR1) by apply updates_kind.
  rewrite (E1 (s :: after)) in H. rewrite (E1 [s]) in Hne.
  change (updates (quadratic_pairs A (s :: after)) h1) with (updates (quadratic_pairs A after) (ih_update h1 (fv s) (fv (rmv A s)))) in H.
  change (updates (quadratic_pairs A [s]) h1) with (ih_update h1 (fv s) (fv (rmv A s))) in Hne.
  set (h2 := ih_update h1 (fv s) (fv (rmv A s))) in *.
  assert (K2 : ih_kind h2 = ISR1) by (unfold h2; now rewrite ih_update_kind).
  assert (Q2 : square (length s) (ih_mat h2)) by (apply sr1_square; auto; try (rewrite fv_length; apply LA); apply SQ).
  assert (F2 : mfinite (ih_mat h2) = true) by (apply (updates_finite (length s) (quadratic_pairs A after)); auto; rewrite H; apply FF).
  assert (F1 : mfinite (ih_mat h1) = true).
  { destruct (sr1_square (length s) h1 (fv s) (fv (rmv A s))) as [_ K]; auto; [apply SQ|]. rewrite fv_length. apply LA. }
  destruct (mat_of _ _ (SQ before) F1) as (B1 & EB1 & M1). destruct (mat_of _ _ Q2 F2) as (B2 & EB2 & M2). fold h1 in EB1.
  destruct (sr1_many (length s) A MA SA Hn before h0 B0 B1) as (_ & S1 & _); auto.
  assert (X : ih_mat (ih_update (holding ISR1 B1 (ih_diff h1)) (fv s) (fv (rmv A s))) = fm B2) by (rewrite <- holding_of; auto).
  destruct (sr1_step (length s) A B1 B2 _ s MA SA M1 S1 eq_refl Hn X) as (_ & S2 & _ & P2).
  destruct (sr1_many (length s) A MA SA Hn after h2 B2 B) as (_ & _ & P3); auto.
  apply P3; auto. apply P2. intros ->. apply Hne. congruence.
Qed.

(** the displacements span the space: every unit vector is a linear combination of them *)
Definition spans (n : nat) (ss : list rvec) : Prop :=
  forall j, (j < n)%nat -> exists c, length c = length ss /\ rlincomb n c ss = nth j (reye n) [].
Lemma rmv_rlincomb n A c : is_mat n n A -> forall ss, Forall (fun s => length s = n) ss ->
  rmv A (rlincomb n c ss) = rlincomb n c (map (rmv A) ss).
Proof.
  intros MA. induction c as [|a c IH]; intros [|s ss] Hl; cbn [rlincomb map].
  all: try (apply rvec_ext; [rewrite rmv_length, rzeros_length; apply MA|]; intros i; rewrite nth_rmv, nth_rzeros; apply rdot_zeros_r).
  inversion Hl. subst. rewrite rmv_radd, rmv_rscale, IH; auto. rewrite rscale_length, rlincomb_length; auto.
Qed.
(** Once the displacements that changed the matrix span the space, the approximation is the Hessian. *)
Theorem C61_recovers_hessian : forall n A B0 D ss B learned,
  (0 < n)%nat -> is_mat n n A -> symmetric A -> is_mat n n B0 -> symmetric B0 -> Forall (fun s => length s = n) ss ->
  ih_mat (updates (quadratic_pairs A ss) (holding ISR1 B0 D)) = fm B ->
  (forall s, In s learned -> exists before after, ss = before ++ s :: after
     /\ ih_mat (updates (quadratic_pairs A (before ++ [s])) (holding ISR1 B0 D))
        <> ih_mat (updates (quadratic_pairs A before) (holding ISR1 B0 D))) ->
  spans n learned -> B = A.
Proof.
  intros n A B0 D ss B learned Hn MA SA MB SB Hl H HL Hsp.
  destruct (C61_hereditary n A B0 D ss B) as (M & S & P); auto.
  assert (HLl : Forall (fun s => length s = n) learned).
  { apply Forall_forall. intros s Hs. destruct (HL s Hs) as (b & a & -> & _). rewrite Forall_forall in Hl. apply Hl. apply in_or_app. right. now left. }
  assert (HLe : map (rmv B) learned = map (rmv A) learned).
  { apply map_ext_in. intros s Hs. destruct (HL s Hs) as (b & a & E & Hne). now apply (P b s a). }
  assert (Col : forall X j i, is_mat n n X -> (j < n)%nat -> (i < n)%nat -> nth i (rmv X (nth j (reye n) [])) 0 = entry X i j).
  { intros X j i MX Hj Hi. rewrite nth_rmv. unfold entry.
    assert (Lr : length (nth i X []) = n) by now apply (is_mat_row n n).
    rewrite (rdot_sum n) by auto. rewrite (rsum_single n _ j); auto.
    - fold (entry (reye n) j j). rewrite entry_eye, Nat.eqb_refl by auto. ring.
    - intros k Hk Hne. fold (entry (reye n) j k). rewrite entry_eye by auto. destruct (Nat.eqb_spec j k); [congruence|ring]. }
  apply (rmat_ext n n); auto. intros i j. 
  destruct (Nat.lt_ge_cases i n) as [Hi|Hi]; [|intros; rewrite !(entry_oob n n); auto].
  destruct (Nat.lt_ge_cases j n) as [Hj|Hj]; [|intros; rewrite !(entry_oob n n); auto].
  intros. rewrite <- !Col by auto. destruct (Hsp j Hj) as (c & _ & <-). rewrite !rmv_rlincomb, HLe by auto. reflexivity.
Qed.

(** *** whole runs *)
(** Wherever the objective reports a gradient of numbers, the point is finite and the gradient is A x + b. *)
Definition linear_gradient (E : env ER) (C : cfg ER) (n : nat) (A : rmat) (b : rvec) : Prop :=
  forall k p g, length p = n -> gradient_of C (e_obj E k p) = Some (fv g) -> exists x, p = fv x /\ g = radd (rmv A x) b.

(** zero or more passes of the loop *)
Inductive passes {T} {N : Num T} (E : env T) (C : cfg T) : fout T -> opt T -> fout T -> opt T -> Prop :=
| ps_0 f s : passes E C f s f s
| ps_S f s f1 s1 s2 f' s' : passes E C f s f1 s1 -> check_continue E C s1 = (Ok true, s2) -> iteration E C f1 s2 = (Ok f', s') ->
    passes E C f s f' s'.

Section Runs.
  Variables (E : env ER) (C : cfg ER) (n : nat) (A : rmat) (b : rvec).
  Variables (ndim : nat) (x0 : list ER) (sid : option string) (h0 : hess0_arg ER) (st : opt ER) (i0 : ihapp ER) (B0 : rmat).
  Hypothesis Hn : (1 <= n)%nat.
  Hypothesis MA : is_mat n n A.
  Hypothesis SA : symmetric A.
  Hypothesis Lb : length b = n.
  Hypothesis Hg : linear_gradient E C n A b.
  Hypothesis Elb : c_lb C = no_lb n.
  Hypothesis Eub : c_ub C = no_ub n.
  Hypothesis Lx0 : length x0 = n.
  Hypothesis Hh : o_happ st = Some (HIter i0).
  Hypothesis Hk : ih_kind i0 = ISR1.
  (** starting from the identity or from a symmetric hess0 *)
  Hypothesis H0 : h0 = H0None \/ h0 = H0Mat (fm B0) /\ is_mat n n B0 /\ symmetric B0.
  Local Notation head := (loop_head E C ndim x0 sid h0 st).

  (** what the optimizer holds at a head of the loop *)
  Definition on_track (s : opt ER) (x : rvec) : Prop :=
    length x = n /\ deref s (o_x s) = fv x /\ o_grad s = fv (radd (rmv A x) b)
    /\ (exists j, o_happ s = Some (HIter j) /\ ih_kind j = ISR1 /\ o_hess s = ih_mat j)
    /\ square n (o_hess s) /\ (forall B, o_hess s = fm B -> is_mat n n B /\ symmetric B).

  Lemma track_start f s : prepare E C ndim x0 sid h0 st = (Ok f, s) -> exists x, on_track s x.
  Proof using Hn Hg Lx0 Hh Hk H0.
    intros H. pose proof (loop_head_Inv E C _ _ _ _ _ _ _ (lh_start E C ndim x0 sid h0 st f s H)) as I.
    apply prepare_inv in H. inversion H as [| | | | | |pf hess h' f1 D1 D2 D3 D4 D5 D6 D7 Ef Es0]. subst f1.
    destruct (value_typed C _ _ _ _ _ D3 D6) as [Hv Hgr]. unfold pr_ret in Hv, Hgr.
    set (p := nudge C x0) in *.
    assert (Ex : deref s (o_x s) = p).
    { rewrite <- Es0. unfold deref, pr_s4. destruct better; unfold pr_s3, pr_s2, pr_s1, pr_s0; destruct pr_id; apply nth_middle. }
    assert (Eg : o_grad s = fo_grad f) by (rewrite <- Es0; unfold pr_s4; destruct better; reflexivity).
    assert (Lp : length p = n) by (rewrite <- Ex, (iv_len _ _ _ _ _ _ _ I); exact Lx0).
    destruct (iv_fin _ _ _ _ _ _ _ I) as [_ Fg]. apply vfinite_inv in Fg as [g Eg2]. rewrite <- Eg, Eg2 in Hgr.
    destruct (Hg _ _ _ Lp Hgr) as (x & Epx & ->). rewrite Es0. exists x.
    assert (E1 : o_hess s = hess) by (rewrite <- Es0; unfold pr_s4; destruct better; reflexivity).
    assert (E2 : o_happ s = h') by (rewrite <- Es0; unfold pr_s4; destruct better; reflexivity).
    split; [rewrite <- (fv_length x), <- Epx; exact Lp|]. split; [congruence|]. split; [exact Eg2|].
    rewrite E1, E2. unfold pr_hess in D4. rewrite Hh in D4. rewrite Lx0 in D4.
    destruct (pr_hess0 h0 pf) as [arg|] eqn:Ea; [|discriminate]. cbn [h_init] in D4. unfold ih_init in D4.
    destruct (hb_init n arg) as [hb|] eqn:Eb; [|discriminate]. injection D4 as <- <-.
    split; [exists (mkIhapp (ih_kind i0) hb); auto|]. unfold h_mat, ih_mat. cbn [ih_base].
    destruct H0 as [-> | (-> & HB1 & HB2)]; cbn [pr_hess0] in Ea; apply ok_inj in Ea; subst arg; unfold hb_init in Eb.
    - apply ok_inj in Eb. subst hb. cbn [hb_hess]. rewrite h_eye. split; [apply square_fm, is_mat_eye|].
      intros B HB. apply fm_inj in HB. subst B. split; [apply is_mat_eye|apply symmetric_eye].
    - destruct Nat.eqb; [|discriminate]. apply ok_inj in Eb. subst hb. cbn [hb_hess]. split; [now apply square_fm|].
      intros B HB. apply fm_inj in HB. subst B. auto.
  Qed.

  (** one pass *)
  Lemma track_pass f s s1 f' s' x : head f s -> check_continue E C s = (Ok true, s1) -> iteration E C f s1 = (Ok f', s') -> on_track s x ->
    exists x', on_track s' x'
      /\ forall B B', o_hess s = fm B -> o_hess s' = fm B' ->
           (forall w, length w = n -> rmv B w = rmv A w -> rmv B' w = rmv A w)
           /\ (B' <> B -> rmv B' (rsub x' x) = rmv A (rsub x' x)).
  Proof using Hn MA SA Lb Hg Elb Eub Lx0 Hh Hk H0.
    intros HL Hc Hi (Lx & Ex & Eg & (j & Ej & Kj & EB) & Qs & Hs).
    pose proof (loop_head_Inv E C _ _ _ _ _ _ _ (lh_next E C ndim x0 sid h0 st f s s1 f' s' HL Hc Hi)) as I'.
    destruct (C15_pass E C _ _ _ _ _ _ _ _ _ _ HL Hc Hi) as (sp & r & v & g & P1 & P2 & P3 & P4 & P5 & P6).
    destruct (C15_hessian_after_acceptance E C _ _ _ _ _ _ _ _ _ _ HL Hc Hi) as (sp2 & r2 & v2 & g2 & pf & R1 & R2 & R3 & R4 & R5 & R6).
    assert (sp2 = sp) by (destruct P1 as [P1 _], R1 as [R1 _]; congruence). subst sp2.
    assert (r2 = r) by (rewrite P2 in R2; apply app_inv_head in R2; congruence). subst r2.
    assert (v2 = v) by congruence. assert (g2 = g) by congruence. subst v2 g2.
    destruct (accepts C s sp v g) eqn:Ea.
    - destruct P6 as (Q1 & Q2 & Q3 & Q4). specialize (R6 eq_refl). rewrite Ej in R6. destruct R6 as (h' & fn & U1 & U2 & U3 & U4).
      unfold happ_update in U1. apply ok_inj in U1. subst h'. cbn [h_mat] in U4.
      destruct (value_typed C _ _ _ _ _ R3 U2) as [_ Tg].
      assert (Egn : fo_grad fn = g) by congruence. rewrite Egn in U3, U4. clear Tg Egn U2.
      destruct (iv_fin _ _ _ _ _ _ _ I') as [_ Fg]. rewrite Q2 in Fg. apply vfinite_inv in Fg as [gr Egr].
      assert (Ltp : length (trial_point s sp) = n).
      { destruct P1 as (_ & L1 & L2). rewrite Ex, fv_length in L1, L2. unfold trial_point. rewrite Ex. unfold vadd.
        rewrite !map2_len; rewrite ?map2_len; rewrite ?fv_length; congruence. }
      rewrite P3, Egr in P5. destruct (Hg _ _ _ Ltp P5) as (x' & Et & ->).
      assert (Lx' : length x' = n) by (rewrite <- (fv_length x'), <- Et; exact Ltp).
      assert (Est : exists w, vadd (st_s sp) (st_s0 sp) = fv w /\ length w = n /\ x' = radd x w).
      { destruct P1 as (_ & L1 & L2). rewrite Ex, fv_length in L1, L2. unfold trial_point in Et. rewrite Ex in Et.
        assert (F1 : vfinite (vadd (vadd (fv x) (st_s sp)) (st_s0 sp)) = true) by (rewrite Et; apply vfinite_fv).
        apply vadd_finite in F1 as [F1 F2]; [|unfold vadd; rewrite map2_len; rewrite ?fv_length; congruence].
        apply vadd_finite in F1 as [_ F1]; [|rewrite fv_length; congruence].
        apply vfinite_inv in F1 as [a Ea1], F2 as [c Ea2]. rewrite Ea1, Ea2 in *. rewrite fv_length in L1, L2.
        rewrite !h_vadd in Et. apply fv_inj in Et. exists (radd a c). rewrite h_vadd. split; [reflexivity|]. split; [rlen|].
        rewrite <- Et. apply rvec_ext; [rlen|]. intros k. rewrite !nth_radd by rlen. ring. }
      destruct Est as (w & Ew & Lw & Exw). rewrite Ew in U3, U4. rewrite Eg, Egr, h_vsub in U3, U4.
      assert (LA : length A = n) by apply MA.
      assert (Ey : rsub (radd (rmv A x') b) (radd (rmv A x) b) = rmv A w).
      { rewrite Exw, rmv_radd by congruence. apply rvec_ext; [rlen|]. intros k. rewrite nth_rsub, !nth_radd by rlen. ring. }
      rewrite Ey in U3, U4.
      assert (LAw : length (rmv A w) = n) by rlen.
      rewrite EB in Qs, Hs. 
      assert (Step : forall B', ih_mat (ih_update j (fv w) (fv (rmv A w))) = fm B' -> exists B, ih_mat j = fm B /\ is_mat n n B' /\ symmetric B'
                /\ (forall w, length w = n -> rmv B w = rmv A w -> rmv B' w = rmv A w) /\ (B' <> B -> rmv B' w = rmv A w)).
      { intros B' HB'. destruct (sr1_square n j (fv w) (fv (rmv A w)) Kj Qs) as [_ K]; [now rewrite fv_length|].
        assert (Fj : mfinite (ih_mat j) = true).
        { apply K. rewrite HB'. clear. unfold mfinite, fm. induction B' as [|q M IH]; [reflexivity|]. cbn [map forallb]. rewrite vfinite_fv. exact IH. }
        destruct (mat_of n _ Qs Fj) as (B & EBj & MB). exists B. split; [exact EBj|].
        destruct (Hs B EBj) as [_ SB]. rewrite (holding_of j B Kj EBj) in HB'.
        exact (sr1_step n A B B' _ w MA SA MB SB Lw ltac:(lia) HB'). }
      exists x'. split.
      + split; [exact Lx'|]. split; [rewrite Q3, Et; now apply (nudge_free C n)|]. split; [congruence|]. split; [|split].
        * eexists. split; [exact U3|]. split; [now rewrite ih_update_kind|exact U4].
        * rewrite U4. apply sr1_square; auto. now rewrite fv_length.
        * intros B' HB'. rewrite U4 in HB'. destruct (Step B' HB') as (B & _ & K1 & K2 & _). auto.
      + intros B B' HB HB'. rewrite U4 in HB'. destruct (Step B' HB') as (B1 & E1 & _ & _ & K3 & K4).
        rewrite EB, E1 in HB. apply fm_inj in HB. subst B1. split; [exact K3|].
        assert (Ed : rsub x' x = w) by (rewrite Exw; apply rvec_ext; [rlen|]; intros k; rewrite nth_rsub, nth_radd by rlen; ring). now rewrite Ed.
    - destruct P6 as (Q1 & Q2 & Q3 & Q4 & Q5 & Q6 & Q7). exists x. split.
      + split; [exact Lx|]. split; [congruence|]. split; [congruence|]. rewrite Q3, Q4. split; [exists j; auto|]. split; [exact Qs|exact Hs].
      + intros B B' HB HB'. rewrite Q3, HB in HB'. apply fm_inj in HB'. subst B'. split; [auto|congruence].
  Qed.
  Lemma track_head f s : head f s -> exists x, on_track s x.
  Proof using Hn MA SA Lb Hg Elb Eub Lx0 Hh Hk H0.
    induction 1 as [f s Hp|f s s1 f' s' HL [x IH] Hc Hi]; [now apply (track_start f)|].
    destruct (track_pass f s s1 f' s' x HL Hc Hi IH) as (x' & K & _). eauto.
  Qed.
  Lemma passes_head f s f' s' : head f s -> passes E C f s f' s' -> head f' s'.
  Proof using. intros HL H. induction H as [|f s f1 s1 s2 f' s' _ IH Hc Hi]; [exact HL|]. apply (lh_next E C ndim x0 sid h0 st f1 s1 s2 f' s'); auto. Qed.

  (** Without bounds: from any head of the loop, whatever follows, a direction on which the quadratic model has the right curvature
      keeps it for the rest of the run (as long as the model is a matrix of numbers); *)
  Lemma passes_finite f s f' s' : head f s -> passes E C f s f' s' -> mfinite (o_hess s') = true -> mfinite (o_hess s) = true.
  Proof using Hn MA SA Lb Hg Elb Eub Lx0 Hh Hk H0.
    intros HL H. induction H as [|f s f1 s1 s2 f' s' HP IH Hc Hi]; [auto|]. intros _. apply IH; [exact HL|].
    apply check_continue_true in Hc as (-> & _). apply iteration_ok in Hi as (sp & fn & K).
    pose proof (ev_cur _ _ _ _ _ (ik_ev _ _ _ _ _ _ _ _ K)) as Hcur. unfold all_finite in Hcur. now apply andb_true_iff in Hcur as [_ Hcur].
  Qed.
  Theorem C61_run_keeps : forall f s f' s' B B' w, head f s -> passes E C f s f' s' ->
    o_hess s = fm B -> o_hess s' = fm B' -> length w = n -> rmv B w = rmv A w -> rmv B' w = rmv A w.
  Proof using Hn MA SA Lb Hg Elb Eub Lx0 Hh Hk H0.
    intros f s f' s' B B' w HL H EB EB' Lw Ew. revert B' EB'. induction H as [|f s f1 s1 s2 f' s' HP IH Hc Hi]; intros B' EB'.
    - rewrite EB in EB'. apply fm_inj in EB'. now subst B'.
    - assert (HL1 : head f1 s1) by (eapply passes_head; eauto).
      destruct (track_head f1 s1 HL1) as (x & T1). destruct (track_pass f1 s1 s2 f' s' x HL1 Hc Hi T1) as (x' & _ & K).
      assert (F1 : mfinite (o_hess s1) = true).
      { pose proof Hc as Hc'. apply check_continue_true in Hc' as (-> & _). apply iteration_ok in Hi as (sp & fn & K').
        pose proof (ev_cur _ _ _ _ _ (ik_ev _ _ _ _ _ _ _ _ K')) as Hcur. unfold all_finite in Hcur. now apply andb_true_iff in Hcur as [_ Hcur]. }
      destruct T1 as (_ & _ & _ & _ & Q1 & _). destruct (mat_of n _ Q1 F1) as (B1 & E1 & _).
      destruct (K B1 B' E1 EB') as [K1 _]. apply K1; auto.
  Qed.
  (** and a pass that changes the model gives it the right curvature along the displacement of the iterate. *)
  Theorem C61_run_learns : forall f s s1 f' s' B B', head f s -> check_continue E C s = (Ok true, s1) -> iteration E C f s1 = (Ok f', s') ->
    o_hess s = fm B -> o_hess s' = fm B' -> B' <> B ->
    exists x x', deref s (o_x s) = fv x /\ deref s' (o_x s') = fv x' /\ length x = n /\ length x' = n
      /\ rmv B' (rsub x' x) = rmv A (rsub x' x).
  Proof using Hn MA SA Lb Hg Elb Eub Lx0 Hh Hk H0.
    intros f s s1 f' s' B B' HL Hc Hi EB EB' Hne. destruct (track_head f s HL) as (x & T1).
    destruct (track_pass f s s1 f' s' x HL Hc Hi T1) as (x' & T2 & K). exists x, x'.
    destruct (K B B' EB EB') as [_ K2]. destruct T1 as (A1 & A2 & _), T2 as (A3 & A4 & _). repeat split; auto.
  Qed.
End Runs.
