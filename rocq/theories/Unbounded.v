(** Problems without bounds, in exact arithmetic: the scaling is the identity, nothing is stepped back, there is a single
    candidate, and neither the nudge nor the bounds check has any effect (proof library for C55 and C56) *)
From Coq Require Import String ZArith List Bool Reals Lra Lia Psatz.
From Verif Require Import Num Constants Subproblem HessApprox Steps TrustRegion Minimize
  ER NumFacts MonadFacts MinFacts Spec Run RunInv RVec SubNd RShess Argmin Cand StepFacts Prop_Sub1d Prop_Pred Prop_Box
  Prop_Cand TRErr RealStep Prop_Grad Region Prop_CG Prop_Run Prop_Nudge Prop_BoxRun.
Import ListNotations.
Local Open Scope R_scope.
Local Open Scope list_scope.

(** the bounds of a problem without bounds *)
Definition no_lb (n : nat) : list ER := repeat NInf n.
Definition no_ub (n : nat) : list ER := repeat PInf n.
Definition rones (n : nat) : rvec := repeat 1 n.

Lemma rones_length n : length (rones n) = n. Proof. apply repeat_length. Qed.
Lemma nth_rones n i : (i < n)%nat -> nth i (rones n) 0 = 1.
Proof. intros H. unfold rones. rewrite (nth_indep _ 0 1) by (now rewrite repeat_length). apply nth_repeat. Qed.
Lemma rmul_ones n v : length v = n -> rmul (rones n) v = v.
Proof.
  intros L. apply rvec_ext; [rewrite (rmul_length _ _ n); auto using rones_length|].
  intros i. rewrite (nth_rmul _ _ n) by auto using rones_length.
  destruct (Nat.lt_ge_cases i n) as [Hi|Hi]; [rewrite nth_rones by auto; ring|].
  rewrite (nth_overflow v) by lia. ring.
Qed.

(** scaling *)
Lemma affine1_free a b : exists v, affine1 (Fin a) (Fin b) NInf PInf = (Fin v, Fin 0) /\ Rabs v = 1.
Proof.
  unfold affine1. cbv zeta.
  assert (K : nisfin (if (Fin b <? n0)%num then PInf else NInf) = false) by (destruct (Fin b <? n0)%num; reflexivity).
  rewrite K.
  assert (V : exists v, (npsign (Fin b) + nofbool (Fin b =? n0))%num = Fin v /\ Rabs v = 1).
  { unfold npsign. cbn [nisnan ERNum er_isnan nltb er_ltb n0 nofZ neqb er_eqb].
    destruct (Rltb_spec b 0) as [H1|H1]; destruct (Rltb_spec 0 b) as [H2|H2]; destruct (Reqb_spec b 0) as [H3|H3]; try (exfalso; lra);
      cbn [nofbool n1 n0 nofZ nopp ERNum er_opp nadd er_add]; eexists; (split; [reflexivity|]).
    - rewrite Rabs_left; lra.
    - rewrite Rabs_right; lra.
    - rewrite Rabs_right; lra. }
  destruct V as (v & Ev & Hv). exists v.
  rewrite Ev. auto.
Qed.
Lemma affine_free : forall n x g, length x = n -> length g = n ->
  exists v, length v = n /\ affine_scaling (fv x) (fv g) (no_lb n) (no_ub n) = map (fun a => (Fin a, Fin 0)) v
    /\ Forall (fun a => Rabs a = 1) v.
Proof.
  induction n as [|n IH]; intros [|a x] [|b g]; simpl; try lia; intros Lx Lg; [exists []; auto|].
  destruct (IH x g) as (v & Lv & Ev & Fv); try lia. destruct (affine1_free a b) as (w & Ew & Hw).
  exists (w :: v). simpl. split; [lia|]. split; [|auto]. rewrite Ew. f_equal. exact Ev.
Qed.
Lemma scaling_free n v : length v = n -> Forall (fun a => Rabs a = 1) v ->
  map (fun p : ER * ER => nsqrt (nabs (fst p))) (map (fun a => (Fin a, Fin 0)) v) = fv (rones n).
Proof.
  intros <- F. rewrite map_map. unfold fv, rones. induction F as [|a v Ha F IH]; [reflexivity|].
  cbn [map length repeat]. f_equal; [|exact IH]. cbn [fst nabs ERNum er_abs nsqrt er_sqrt]. rewrite Ha.
  destruct (Rltb_spec 1 0); [lra|]. now rewrite sqrt_1.
Qed.
Lemma dv_free n v : length v = n -> map snd (map (fun a : R => (Fin a, Fin 0)) v) = fv (rzeros n).
Proof. intros <-. rewrite map_map. unfold fv, rzeros. induction v; [reflexivity|]. cbn [map length repeat snd]. f_equal. exact IHv. Qed.

(** bounds *)
Lemma nth_no_lb n i : (i < n)%nat -> nth i (no_lb n) NaN = NInf.
Proof. intros H. unfold no_lb. rewrite (nth_indep _ NaN NInf) by (now rewrite repeat_length). apply nth_repeat. Qed.
Lemma nth_no_ub n i : (i < n)%nat -> nth i (no_ub n) NaN = PInf.
Proof. intros H. unfold no_ub. rewrite (nth_indep _ NaN PInf) by (now rewrite repeat_length). apply nth_repeat. Qed.
Lemma free_box n x : box_strict n (no_lb n) (no_ub n) x.
Proof. intros i Hi. rewrite nth_no_lb, nth_no_ub by auto. split; reflexivity. Qed.
Lemma free_box_in n x : box_in n (no_lb n) (no_ub n) x.
Proof. intros i Hi. apply strictly_inside_inside, free_box, Hi. Qed.
Lemma vsub_ub n : forall x, length x = n -> vsub (no_ub n) (fv x) = repeat PInf n.
Proof. induction n; intros [|a x]; simpl; try lia; intros L; [reflexivity|]. unfold vsub in *. cbn. f_equal. apply IHn. lia. Qed.
Lemma vsub_lb n : forall x, length x = n -> vsub (no_lb n) (fv x) = repeat NInf n.
Proof. induction n; intros [|a x]; simpl; try lia; intros L; [reflexivity|]. unfold vsub in *. cbn. f_equal. apply IHn. lia. Qed.
Lemma vsub_lb' n : forall x, length x = n -> vsub (fv x) (no_lb n) = repeat PInf n.
Proof. induction n; intros [|a x]; simpl; try lia; intros L; [reflexivity|]. unfold vsub in *. cbn. f_equal. apply IHn. lia. Qed.
Lemma vabs_pinf n : vabs (repeat PInf n) = repeat PInf n.
Proof. induction n; [reflexivity|]. unfold vabs in *. cbn. f_equal. exact IHn. Qed.
Lemma in_bounds_free (C : cfg ER) n x : c_lb C = no_lb n -> c_ub C = no_ub n -> length x = n -> in_bounds C (fv x) = true.
Proof.
  intros El Eu L. unfold in_bounds. rewrite El, Eu, vsub_ub, vsub_lb by auto. clear. induction n; [reflexivity|].
  cbn [repeat map forallb]. apply andb_true_iff in IHn as [H1 H2]. rewrite H1, H2, !andb_true_r.
  cbn. unfold er_infmul. destruct (Rltb_spec 0 (- (1))); [lra|]. destruct (Rltb_spec (- (1)) 0); [|lra]. destruct (Rltb_spec 0 1); [|lra]. reflexivity.
Qed.
Lemma nudge_free (C : cfg ER) n x : c_lb C = no_lb n -> c_ub C = no_ub n -> (1 <= n)%nat -> length x = n -> nudge C (fv x) = fv x.
Proof.
  intros El Eu Hn L. unfold nudge. rewrite El, Eu, vsub_ub, vsub_lb', vabs_pinf by auto. rewrite npmin_pinf by auto.
  rewrite Prop_Nudge.eps_is_margin. reflexivity.
Qed.

(** step-back parameter *)
Lemma theta_free tm v g : 0 < tm -> length v = length g -> Forall (fun a => Rabs a = 1) v -> (1 <= length g)%nat ->
  exists t, pymax (Fin tm) (n1 - norm_inf (vmul (map fst (map (fun a : R => (Fin a, Fin 0)) v)) (fv g)))%num = Fin t
    /\ (tm <= 1 -> 0 < t <= 1).
Proof.
  intros Ht Lv Fv Lg.
  assert (E : vmul (map fst (map (fun a : R => (Fin a, Fin 0)) v)) (fv g) = fv (rmul v g)).
  { rewrite map_map. cbn [fst]. change (map (fun x => Fin x) v) with (fv v). apply h_vmul. }
  rewrite E. unfold norm_inf. rewrite h_vabs.
  assert (M : forall l a, 0 <= a -> Forall (fun b => 0 <= b) l -> exists m, fold_left npmax2 (fv l) (Fin a) = Fin m /\ 0 <= m).
  { induction l as [|b l IH]; intros a Ha Hl; [exists a; auto|]. inversion Hl; subst. cbn [fv map fold_left].
    unfold npmax2 at 2. cbn [nisnan ERNum er_isnan nltb er_ltb]. destruct (Rltb a b); apply IH; auto. }
  assert (K : exists m, npmax (fv (rabsv (rmul v g))) = Fin m /\ 0 <= m).
  { assert (Ll : length (rabsv (rmul v g)) = length g) by (rewrite rabsv_length; now apply rmul_length).
    assert (Fl : Forall (fun b => 0 <= b) (rabsv (rmul v g))).
    { unfold rabsv. apply Forall_map, Forall_forall. intros; apply Rabs_pos. }
    destruct (rabsv (rmul v g)) as [|a l]; [simpl in Ll; lia|]. inversion Fl; subst. cbn [fv map npmax]. apply M; auto. }
  destruct K as (m & -> & Hm). unfold pymax. cbn [nsub ERNum er_sub er_opp er_add n1 nofZ nltb er_ltb].
  destruct (Rltb_spec tm (1 + - m)); eexists; (split; [reflexivity|]); intros; lra.
Qed.

(** breakpoints of a finite step *)
Lemma breakpoints_free : forall n y s, length y = n -> length s = n -> breakpoints (fv y) (fv s) (no_lb n) (no_ub n) = repeat PInf n.
Proof.
  induction n as [|n IH]; intros [|a y] [|b s]; simpl; try lia; intros Ly Ls; [reflexivity|].
  f_equal; [|apply IH; lia]. unfold breakpoint. cbn. destruct (Rltb_spec 0 (Rabs b)) as [Hb|]; [|reflexivity].
  unfold npmax2. cbn [er_div]. destruct (Rltb_spec b 0); reflexivity.
Qed.

(** *** the trust region subproblem of a problem without bounds *)
Section Free.
  Variables (O : StepOracles ER) (n : nat) (x g : rvec) (H : rmat) (delta theta : R).
  Hypothesis Hn : (1 <= n)%nat.
  Hypothesis Lx : length x = n.
  Hypothesis Lg : length g = n.
  Hypothesis MH : is_mat n n H.
  Hypothesis SH : symmetric H.
  Hypothesis Hd : 0 < delta.
  Hypothesis Ht : 0 < theta <= 1.

  Lemma free_problem : problem n x g H (rones n) (rzeros n) delta theta (no_lb n) (no_ub n).
  Proof using All.
    constructor; auto using rones_length, rzeros_length.
    - apply Forall_forall. intros d Hi. apply repeat_spec in Hi. lra.
    - apply repeat_length.
    - apply repeat_length.
    - apply free_box_in.
  Qed.
  Lemma free_sg : rsg g (rones n) = g. Proof using Lg. now apply rmul_ones. Qed.
  Lemma free_B : rB n g H (rones n) (rzeros n) = H.
  Proof using Lg MH.
    apply (rmat_ext n n); auto; [apply rB_mat|]. intros i j Hi Hj. unfold rB. rewrite entry_rshess by auto.
    rewrite !nth_rones by auto. rewrite (nth_rmul _ _ n), nth_rzeros by (rewrite ?rabsv_length; auto using rzeros_length).
    destruct (Nat.eqb i j); ring.
  Qed.
  Local Notation A := (rA x g H (rones n) (rzeros n) delta theta (no_lb n) (no_ub n)).

  (** a finite step from the start is not shortened *)
  Lemma free_alpha r s ss sc c : stepped r s ss sc c -> st_x r = fv x -> st_lb r = no_lb n -> st_ub r = no_ub n -> st_theta r = Fin theta ->
    (exists w, length w = n /\ s = fv w) -> st_alpha c = n1.
  Proof using Hn Lx Ht.
    intros [] E1 E2 E3 E4 (w & Lw & ->). rewrite E1, E2, E3, breakpoints_free in sb_br by auto.
    rewrite sb_br, npmin_pinf in sb_minbr by auto. rewrite sb_alpha, sb_minbr, E4. cbn [nmul ERNum er_mul]. unfold er_infmul.
    destruct (Rltb_spec 0 theta); [|lra]. reflexivity.
  Qed.
  (** and then it is the only candidate *)
  Lemma free_single sd strat c : main_step O A sd = Ok c -> st_alpha c = n1 ->
    candidates O A sd strat = Ok [c]
    /\ trust_region O (fv x) (fv g) (fm H) (fv (rones n)) (Fin delta) (fv (rzeros n)) (Fin theta) (no_lb n) (no_ub n) sd strat = Ok c.
  Proof using.
    intros Hm Ha. assert (Hc : candidates O A sd strat = Ok [c]).
    { unfold candidates. rewrite Hm. cbn [rbind]. rewrite Ha.
      assert (E : ((n1 : ER) <? n1)%num = false) by (cbn; destruct (Rltb_spec 1 1); [lra|reflexivity]). rewrite E. reflexivity. }
    split; [exact Hc|]. unfold trust_region. cbv zeta. change (tr_args _ _ _ _ _ _ _ _ _) with A. rewrite Hc. reflexivity.
  Qed.

  Lemma rscale_1 v : rscale 1 v = v.
  Proof using. apply rvec_ext; [rlen|]. intros i. rewrite nth_rscale. ring. Qed.
  Lemma vscaler_1 v : vscaler (fv v) n1 = fv v.
  Proof using. change (n1 : ER) with (Fin 1). now rewrite h_vscaler, rscale_1. Qed.

  (** what the proposed step is, whatever the subspace solver *)
  Record free_step (c : step ER) (w : rvec) : Prop := mkFreeStep {
    fs_len : length w = n;
    fs_s : st_s c = fv w;
    fs_s0 : st_s0 c = fv (rzeros n);
    fs_ss : vadd (st_ss c) (st_ss0 c) = fv w;
    fs_q : st_qpval c = Fin (qmodel H g w)
  }.

  Lemma free_scg strat : nonzero g -> (n <= so_cgfuel O)%nat ->
    exists c w, trust_region O (fv x) (fv g) (fm H) (fv (rones n)) (Fin delta) (fv (rzeros n)) (Fin theta) (no_lb n) (no_ub n) "scg" strat = Ok c
      /\ candidates O A "scg" strat = Ok [c]
      /\ free_step c w /\ rnorm w <= delta
      /\ (forall a, rnorm (rscale a g) <= delta -> qmodel H g w <= qmodel H g (rscale a g)).
  Proof using All.
    intros Hnz Hf. pose proof free_problem as P.
    destruct (C31_step O n x g H (rones n) (rzeros n) delta theta (no_lb n) (no_ub n) P Hnz Hf) as (c & u & t & z & Ec & Hst & Lu & Lz & Nz & Nn & _ & Ho).
    rewrite free_B, free_sg in Ho.
    set (w := radd (rscale t u) z) in *. assert (Lw : length w = n) by (unfold w; rlen).
    rewrite rmul_ones in Hst by auto.
    assert (Ha : st_alpha c = n1) by (eapply free_alpha; [exact Hst|reflexivity..|exists w; auto]).
    destruct (free_single "scg" strat c Ec Ha) as [F1 F2].
    exists c, w. split; [exact F2|]. split; [exact F1|]. split; [|auto].
    pose proof (cg_fields O A c Ec) as (sub & sc & ss & ss0 & s & _ & _ & Hst2 & Eq).
    destruct Hst. cbn [new_step st_s0 st_ss0] in *.
    assert (Ess : vadd (st_ss c) (st_ss0 c) = fv w) by (rewrite sb_ss, sb_ss0, Ha, vscaler_1, h_vadd; reflexivity).
    constructor; auto.
    - rewrite sb_s, Ha. apply vscaler_1.
    - rewrite sb_s0. apply (zeros_rA n x g H (rones n) (rzeros n) delta theta (no_lb n) (no_ub n) P).
    - rewrite Eq, Ess, sb_shess, sb_sg.
      change (st_shess (new_step "cgs" A (fv x) (fm [u]) (zeros_of A) (fv z) [] [] None None)) with (shess_of (a_scaling A) (a_hess A) (a_gd A)).
      change (st_sg (new_step "cgs" A (fv x) (fm [u]) (zeros_of A) (fv z) [] [] None None)) with (a_sg A).
      rewrite (rA_shess n x g H (rones n) (rzeros n) delta theta (no_lb n) (no_ub n) P), rA_sg, free_B, free_sg.
      now apply (h_quadratic n).
  Qed.
End Free.
