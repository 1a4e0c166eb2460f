(** C63: convergence of minimize on smooth problems with bounds (exact arithmetic; solvers full and 2D, strategies reflect and
    reflect_single) *)
From Coq Require Import String ZArith List Bool Reals Lra Lia Psatz.
From Verif Require Import Num Constants Subproblem HessApprox Steps TrustRegion Minimize
  ER NumFacts MonadFacts MinFacts Spec Run RunInv RVec SubNd RShess Argmin Cand StepFacts Prop_Sub1d Prop_Pred Prop_Box
  Prop_Cand TRErr RealStep Prop_Grad Region Prop_Run Prop_Nudge Prop_BoxRun Prop_BoxRun2 HessDim Unbounded Converge
  BoundedGrad BoundedStep.
Import ListNotations.
Local Open Scope R_scope.
Local Open Scope list_scope.

Lemma rsum_ge_term n f i : (i < n)%nat -> (forall j, 0 <= f j) -> f i <= rsum n f.
Proof.
  revert f i. induction n as [|n IH]; intros f i Hi Hf; [lia|]. rewrite rsum_S. destruct i as [|i].
  - assert (0 <= rsum n (fun j => f (S j))) by (apply rsum_nonneg; auto). lra.
  - pose proof (IH (fun j => f (S j)) i ltac:(lia) (fun j => Hf (S j))) as Q. cbv beta in *. pose proof (Hf 0%nat). lra.
Qed.

(** *** the affine scaling at a point strictly inside the box *)
Definition scaling_value (l : ER) (x : R) (u : ER) (d2 : R) : Prop :=
  d2 = 1 \/ (exists u', u = Fin u' /\ d2 = u' - x) \/ (exists l', l = Fin l' /\ d2 = x - l').

Lemma affine1_real x g l u : strictly_inside l x u -> exists d v,
  er_sqrt (er_abs (fst (affine1 (Fin x) (Fin g) l u))) = Fin d /\ snd (affine1 (Fin x) (Fin g) l u) = Fin v
  /\ 0 < d /\ (v = 0 \/ v = 1) /\ scaling_value l x u (d * d)
  /\ (g < 0 -> forall u', u = Fin u' -> d * d = u' - x) /\ (0 < g -> forall l', l = Fin l' -> d * d = x - l')
  /\ (g < 0 -> u = PInf -> d * d = 1) /\ (0 < g -> l = NInf -> d * d = 1).
Proof.
  intros [Hl Hu].
  assert (S : forall w, w <> 0 -> er_sqrt (er_abs (Fin w)) = Fin (sqrt (Rabs w)) /\ 0 < sqrt (Rabs w) /\ sqrt (Rabs w) * sqrt (Rabs w) = Rabs w).
  { intros w Hw. pose proof (Rabs_pos_lt w Hw) as Hp. cbn. destruct (Rltb_spec (Rabs w) 0); [lra|]. split; [reflexivity|].
    split; [now apply sqrt_lt_R0|]. apply sqrt_sqrt. lra. }
  assert (Sone : forall w, Rabs w = 1 -> er_sqrt (er_abs (Fin w)) = Fin 1).
  { intros w Hw. cbn. rewrite Hw. destruct (Rltb_spec 1 0); [lra|]. now rewrite sqrt_1. }
  unfold affine1. cbn [nltb nisfin nsub ERNum n0 nofZ er_ltb].
  unfold npsign. cbn [nisnan ERNum er_isnan nltb er_ltb n0 nofZ neqb er_eqb].
  destruct (Rltb_spec g 0) as [Hg|Hg].
  - destruct u as [u'| | |]; cbn [er_ltb] in Hu; try discriminate; cbn [er_isfin fst snd er_sub er_add er_opp].
    + assert (Hu' : x < u') by (destruct (Rltb_spec x u'); [auto|discriminate]). destruct (S (x + - u')) as (E1 & E2 & E3); [lra|].
      assert (E4 : sqrt (Rabs (x + - u')) * sqrt (Rabs (x + - u')) = u' - x) by (rewrite E3, Rabs_left by lra; ring).
      exists (sqrt (Rabs (x + - u'))), 1. split; [exact E1|]. split; [reflexivity|]. split; [exact E2|]. split; [auto|].
      split; [right; left; exists u'; auto|]. split; [intros _ v Ev; injection Ev as <-; exact E4|]. split; [lra|]. split; [discriminate|lra].
    + destruct (Rltb_spec 0 g) as [|Q1]; [lra|]. destruct (Reqb_spec g 0) as [|Q2]; [lra|].
      exists 1, 0. cbn [nofbool n1 n0 nofZ nopp ERNum er_opp nadd er_add fst snd]. rewrite Sone by (rewrite Rabs_left; lra).
      split; [reflexivity|]. split; [reflexivity|]. split; [lra|]. split; [auto|]. split; [left; ring|]. split; [intros _ v Ev; discriminate|]. split; [lra|]. split; [intros; ring|lra].
  - destruct l as [l'| | |]; cbn [er_ltb] in Hl; try discriminate; cbn [er_isfin fst snd er_sub er_add er_opp].
    + assert (Hl' : l' < x) by (destruct (Rltb_spec l' x); [auto|discriminate]). destruct (S (x + - l')) as (E1 & E2 & E3); [lra|].
      assert (E4 : sqrt (Rabs (x + - l')) * sqrt (Rabs (x + - l')) = x - l') by (rewrite E3, Rabs_pos_eq by lra; ring).
      exists (sqrt (Rabs (x + - l'))), 1. split; [exact E1|]. split; [reflexivity|]. split; [exact E2|]. split; [auto|].
      split; [right; right; exists l'; auto|]. split; [lra|]. split; [intros _ v Ev; injection Ev as <-; exact E4|]. split; [lra|discriminate].
    + exists 1, 0. split; [|split; [destruct (Rltb_spec 0 g), (Reqb_spec g 0); reflexivity|]].
      * destruct (Rltb_spec 0 g) as [Q1|Q1], (Reqb_spec g 0) as [Q2|Q2]; try lra; cbn [nofbool n1 n0 nofZ nopp ERNum er_opp nadd er_add fst snd]; apply Sone; rewrite Rabs_pos_eq; lra.
      * split; [lra|]. split; [auto|]. split; [left; ring|]. split; [lra|]. split; [intros _ v Ev; discriminate|]. split; [lra|intros; ring].
Qed.

Lemma affine_real : forall x g lb ub, length g = length x -> length lb = length x -> length ub = length x ->
  (forall i, (i < length x)%nat -> strictly_inside (nth i lb NaN) (nth i x 0) (nth i ub NaN)) ->
  exists D dv, map (fun p : ER * ER => nsqrt (nabs (fst p))) (affine_scaling (fv x) (fv g) lb ub) = fv D
    /\ map snd (affine_scaling (fv x) (fv g) lb ub) = fv dv /\ length D = length x /\ length dv = length x
    /\ forall i, (i < length x)%nat -> 0 < nth i D 0 /\ (nth i dv 0 = 0 \/ nth i dv 0 = 1)
         /\ scaling_value (nth i lb NaN) (nth i x 0) (nth i ub NaN) (nth i D 0 * nth i D 0)
         /\ (nth i g 0 < 0 -> forall u', nth i ub NaN = Fin u' -> nth i D 0 * nth i D 0 = u' - nth i x 0)
         /\ (0 < nth i g 0 -> forall l', nth i lb NaN = Fin l' -> nth i D 0 * nth i D 0 = nth i x 0 - l')
         /\ (nth i g 0 < 0 -> nth i ub NaN = PInf -> nth i D 0 * nth i D 0 = 1) /\ (0 < nth i g 0 -> nth i lb NaN = NInf -> nth i D 0 * nth i D 0 = 1).
Proof.
  induction x as [|a x IH]; intros [|b g] [|l lb] [|u ub] L1 L2 L3 Hi; try discriminate.
  - exists [], []. repeat split; try reflexivity; simpl in *; lia.
  - cbn [length] in *. destruct (IH g lb ub) as (D & dv & E1 & E2 & LD & Lv & K); try lia.
    { intros i Hl. apply (Hi (S i)). lia. }
    destruct (affine1_real a b l u (Hi 0%nat ltac:(lia))) as (d & v & A1 & A2 & A3).
    exists (d :: D), (v :: dv). cbn [fv map affine_scaling]. fold (fv x) (fv g) (fv D) (fv dv). rewrite E1, E2, A2. cbn [nsqrt nabs ERNum]. rewrite A1.
    split; [reflexivity|]. split; [reflexivity|]. split; [cbn; lia|]. split; [cbn; lia|].
    intros [|i] Hl; [exact A3|]. apply K. lia.
Qed.

Lemma affine_fst : forall x g lb ub, length g = length x -> length lb = length x -> length ub = length x ->
  exists v, map fst (affine_scaling (fv x) (fv g) lb ub) = fv v /\ length v = length x.
Proof.
  induction x as [|a x IH]; intros [|b g] [|l lb] [|u ub] L1 L2 L3; try discriminate; [exists []; auto|].
  cbn [length] in *. destruct (IH g lb ub) as (v & Ev & Lv); try lia.
  assert (K : exists w, fst (affine1 (Fin a) (Fin b) l u) = Fin w).
  { unfold affine1. cbn [nltb nisfin nsub ERNum n0 nofZ er_ltb].
    match goal with |- context [er_isfin ?q] => destruct q eqn:Eq end; cbn [er_isfin fst er_sub er_opp er_add]; eauto;
    unfold npsign; cbn [nisnan ERNum er_isnan nltb er_ltb n0 nofZ neqb er_eqb];
    destruct (Rltb b 0), (Rltb 0 b), (Reqb b 0); cbn [nofbool n1 n0 nofZ nopp ERNum er_opp nadd er_add]; eauto. }
  destruct K as (w & Ew). exists (w :: v). cbn [fv map affine_scaling]. fold (fv x) (fv g) (fv v). rewrite Ew, Ev. cbn [length]. auto.
Qed.

Section ConvBox.
  Variables (E : env ER) (C : cfg ER) (n : nat).
  Variables (F : rvec -> R) (G : rvec -> rvec) (L M W gm mu eta g1 g2 D0 tm chi : R).
  Local Notation O := (c_opts C).
  Local Notation lb := (c_lb C).
  Local Notation ub := (c_ub C).

  (** a point of the box *)
  Definition boxpt (y : rvec) : Prop := length y = n /\ box_in n lb ub y.

  (** a box at least two margins wide in every coordinate; on it the objective reports the value F and the gradient G, G is bounded and
      F is smooth; documented ranges of the options; the linear algebra routines return arrays of the right size *)
  Record box_setting : Prop := mkBoxSetting {
    bs_n : (2 <= n)%nat;
    bs_lb : length lb = n;
    bs_ub : length ub = n;
    bs_wide : forall i, (i < n)%nat -> er_leb (Fin (2 * margin)) (er_sub (nth i ub NaN) (nth i lb NaN)) = true;
    bs_obj : forall k y, boxpt y ->
       value_of C (e_obj E k (fv y)) = Some (Fin (F y)) /\ gradient_of C (e_obj E k (fv y)) = Some (fv (G y));
    bs_len : forall y, boxpt y -> length (G y) = n;
    bs_smooth : forall y s, boxpt y -> length s = n -> boxpt (radd y s) ->
       Rabs (F (radd y s) - F y - rdot (G y) s) <= L / 2 * rdot s s;
    bs_grad : forall y, boxpt y -> forall i, (i < n)%nat -> Rabs (nth i (G y) 0) <= gm;
    bs_L : 0 <= L;
    bs_M : 0 < M;
    bs_gm : 0 <= gm;
    bs_W : 0 <= W;
    bs_solver : op_subspace_dim O = "full"%string \/ op_subspace_dim O = "2D"%string;
    bs_strategy : op_stepback O = "reflect"%string \/ op_stepback O = "reflect_single"%string;
    bs_lstsq : forall A b v, is_mat n n A -> so_lstsq (e_la E) (fm A) b = Some v -> length v = n;
    bs_eig : forall A e1 e2 v, is_mat n n A -> so_eig (e_la E) (fm A) = Some (e1, e2, v) ->
       length e1 = n /\ length v = n /\ Forall (fun col => length col = n) v;
    bs_mu : op_mu O = Fin mu /\ 0 < mu;
    bs_eta : op_eta O = Fin eta /\ mu < eta /\ mu < 1;
    bs_g1 : op_gamma1 O = Fin g1 /\ 0 < g1 < 1;
    bs_g2 : op_gamma2 O = Fin g2 /\ 1 <= g2;
    bs_D0 : op_delta_init O = Fin D0 /\ 0 < D0;
    bs_tm : op_theta_max O = Fin tm /\ 0 < tm <= 1;
    bs_chi : 0 < chi <= 1
  }.
  Hypothesis BS : box_setting.

  (** bounds of the scaling, of the curvature of the scaled model and of the scaled objective, of the nudge *)
  Definition Wd : R := W + 1.
  Definition M2 : R := M * Wd + gm / tm.
  Definition L2 : R := 2 * L * Wd.
  Definition E0 : R := INR n * (margin * (gm + L * margin)).

  Lemma margin_1 : margin <= 1. Proof using. unfold margin. lra. Qed.
  Lemma M2_pos : 0 < M2.
  Proof using BS.
    destruct BS. unfold M2, Wd. assert (0 <= gm / tm) by (apply Rmult_le_pos; [lra|left; apply Rinv_0_lt_compat; lra]).
    assert (0 < M * (W + 1)) by (apply Rmult_lt_0_compat; lra). lra.
  Qed.
  Lemma M2_gm : M * Wd + gm <= M2 /\ gm <= tm * M2.
  Proof using BS.
    destruct BS. unfold M2, Wd. destruct bs_tm0 as [_ Ht].
    assert (K : gm <= gm / tm).
    { apply (Rmult_le_reg_r tm); [lra|]. unfold Rdiv. rewrite Rmult_assoc, Rinv_l by lra. nra. }
    split; [lra|]. rewrite Rmult_plus_distr_l. replace (tm * (gm / tm)) with gm by (field; lra).
    assert (0 <= tm * (M * (W + 1))); [|lra]. apply Rmult_le_pos; [lra|]. apply Rmult_le_pos; lra.
  Qed.

  (** the optimizer holds value and gradient of the point xe it evaluated; its position x is xe moved off the bounds *)
  Record at_pt (s : opt ER) (xe x : rvec) : Prop := mkAtPt {
    pt_box : boxpt xe;
    pt_x : deref s (o_x s) = fv x;
    pt_near : boxpt x /\ box_strict n lb ub x /\ forall i, (i < n)%nat -> Rabs (nth i x 0 - nth i xe 0) <= margin;
    pt_f : o_fval s = Fin (F xe);
    pt_g : o_grad s = fv (G xe)
  }.
  Lemma boxpt_in_box y : boxpt y <-> in_box lb ub (fv y).
  Proof using BS.
    destruct BS. unfold boxpt, in_box, box_in, inside. rewrite fv_length, bs_lb0, bs_ub0. split.
    - intros [Ly H]. split; [auto|]. split; [auto|]. intros i Hi. change (nnan : ER) with NaN. rewrite h_nth by lia. apply H. lia.
    - intros (H1 & _ & H). split; [auto|]. intros i Hi. specialize (H i ltac:(lia)). change (nnan : ER) with NaN in H. rewrite h_nth in H by lia. exact H.
  Qed.
  Lemma nudged xe x : boxpt xe -> nudge C (fv xe) = fv x ->
    boxpt x /\ box_strict n lb ub x /\ forall i, (i < n)%nat -> Rabs (nth i x 0 - nth i xe 0) <= margin.
  Proof using BS.
    intros Hx Hn. pose proof Hx as [Lx _]. apply boxpt_in_box in Hx. destruct (C13_moved_inside C xe Hx) as (y & Ey & By & K).
    rewrite Hn in Ey. apply fv_inj in Ey. subst y. apply boxpt_in_box in By.
    split; [exact By|]. rewrite Lx in K. split; intros i Hi; destruct (K i Hi) as (K1 & _ & K3); [|exact K1].
    destruct BS. now apply K3, bs_wide0.
  Qed.

  (** every finite bound is within reach of the points at most as bad as the start *)
  Definition reach (Fs : R) : Prop := forall y, boxpt y -> F y <= Fs -> forall i, (i < n)%nat ->
    (forall u, nth i ub NaN = Fin u -> u - nth i y 0 <= W) /\ (forall l, nth i lb NaN = Fin l -> nth i y 0 - l <= W).

  (** the arguments of trust_region at the head of the loop *)
  Definition step_args (s : opt ER) : sargs ER :=
    let vdv := affine_scaling (deref s (o_x s)) (o_grad s) lb ub in
    tr_args (deref s (o_x s)) (o_grad s) (o_hess s) (map (fun p => nsqrt (nabs (fst p))) vdv) (o_delta s) (map snd vdv)
      (pymax (op_theta_max O) (n1 - norm_inf (vmul (map fst vdv) (o_grad s)))%num) lb ub.
  (** the gradient in the scaled variables: zero exactly at the first-order points of the bounded problem *)
  Definition scaled_gradient (s : opt ER) : list ER := a_sg (step_args s).

  (** nearly a first-order point of the bounded problem: in every coordinate either the gradient or the distance to the bound the negative
      gradient points at is small; without such a bound the gradient is *)
  Definition nearly_first_order (eps : R) (x g : rvec) : Prop := forall i, (i < n)%nat ->
    (nth i g 0 < 0 -> match nth i ub NaN with Fin u => sqrt (u - nth i x 0) * Rabs (nth i g 0) < eps | _ => Rabs (nth i g 0) < eps end)
    /\ (0 < nth i g 0 -> match nth i lb NaN with Fin l => sqrt (nth i x 0 - l) * Rabs (nth i g 0) < eps | _ => Rabs (nth i g 0) < eps end).
  Lemma small_scaled s xe x N eps : at_pt s xe x -> norm (scaled_gradient s) = Fin N -> N < eps -> nearly_first_order eps x (G xe).
  Proof using BS.
    intros [Bx Ex (Bxx & Sx & _) _ Eg] EN HN. pose proof Bxx as [Lx _]. pose proof (bs_len BS xe Bx) as LG.
    pose proof (bs_lb BS) as Ll. pose proof (bs_ub BS) as Lu.
    destruct (affine_real x (G xe) lb ub) as (D & dv & E1 & E2 & LD & Lv & K); try congruence.
    { rewrite Lx. exact Sx. }
    rewrite Lx in *. unfold scaled_gradient, step_args in EN. cbv zeta in EN. cbn [tr_args a_sg] in EN. rewrite Ex, Eg, E1, h_vmul, h_norm in EN. injection EN as EN.
    assert (Lm : length (rmul D (G xe)) = n) by now apply rmul_length.
    assert (Hi : forall i, (i < n)%nat -> nth i D 0 * Rabs (nth i (G xe) 0) < eps).
    { intros i Hi. apply (Rle_lt_trans _ N); [|exact HN]. rewrite <- EN. unfold rnorm. rewrite <- (sqrt_square (nth i D 0 * Rabs (nth i (G xe) 0))).
      2:{ destruct (K i Hi) as (Kp & _). apply Rmult_le_pos; [lra|apply Rabs_pos]. }
      apply sqrt_le_1_alt. rewrite (rdot_sum n) by auto. eapply Rle_trans; [|apply (rsum_ge_term n (fun j => nth j (rmul D (G xe)) 0 * nth j (rmul D (G xe)) 0) i); [exact Hi|intros; nra]].
      cbv beta. rewrite !(nth_rmul _ _ n) by auto.
      replace (nth i D 0 * Rabs (nth i (G xe) 0) * (nth i D 0 * Rabs (nth i (G xe) 0))) with (nth i D 0 * nth i D 0 * (Rabs (nth i (G xe) 0) * Rabs (nth i (G xe) 0))) by ring.
      rewrite <- Rabs_mult, Rabs_pos_eq by nra. lra. }
    assert (Hq : forall i q, (i < n)%nat -> nth i D 0 * nth i D 0 = q -> sqrt q = nth i D 0).
    { intros i q Hn <-. apply sqrt_square. destruct (K i Hn). lra. }
    intros i Hn. specialize (Hi i Hn). destruct (K i Hn) as (Kp & _ & _ & K1 & K2 & K3 & K4). destruct (Sx i Hn) as [S1 S2].
    split; intros Hg.
    - destruct (nth i ub NaN) as [u| | |] eqn:Eu; try discriminate; [now rewrite (Hq i _ Hn (K1 Hg u eq_refl))|].
      pose proof (Hq i _ Hn (K3 Hg eq_refl)) as Hs. rewrite sqrt_1 in Hs. rewrite <- Hs in Hi. lra.
    - destruct (nth i lb NaN) as [l| | |] eqn:El; try discriminate; [now rewrite (Hq i _ Hn (K2 Hg l eq_refl))|].
      pose proof (Hq i _ Hn (K4 Hg eq_refl)) as Hs. rewrite sqrt_1 in Hs. rewrite <- Hs in Hi. lra.
  Qed.

  (** what is required of a head of the loop: a symmetric model Hessian of curvature at most M; a subspace solver that stays within the
      trust region, up to 2^-26, and achieves a fraction chi of the decrease possible along the scaled gradient; a proposal without NaN *)
  Record good_head (s : opt ER) : Prop := mkGood {
    gh_hess : exists B, o_hess s = fm B /\ is_mat n n B /\ symmetric B /\ curvature_le n M B;
    gh_solver : forall c delta N, main_step (e_la E) (step_args s) (op_subspace_dim O) = Ok c -> o_delta s = Fin delta -> norm (scaled_gradient s) = Fin N ->
       exists w q, length w = n /\ st_og_ss c = fv w /\ rnorm w <= delta + / IZR (2 ^ 26)
         /\ quadratic_form (st_shess c) (st_sg c) (st_og_ss c) = Fin q /\ chi * (N / 2 * Rmin delta (N / M2)) <= - q;
    gh_real : forall sp, proposes E C s sp -> vfinite (trial_point s sp) = true
  }.

  Lemma sum_weighted k (a : nat -> R) (z : rvec) c : length z = k -> (forall i, (i < k)%nat -> a i <= c) ->
    rsum k (fun i => a i * (nth i z 0 * nth i z 0)) <= c * rdot z z.
  Proof using.
    intros Lz Ha. rewrite (rdot_sum k) by auto. rewrite <- rsum_scal. apply rsum_le. intros i Hi. apply Rmult_le_compat_r; [nra|auto].
  Qed.

  Section Point.
  Variables (ndim : nat) (x0 : rvec) (sid : option string) (h0 : hess0_arg ER) (st : opt ER).
  Local Notation head := (loop_head E C ndim (fv x0) sid h0 st).
  Variables (Fs : R).
  Hypothesis RE : reach Fs.

  (** the geometry at a head *)
  Lemma geometry s xe x : at_pt s xe x -> F xe <= Fs ->
    exists D dv, map (fun p : ER * ER => nsqrt (nabs (fst p))) (affine_scaling (fv x) (fv (G xe)) lb ub) = fv D
      /\ map snd (affine_scaling (fv x) (fv (G xe)) lb ub) = fv dv /\ length D = n /\ length dv = n
      /\ Forall (fun d => 0 < d) D /\ room n lb ub x (G xe) D
      /\ (forall i, (i < n)%nat -> nth i D 0 * nth i D 0 <= Wd) /\ (forall i, (i < n)%nat -> 0 <= nth i dv 0 <= 1).
  Proof using BS RE.
    intros [Bx Ex En _ _] Hf. destruct En as ([Lx _] & Sx & Nx). pose proof (bs_len BS xe Bx) as LG.
    pose proof (bs_lb BS) as Ll. pose proof (bs_ub BS) as Lu.
    destruct (affine_real x (G xe) lb ub) as (D & dv & E1 & E2 & LD & Lv & K); try congruence.
    { rewrite Lx. exact Sx. }
    rewrite Lx in *. exists D, dv. split; [exact E1|]. split; [exact E2|]. split; [exact LD|]. split; [exact Lv|].
    pose proof margin_1 as Hm.
    split; [|split; [|split]].
    - apply Forall_forall. intros d Hd. apply (In_nth _ _ 0) in Hd as (i & Hi & <-). apply K. lia.
    - intros i Hi. destruct (K i Hi) as (_ & _ & _ & K1 & K2 & _). auto.
    - intros i Hi. destruct (K i Hi) as (_ & _ & V & _). destruct (RE xe Bx Hf i Hi) as [R1 R2]. specialize (Nx i Hi). apply Rabs_le_inv in Nx.
      pose proof (bs_W BS). unfold Wd. destruct V as [->|[(u & Eu & ->)|(l & El & ->)]]; [lra|specialize (R1 u Eu); lra|specialize (R2 l El); lra].
    - intros i Hi. destruct (K i Hi) as (_ & [->| ->] & _); lra.
  Qed.

  Lemma scaled_curvature D dv g B z : is_mat n n B -> curvature_le n M B -> length D = n -> length dv = n -> length g = n -> length z = n ->
    (forall i, (i < n)%nat -> nth i D 0 * nth i D 0 <= Wd) -> (forall i, (i < n)%nat -> 0 <= nth i dv 0 <= 1) ->
    (forall i, (i < n)%nat -> Rabs (nth i g 0) <= gm) ->
    rdot (rmul D z) (rmul D z) <= Wd * rdot z z /\ rform (rB n g B D dv) z z <= (M * Wd + gm) * rdot z z.
  Proof using BS.
    intros MB HB LD Lv Lg Lz HD Hv Hg.
    assert (K1 : rdot (rmul D z) (rmul D z) <= Wd * rdot z z).
    { rewrite (rdot_sum n) by now apply rmul_length.
      eapply Rle_trans; [|apply (sum_weighted n (fun i => nth i D 0 * nth i D 0)); auto].
      right. apply rsum_ext. intros i Hi. rewrite !(nth_rmul _ _ n) by auto. ring. }
    split; [exact K1|]. unfold rB. rewrite rform_rshess by auto.
    pose proof (HB (rmul D z) ltac:(now apply rmul_length)) as K2. apply Rabs_le_inv in K2.
    assert (K3 : rsum n (fun i => nth i (rmul (rabsv g) dv) 0 * (nth i z 0 * nth i z 0)) <= gm * rdot z z).
    { apply sum_weighted; auto. intros i Hi. rewrite (nth_rmul _ _ n) by (auto; now rewrite rabsv_length). rewrite nth_rabsv.
      specialize (Hv i Hi). specialize (Hg i Hi). pose proof (Rabs_pos (nth i g 0)). nra. }
    pose proof (bs_M BS). assert (M * rdot (rmul D z) (rmul D z) <= M * (Wd * rdot z z)) by (apply Rmult_le_compat_l; lra). lra.
  Qed.

  (** the step proposed at a head *)
  Record proposal_at (s : opt ER) (xe x : rvec) (delta N : R) (sp : step ER) (D dv : rvec) (B : rmat) (z y : rvec) : Prop := mkPropAt {
    pa_D : length D = n;
    pa_dv : length dv = n;
    pa_D2 : forall i, (i < n)%nat -> nth i D 0 * nth i D 0 <= Wd;
    pa_dv01 : forall i, (i < n)%nat -> 0 <= nth i dv 0 <= 1;
    pa_sd : scaling_derivative C s = fv dv;
    pa_B : is_mat n n B /\ curvature_le n M B;
    pa_z : length z = n;
    pa_ss : vadd (st_ss sp) (st_ss0 sp) = fv z;
    pa_norm : rnorm z <= delta + / IZR (2 ^ 26);
    pa_y : y = radd x (rmul D z);
    pa_trial : trial_point s sp = fv y;
    pa_box : boxpt y;
    pa_q : st_qpval sp = Fin (qmodel (rB n (G xe) B D dv) (rsg (G xe) D) z);
    pa_dec : chi * (N / 2 * Rmin delta (N / M2)) <= - qmodel (rB n (G xe) B D dv) (rsg (G xe) D) z
  }.
  Lemma nan_box_in s sp y f : head f s -> proposes E C s sp -> trial_point s sp = fv y -> boxpt y.
  Proof using BS.
    intros HL Hp Ey. destruct (bs_tm BS) as [Et Ht].
    assert (Ht' : 0 <= tm <= 1) by lra.
    destruct (C11_trial_points E C ndim (fv x0) sid h0 st tm Et Ht' f s sp HL Hp) as (A1 & A2 & A3).
    rewrite Ey in *. rewrite fv_length in *. pose proof (bs_lb BS). split; [congruence|].
    intros i Hi. destruct (A3 i) as [K|K]; [congruence|rewrite h_nth in K by congruence; discriminate|]. rewrite h_nth in K by congruence. exact K.
  Qed.
  Lemma proposal_box f s xe x delta N sp : head f s -> at_pt s xe x -> F xe <= Fs -> o_delta s = Fin delta -> 0 < delta ->
    good_head s -> norm (scaled_gradient s) = Fin N -> 0 < N -> proposes E C s sp ->
    exists D dv B z y, proposal_at s xe x delta N sp D dv B z y.
  Proof using BS RE.
    intros HL Ha Hf Ed Hd [(B & EB & MB & SB & HB) Hsol Hreal] EN HN Hp.
    destruct (geometry s xe x Ha Hf) as (D & dv & E1 & E2 & LD & Lv & PD & RM & D2 & V01).
    pose proof (bs_tm BS) as [Etm Ht].
    destruct (head_theta E C ndim (fv x0) sid h0 st tm Etm ltac:(lra) f s HL sp Hp) as (t & Et & Ht1).
    assert (Htt : tm <= t).
    { rewrite Etm in Et. unfold pymax in Et. cbn [nltb ERNum] in Et.
      match type of Et with (if er_ltb _ ?Q then _ else _) = _ => destruct Q as [q| | |] end; cbn [er_ltb] in Et; try (injection Et as <-; lra); try discriminate.
      destruct (Rltb_spec tm q); injection Et as <-; lra. }
    destruct Ha as [Bx Ex En Ef Eg]. destruct En as (Bxx & Sx & Nx). pose proof Bxx as [Lx _]. pose proof (bs_len BS xe Bx) as LG.
    assert (P : problem n x (G xe) B D dv delta t lb ub).
    { pose proof (bs_n BS). constructor; auto; try lia; try lra; try apply BS. apply Bxx. }
    assert (EA : step_args s = rA x (G xe) B D dv delta t lb ub).
    { unfold step_args, rA. cbv zeta. rewrite Et, Ex, Eg, EB, Ed. f_equal; auto. }
    assert (Esg : scaled_gradient s = fv (rsg (G xe) D)) by (unfold scaled_gradient; rewrite EA; apply rA_sg).
    assert (EN' : N = rnorm (rsg (G xe) D)) by (rewrite Esg, h_norm in EN; now injection EN).
    destruct (fv_of (trial_point s sp)) as [y Ey].
    { specialize (Hreal sp Hp). unfold vfinite in Hreal. rewrite forallb_forall in Hreal. intros i Hi. specialize (Hreal _ (nth_In _ NaN Hi)).
      destruct (nth i (trial_point s sp) NaN); try discriminate; eauto. }
    pose proof (nan_box_in s sp y f HL Hp Ey) as By.
    pose proof (bs_grad BS xe Bx) as Hgm.
    destruct (scaled_curvature D dv (G xe) B (rsg (G xe) D)) as [_ Hcu]; auto.
    { apply (rsg_length n x (G xe) B D dv delta t lb ub P). }
    destruct M2_gm as [Mg1 Mg2]. pose proof M2_pos as M2p.
    pose proof Hp as (Htr & Ls & Ls0). unfold trial_point in Ey.
    rewrite Ex, fv_length, Lx in Ls, Ls0. cbv zeta in Htr. rewrite Et, Ex, Eg, EB, Ed in Htr.
    rewrite E1, E2 in Htr. rewrite Ex in Ey.
    destruct (bounded_step (e_la E) n x (G xe) B D dv delta t lb ub P (op_subspace_dim O) (op_stepback O) (bs_solver BS) (bs_strategy BS) RM (bs_n BS))
      with (chi := chi) (M2 := M2) (sp := sp) (y := y) as (z & Lz & Ez & Nz & Eyz & Eq & Dz); auto.
    - split; [|split; [|split]].
      + intros b v Hv. rewrite h_vabs, h_vmul, (h_shess n) in Hv by auto. eapply (bs_lstsq BS); [|exact Hv]. apply is_mat_rshess.
      + intros e1 e2 v Hv. rewrite h_vabs, h_vmul, (h_shess n) in Hv by auto. eapply (bs_eig BS); [|exact Hv]. apply is_mat_rshess.
      + rewrite fm_length. apply MB.
      + apply Forall_forall. intros r Hr. unfold fm in Hr. apply in_map_iff in Hr as (r' & <- & Hr'). rewrite fv_length.
        destruct MB as [_ MB]. rewrite Forall_forall in MB. auto.
    - apply BS.
    - lra.
    - eapply Rle_trans; [exact Hcu|]. apply Rmult_le_compat_r; [rewrite <- rnorm_sq; nra|lra].
    - intros i Hi. specialize (Hgm i Hi). nra.
    - intros c Hc. rewrite <- EA in Hc. destruct (Hsol c delta N Hc Ed EN) as (w & q & Lw & Ew & Nw & Qw & Cw).
      exists w. split; [exact Lw|]. split; [exact Ew|]. split; [exact Nw|]. rewrite <- EN'.
      replace (qmodel (rB n (G xe) B D dv) (rsg (G xe) D) w) with q; [exact Cw|].
      rewrite EA in Hc.
      destruct (main_calc (e_la E) n x (G xe) B D dv delta t lb ub P (op_subspace_dim O) (bs_solver BS) c Hc) as (typ & sub & pd & nw & Hcc & _).
      apply calculate_fields in Hcc as (sc & ss & sv & _ & _ & _ & Hst & _). destruct Hst. cbn [new_step st_shess st_sg] in sb_shess, sb_sg.
      rewrite sb_shess, sb_sg, Ew in Qw. rewrite (rA_shess n x (G xe) B D dv delta t lb ub P), rA_sg in Qw.
      rewrite (h_quadratic n) in Qw; auto; [now injection Qw|apply rB_mat].
    - exists D, dv, B, z, y. rewrite <- EN' in Dz. constructor; auto.
      + unfold scaling_derivative. now rewrite Ex, Eg.
      + unfold trial_point. now rewrite Ex.
  Qed.

  (** *** actual against predicted decrease *)
  Definition predicted (g : rvec) (D dv : rvec) (B : rmat) (z : rvec) : R := - qmodel (rB n g B D dv) (rsg g D) z.
  Definition actual (xe y dv z : rvec) : R := F xe - F y - / 2 * rdot z (rmul (rmul dv (rabsv (G y))) z).
  Lemma curvature_term dv g z : length dv = n -> length g = n -> length z = n ->
    rdot z (rmul (rmul dv (rabsv g)) z) = rsum n (fun i => nth i dv 0 * Rabs (nth i g 0) * (nth i z 0 * nth i z 0)).
  Proof using.
    intros Lv Lg Lz. assert (La : length (rabsv g) = n) by now rewrite rabsv_length.
    rewrite (rdot_sum n) by auto. apply rsum_ext. intros i Hi. rewrite (nth_rmul _ _ n); auto; [|now apply rmul_length].
    rewrite (nth_rmul _ _ n) by auto. rewrite nth_rabsv. ring.
  Qed.
  Lemma curvature_nonneg dv g z : length dv = n -> length g = n -> length z = n -> (forall i, (i < n)%nat -> 0 <= nth i dv 0 <= 1) ->
    0 <= rdot z (rmul (rmul dv (rabsv g)) z).
  Proof using.
    intros Lv Lg Lz Hv. rewrite curvature_term by auto. apply rsum_nonneg. intros i Hi.
    specialize (Hv i Hi). pose proof (Rabs_pos (nth i g 0)). apply Rmult_le_pos; [|nra]. apply Rmult_le_pos; lra.
  Qed.
  Lemma box_model_error s xe x delta N sp D dv B z y : at_pt s xe x -> proposal_at s xe x delta N sp D dv B z y ->
    predicted (G xe) D dv B z - actual xe y dv z <= (L2 + M2) / 2 * (rnorm z * rnorm z) + E0.
  Proof using BS.
    intros Ha [LD Lv HD2 V01 _ [MB HB] Lz _ _ Ey _ By _ _]. destruct Ha as [Bx Ex En _ _].
    destruct En as ([Lx _] & _ & Nx). pose proof (bs_len BS xe Bx) as LG. pose proof (bs_len BS y By) as LGy.
    pose proof Bx as [Lxe _].
    set (p := rmul D z) in *. assert (Lp : length p = n) by now apply rmul_length.
    set (nu := rsub x xe). assert (Lnu : length nu = n) by (unfold nu; rlen).
    assert (Eyx : y = radd xe (radd p nu)).
    { rewrite Ey. apply rvec_ext; [rlen|]. intros i. rewrite !nth_radd by rlen. unfold nu, rsub. rewrite nth_radd, nth_rscale by rlen. ring. }
    assert (Lpn : length (radd p nu) = n) by rlen.
    pose proof (bs_smooth BS xe (radd p nu) Bx Lpn) as Sm. rewrite <- Eyx in Sm. specialize (Sm By). apply Rabs_le_inv in Sm as [_ Sm].
    destruct (scaled_curvature D dv (G xe) B z) as [Hp _]; auto; [intros; now apply (bs_grad BS)|]. fold p in Hp.
    (* the nudge *)
    assert (Nnu : forall i, (i < n)%nat -> Rabs (nth i nu 0) <= margin).
    { intros i Hi. unfold nu, rsub. rewrite nth_radd, nth_rscale by rlen. replace (nth i x 0 + -1 * nth i xe 0) with (nth i x 0 - nth i xe 0) by ring. auto. }
    pose proof margin_pos as Mp. pose proof (bs_gm BS) as Gp. pose proof (bs_L BS) as Lp0. pose proof (bs_M BS) as Mp0.
    assert (N1 : rdot (G xe) nu <= INR n * (gm * margin)).
    { rewrite (rdot_sum n) by auto. rewrite <- rsum_const. apply rsum_le. intros i Hi. specialize (Nnu i Hi). pose proof (bs_grad BS xe Bx i Hi) as Gi.
      eapply Rle_trans; [apply Rle_abs|]. rewrite Rabs_mult. apply Rmult_le_compat; auto using Rabs_pos. }
    assert (N2 : rdot nu nu <= INR n * (margin * margin)).
    { rewrite (rdot_sum n) by auto. rewrite <- rsum_const. apply rsum_le. intros i Hi. specialize (Nnu i Hi).
      eapply Rle_trans; [apply Rle_abs|]. rewrite Rabs_mult. apply Rmult_le_compat; auto using Rabs_pos. }
    assert (N3 : rdot (radd p nu) (radd p nu) <= 2 * rdot p p + 2 * rdot nu nu).
    { rewrite rdot_radd_l, !rdot_radd_r by congruence. rewrite (rdot_comm nu p).
      assert (0 <= rdot (rsub p nu) (rsub p nu)) by (rewrite <- rnorm_sq; pose proof (rnorm_nonneg (rsub p nu)); nra).
      unfold rsub in H. rewrite rdot_radd_l, !rdot_radd_r, !rdot_rscale_l, !rdot_rscale_r in H by rlen. rewrite (rdot_comm nu p) in H. lra. }
    (* the model *)
    unfold predicted, actual. unfold rB, rsg. rewrite (scaled_model n) by auto. fold p.
    rewrite (rdot_radd_r (G xe)) in Sm by congruence.
    assert (T1 : 0 <= rsum n (fun i => nth i (rmul (rabsv (G xe)) dv) 0 * (nth i z 0 * nth i z 0))).
    { apply rsum_nonneg. intros i Hi. rewrite (nth_rmul _ _ n) by (auto; now rewrite rabsv_length). rewrite nth_rabsv.
      specialize (V01 i Hi). pose proof (Rabs_pos (nth i (G xe) 0)). apply Rmult_le_pos; [|nra]. apply Rmult_le_pos; lra. }
    assert (T2 : rdot z (rmul (rmul dv (rabsv (G y))) z) <= gm * rdot z z).
    { rewrite curvature_term by auto. apply sum_weighted; auto. intros i Hi. specialize (V01 i Hi). pose proof (bs_grad BS y By i Hi) as Gi.
      pose proof (Rabs_pos (nth i (G y) 0)). nra. }
    pose proof (HB p Lp) as Kb. apply Rabs_le_inv in Kb as [Kb _].
    unfold qmodel. rewrite rnorm_sq.
    assert (Q1 : M * rdot p p <= M * (Wd * rdot z z)) by (apply Rmult_le_compat_l; lra).
    assert (Q2 : L / 2 * rdot (radd p nu) (radd p nu) <= L / 2 * (2 * (Wd * rdot z z) + 2 * (INR n * (margin * margin)))) by (apply Rmult_le_compat_l; lra).
    destruct M2_gm as [Mg _].
    assert (Q3 : (M * Wd + gm) * rdot z z <= M2 * rdot z z).
    { apply Rmult_le_compat_r; [|lra]. rewrite <- rnorm_sq. pose proof (rnorm_nonneg z). nra. }
    unfold L2, E0. nra.
  Qed.

  (** the ratio of actual and predicted decrease, and the radius after the pass *)
  Definition ratio (xe y D dv : rvec) (B : rmat) (z : rvec) : R := actual xe y dv z / predicted (G xe) D dv B z.
  Definition new_radius (r : R) (z : rvec) (delta : R) : R :=
    if Rleb eta r && negb (Rltb (rnorm z) (delta * (9 / 10))) then g2 * delta
    else if Rleb r mu then Rmin (delta * g1) (rnorm z / 4) else delta.

  Lemma ratio_box sp s xe x delta N D dv B z y : at_pt s xe x -> proposal_at s xe x delta N sp D dv B z y -> 0 < predicted (G xe) D dv B z ->
    tr_ratio_of C s sp (Fin (F y)) (fv (G y)) = Fin (ratio xe y D dv B z)
    /\ accepts C s sp (Fin (F y)) (fv (G y)) = Rltb 0 (ratio xe y D dv B z).
  Proof using BS.
    intros [_ _ _ Ef _] [LD Lv _ _ Esd _ Lz Es _ _ _ By Eq _] Hp.
    assert (Ea : actual_decrease sp (fv dv) (Fin (F xe)) (Fin (F y)) (fv (G y)) = Fin (actual xe y dv z)).
    { unfold actual_decrease. cbv zeta. rewrite Es, h_vabs, !h_vmul, h_dot, half_fin. reflexivity. }
    unfold tr_ratio_of, accepts, predicted_decrease. rewrite Esd, Ef, Eq, Ea.
    change (nopp (Fin (qmodel (rB n (G xe) B D dv) (rsg (G xe) D) z)) : ER) with (Fin (predicted (G xe) D dv B z)).
    unfold ratio. set (pd := predicted (G xe) D dv B z) in *. clearbody pd.
    cbn [ERNum nisfin er_isfin negb nleb er_leb n0 nofZ nltb er_ltb ndiv er_div andb].
    destruct (Rleb_spec pd 0); [lra|]. destruct (Rltb_spec 0 pd); [|lra].
    destruct (Reqb_spec pd 0); [lra|]. split; reflexivity.
  Qed.
  Lemma radius_box sp z v r delta : vadd (st_ss sp) (st_ss0 sp) = fv z ->
    radius_rule C (Fin delta) (Fin r) sp (Fin v) = Fin (new_radius r z delta).
  Proof using BS.
    intros Es. destruct (bs_mu BS) as [Em _], (bs_eta BS) as [Ee _], (bs_g1 BS) as [E1 _], (bs_g2 BS) as [E2 _].
    unfold radius_rule, scaled_length, new_radius. rewrite Es, h_norm, Em, Ee, E1, E2, (frac_fin 9 10) by lia.
    cbn [nisfin ERNum er_isfin andb negb orb nleb er_leb nltb er_ltb nmul er_mul].
    destruct (Rleb eta r && negb (Rltb (rnorm z) (delta * (9 / 10)))); [reflexivity|].
    destruct (Rleb r mu); [|reflexivity].
    assert (E4 : (Fin (rnorm z) / nofZ 4)%num = Fin (rnorm z / 4)).
    { cbn [ndiv ERNum er_div nofZ]. destruct (Reqb_spec 4 0); [lra|reflexivity]. }
    rewrite E4. unfold nanmin2. cbn [nisnan ERNum er_isnan nltb er_ltb].
    unfold Rmin. destruct (Rltb_spec (rnorm z / 4) (delta * g1)), (Rle_dec (delta * g1) (rnorm z / 4)); try reflexivity; try lra; f_equal; lra.
  Qed.

  (** one pass *)
  Lemma pass_box f s s1 f' s' xe x delta N : head f s -> check_continue E C s = (Ok true, s1) -> iteration E C f s1 = (Ok f', s') ->
    at_pt s xe x -> F xe <= Fs -> o_delta s = Fin delta -> 0 < delta -> good_head s -> norm (scaled_gradient s) = Fin N -> 0 < N ->
    exists sp D dv B z y, proposal_at s xe x delta N sp D dv B z y
      /\ o_delta s' = Fin (new_radius (ratio xe y D dv B z) z delta)
      /\ (if Rltb 0 (ratio xe y D dv B z) then exists x', at_pt s' y x' else at_pt s' xe x)
      /\ o_iter s' = (o_iter s + 1)%Z.
  Proof using BS RE.
    intros HL Hc Hi Ha Hf Ed Hd HG EN HN.
    destruct (C15_pass E C ndim (fv x0) sid h0 st f s s1 f' s' HL Hc Hi) as (sp & r & v & g & P1 & P2 & P3 & P4 & P5 & P6).
    destruct (C14_radius_rule E C ndim (fv x0) sid h0 st f s s1 f' s' HL Hc Hi) as (sp2 & r2 & v2 & g2' & Q1 & Q2 & Q3 & Q4 & Q5 & Q6).
    assert (sp2 = sp) as -> by (destruct P1 as [P1 _], Q1 as [Q1 _]; rewrite P1 in Q1; now apply Ok_inj in Q1).
    assert (r2 = r) as ->.
    { rewrite P2 in Q2. apply app_inv_head in Q2. injection Q2. auto. }
    rewrite P4 in Q3. injection Q3 as <-. rewrite P5 in Q4. injection Q4 as <-.
    destruct (proposal_box f s xe x delta N sp HL Ha Hf Ed Hd HG EN HN P1) as (D & dv & B & z & y & K).
    assert (Hp : 0 < predicted (G xe) D dv B z).
    { pose proof (pa_dec _ _ _ _ _ _ _ _ _ _ _ K) as Kd. fold (predicted (G xe) D dv B z) in Kd. pose proof M2_pos. pose proof (bs_chi BS).
      assert (0 < Rmin delta (N / M2)) by (apply Rmin_glb_lt; [lra|now apply Rdiv_lt_0_compat]).
      assert (0 < chi * (N / 2 * Rmin delta (N / M2))) by (apply Rmult_lt_0_compat; [lra|apply Rmult_lt_0_compat; lra]). lra. }
    destruct (ratio_box sp s xe x delta N D dv B z y Ha K Hp) as [R1 R2].
    pose proof (pa_box _ _ _ _ _ _ _ _ _ _ _ K) as By. pose proof (pa_trial _ _ _ _ _ _ _ _ _ _ _ K) as Ey.
    rewrite P3, Ey in P4, P5. destruct (bs_obj BS (length (o_evals s)) y By) as [O1 O2].
    rewrite O1 in P4. injection P4 as <-. rewrite O2 in P5. injection P5 as <-.
    exists sp, D, dv, B, z, y. split; [exact K|]. split.
    { rewrite Q6, R1, Ed. apply radius_box. apply (pa_ss _ _ _ _ _ _ _ _ _ _ _ K). }
    split.
    2:{ apply check_continue_true in Hc as (-> & _). apply iteration_ok in Hi as (sp' & fn & Ki). apply (ik_iter _ _ _ _ _ _ _ _ Ki). }
    rewrite R2 in P6. destruct (Rltb 0 (ratio xe y D dv B z)).
    - destruct P6 as (A1 & A2 & A3 & A4). pose proof By as By'. apply boxpt_in_box in By'.
      destruct (C13_moved_inside C y By') as (x' & Ex' & _). exists x'. rewrite Ey, Ex' in A3. constructor; auto. now apply nudged.
    - destruct P6 as (A1 & A2 & _ & _ & A3 & A4 & _). destruct Ha as [Bx Ex En Ef Eg]. constructor; auto; congruence.
  Qed.

  (** *** counting the passes *)
  (** heads of the main loop reached while the scaled gradient at every earlier head had norm at least [eps] *)
  Inductive steep_box (eps : R) : fout ER -> opt ER -> Prop :=
  | sb_start f s : prepare E C ndim (fv x0) sid h0 st = (Ok f, s) -> steep_box eps f s
  | sb_next f s s1 f' s' :
      steep_box eps f s -> nleb (Fin eps) (norm (scaled_gradient s)) = true ->
      check_continue E C s = (Ok true, s1) -> iteration E C f s1 = (Ok f', s') -> steep_box eps f' s'.
  Lemma steep_box_head eps f s : steep_box eps f s -> head f s.
  Proof using. induction 1; [now apply lh_start|eapply lh_next; eauto]. Qed.

  Definition mu2 : R := (1 + mu) / 2.
  (** the radius never falls below this value; the decrease every successful pass achieves *)
  Definition least_rad (eps : R) : R := Rmin D0 (Rmin g1 (1 / 4) * kappa chi 2 L2 M2 eps mu2).
  Definition least_dec (eps : R) : R := chi * mu * (eps / 2) * least_rad eps.
  (** a gradient tolerance that the fixed tolerance 2^-26 of the solver and the margin kept from the bounds cannot obscure *)
  Definition coarse_box (eps : R) : Prop :=
    / IZR (2 ^ 26) <= least_rad eps /\ E0 <= (1 - mu) / 2 * (chi * (eps / 2 * least_rad eps)).

  Lemma L2_nonneg : 0 <= L2.
  Proof using BS. unfold L2, Wd. pose proof (bs_L BS). pose proof (bs_W BS). apply Rmult_le_pos; lra. Qed.
  Lemma mu2_range : 0 < mu2 < 1. Proof using BS. unfold mu2. pose proof (bs_mu BS). pose proof (bs_eta BS). lra. Qed.
  Lemma kap_pos eps : 0 < eps -> 0 < kappa chi 2 L2 M2 eps mu2.
  Proof using BS. intros He. pose proof L2_nonneg. pose proof M2_pos. pose proof mu2_range. pose proof (bs_chi BS). apply kappa_pos; auto; lra. Qed.
  Lemma least_rad_pos eps : 0 < eps -> 0 < least_rad eps.
  Proof using BS.
    intros He. unfold least_rad. pose proof (kap_pos eps He). pose proof (bs_D0 BS). pose proof (bs_g1 BS). apply Rmin_glb_lt; [lra|].
    apply Rmult_lt_0_compat; [apply Rmin_glb_lt; lra|lra].
  Qed.
  Lemma least_rad_le eps : 0 < eps -> least_rad eps <= D0 /\ least_rad eps <= g1 * kappa chi 2 L2 M2 eps mu2
    /\ least_rad eps <= / 4 * kappa chi 2 L2 M2 eps mu2 /\ least_rad eps <= kappa chi 2 L2 M2 eps mu2.
  Proof using BS.
    intros He. unfold least_rad. pose proof (bs_g1 BS) as [_ H1]. pose proof (kap_pos eps He) as K. set (k := kappa chi 2 L2 M2 eps mu2) in *.
    pose proof (Rmin_l D0 (Rmin g1 (1 / 4) * k)). pose proof (Rmin_r D0 (Rmin g1 (1 / 4) * k)).
    pose proof (Rmin_l g1 (1 / 4)). pose proof (Rmin_r g1 (1 / 4)).
    assert (Rmin g1 (1 / 4) * k <= g1 * k) by (apply Rmult_le_compat_r; lra).
    assert (Rmin g1 (1 / 4) * k <= / 4 * k) by (apply Rmult_le_compat_r; lra).
    split; [lra|]. split; [lra|]. split; lra.
  Qed.

  Lemma steep_pass_box eps s xe x delta N sp D dv B z y : 0 < eps -> coarse_box eps -> 0 < delta ->
    at_pt s xe x -> proposal_at s xe x delta N sp D dv B z y -> eps <= N -> least_rad eps <= delta ->
    let r := ratio xe y D dv B z in
    (mu < r /\ F y <= F xe - least_dec eps /\ delta <= new_radius r z delta <= g2 * delta)
    \/ (r <= mu /\ (0 < r -> F y <= F xe) /\ least_rad eps <= new_radius r z delta <= g1 * delta).
  Proof using BS.
    intros He [Hc1 Hc2] Hd Ha K HN Hld r. pose proof (least_rad_le eps He) as (K1 & K2 & K3 & K4). pose proof (least_rad_pos eps He) as K0.
    pose proof (box_model_error s xe x delta N sp D dv B z y Ha K) as Me. pose proof K as K'.
    destruct K' as [LD Lv _ V01 _ _ Lz _ Nz _ _ By _ Dz]. fold (predicted (G xe) D dv B z) in Dz.
    pose proof (curvature_nonneg dv (G y) z Lv (bs_len BS y By) Lz V01) as Cn.
    pose proof M2_pos as HM. pose proof L2_nonneg as HL2. pose proof mu2_range as Hm2. pose proof (bs_chi BS) as Hchi.
    destruct (bs_mu BS) as [_ Hmu], (bs_eta BS) as (_ & Heta & Hmu1), (bs_g1 BS) as [_ H1], (bs_g2 BS) as [_ H2].
    assert (Kk : kappa chi 2 L2 M2 eps mu2 <= eps / M2) by (apply kappa_le; auto; lra).
    assert (Pm : least_rad eps <= Rmin delta (N / M2)).
    { apply Rmin_glb; [exact Hld|]. assert (eps / M2 <= N / M2); [|lra].
      apply Rmult_le_compat_r; [left; now apply Rinv_0_lt_compat|lra]. }
    set (pred := predicted (G xe) D dv B z) in *. set (act := actual xe y dv z) in *.
    assert (Pp : chi * (eps / 2 * least_rad eps) <= pred).
    { eapply Rle_trans; [|exact Dz]. apply Rmult_le_compat_l; [lra|]. apply Rmult_le_compat; lra. }
    assert (P0 : 0 < pred).
    { eapply Rlt_le_trans; [|exact Pp]. apply Rmult_lt_0_compat; [lra|]. apply Rmult_lt_0_compat; lra. }
    assert (Er : r * pred = act) by (unfold r, ratio; fold pred act; field; lra).
    assert (Ea : act <= F xe - F y) by (unfold act, actual; lra).
    unfold new_radius. destruct (Rlt_dec mu r) as [Hr|Hr].
    - left. split; [exact Hr|]. split.
      { unfold least_dec. assert (mu * (chi * (eps / 2 * least_rad eps)) <= r * pred); [|lra].
        apply Rmult_le_compat; try lra. apply Rmult_le_pos; [lra|]. apply Rmult_le_pos; lra. }
      destruct (Rleb eta r && negb (Rltb (rnorm z) (delta * (9 / 10)))); [nra|].
      destruct (Rleb_spec r mu); [lra|nra].
    - right. split; [lra|]. split; [intros Hr0; assert (0 < r * pred) by (apply Rmult_lt_0_compat; lra); lra|].
      destruct (Rleb_spec eta r); [lra|]. cbn [andb].
      destruct (Rleb_spec r mu); [|lra].
      assert (Hf : (1 - mu2) * pred <= (L2 + M2) / 2 * (rnorm z * rnorm z)).
      { assert (act <= mu * pred) by (rewrite <- Er; apply Rmult_le_compat_r; lra).
        assert (E0 <= (1 - mu) / 2 * pred) by (eapply Rle_trans; [exact Hc2|]; apply Rmult_le_compat_l; lra).
        unfold mu2. lra. }
      destruct (failure_bounds chi 2 L2 M2 eps mu2) with (N := N) (pred := pred) (delta := delta) (nw := rnorm z) as [B1 B2]; auto; try lra.
      { split; [apply rnorm_nonneg|lra]. }
      split; [apply Rmin_glb; nra|]. eapply Rle_trans; [apply Rmin_l|lra].
  Qed.

  (** *** from the start *)
  Lemma start_box f s xs : boxpt x0 -> nudge C (fv x0) = fv xs -> prepare E C ndim (fv x0) sid h0 st = (Ok f, s) ->
    at_pt s xs xs /\ o_iter s = 0%Z /\ o_delta s = Fin D0.
  Proof using BS.
    intros B0 Hnx H. pose proof (prepare_delta E C _ _ _ _ _ _ _ H) as Hd.
    assert (Hdl : o_delta s = Fin D0) by (rewrite Hd; apply (bs_D0 BS)).
    destruct (nudged x0 xs B0 Hnx) as (Bs & Ss & _).
    apply prepare_inv in H. inversion H as [| | | | | |pf hess h' f1 D1 D2 D3 D4 D5 D6 D7 Ef Es0]. subst f1.
    destruct (value_typed C _ _ _ _ _ D3 D6) as [Hv Hg].
    unfold pr_ret in Hv, Hg. rewrite Hnx in Hv, Hg.
    destruct (bs_obj BS (length (o_evals st)) xs Bs) as [O1 O2]. rewrite O1 in Hv. rewrite O2 in Hg.
    injection Hv as Hv. injection Hg as Hg.
    rewrite Es0. split; [|split; [|exact Hdl]].
    - constructor.
      + exact Bs.
      + rewrite <- Es0. transitivity (nudge C (fv x0)); [|exact Hnx].
        unfold deref, pr_s4. destruct better; unfold pr_s3, pr_s2, pr_s1, pr_s0; destruct pr_id; apply nth_middle.
      + split; [exact Bs|]. split; [exact Ss|]. intros i Hi. rewrite Rminus_diag_eq by reflexivity. rewrite Rabs_R0. pose proof margin_pos. lra.
      + rewrite <- Es0, Hv. unfold pr_s4. destruct better; reflexivity.
      + rewrite <- Es0, Hg. unfold pr_s4. destruct better; reflexivity.
    - rewrite <- Es0. unfold pr_s4. destruct better; unfold pr_s3, pr_s2, pr_s1, pr_s0; destruct pr_id; reflexivity.
  Qed.
  End Point.

  Section Count.
  Variables (ndim : nat) (x0 : rvec) (sid : option string) (h0 : hess0_arg ER) (st : opt ER) (xs : rvec).
  Hypothesis B0 : boxpt x0.
  Hypothesis Hxs : nudge C (fv x0) = fv xs.
  Hypothesis RE : reach (F xs).
  Local Notation steep := (steep_box ndim x0 sid h0 st).

  (** every such head with a scaled gradient of norm at least eps is a good one *)
  Definition good_run (eps : R) : Prop :=
    forall f s xe x delta, steep eps f s -> nleb (Fin eps) (norm (scaled_gradient s)) = true ->
      at_pt s xe x -> F xe <= F xs -> o_delta s = Fin delta -> 0 < delta -> good_head s.

  Lemma steep_box_inv eps f s : 0 < eps -> coarse_box eps -> good_run eps -> steep eps f s ->
    exists xe x delta (S U : nat), at_pt s xe x /\ o_delta s = Fin delta /\ o_iter s = Z.of_nat (S + U)
      /\ least_rad eps <= delta /\ delta <= D0 * g2 ^ S * g1 ^ U /\ F xe <= F xs - INR S * least_dec eps.
  Proof using BS B0 Hxs RE.
    intros He Hco HH HR. pose proof (least_rad_pos eps He) as K0.
    assert (Ld : 0 < least_dec eps).
    { unfold least_dec. pose proof (bs_chi BS). pose proof (bs_mu BS). apply Rmult_lt_0_compat; [|lra]. apply Rmult_lt_0_compat; [apply Rmult_lt_0_compat; lra|lra]. }
    induction HR as [f s Hp|f s s1 f' s' HR IH Hst Hc Hi].
    - destruct (start_box ndim x0 sid h0 st f s xs B0 Hxs Hp) as (H1 & H2 & H3). exists xs, xs, D0, 0%nat, 0%nat.
      pose proof (least_rad_le eps He) as (K1 & _). cbn [INR pow].
      split; [exact H1|]. split; [exact H3|]. split; [exact H2|]. split; [exact K1|]. split; lra.
    - destruct IH as (xe & x & delta & S & U & Ha & Ed & Ei & Hl & Hu & HF).
      assert (Hs : F xe <= F xs) by (pose proof (pos_INR S); assert (0 <= INR S * least_dec eps) by (apply Rmult_le_pos; lra); lra).
      pose proof (HH f s xe x delta HR Hst Ha Hs Ed ltac:(lra)) as HG.
      assert (EN : exists N, norm (scaled_gradient s) = Fin N).
      { destruct (geometry (F xs) RE s xe x Ha Hs) as (D & dv & E1 & _). unfold scaled_gradient, step_args. cbv zeta. cbn [tr_args a_sg].
        destruct Ha as [_ Ex _ _ Eg]. rewrite Ex, Eg, E1, h_vmul, h_norm. eauto. }
      destruct EN as (N & EN). rewrite EN in Hst. cbn [nleb ERNum er_leb] in Hst.
      assert (Hg : eps <= N) by (destruct (Rleb_spec eps N); [lra|discriminate]).
      destruct (pass_box ndim x0 sid h0 st (F xs) RE f s s1 f' s' xe x delta N (steep_box_head _ _ _ _ _ _ _ _ HR) Hc Hi Ha Hs Ed ltac:(lra) HG EN ltac:(lra))
        as (sp & D & dv & B & z & y & K & Dw & Aw & Iw).
      destruct (steep_pass_box eps s xe x delta N sp D dv B z y He Hco ltac:(lra) Ha K Hg Hl) as [(Hr & Hd & Hn1 & Hn2)|(Hr & Hd & Hn1 & Hn2)].
      + destruct (Rltb_spec 0 (ratio xe y D dv B z)) as [_|]; [|pose proof (bs_mu BS); lra]. destruct Aw as (x' & Aw).
        exists y, x', (new_radius (ratio xe y D dv B z) z delta), (Datatypes.S S), U.
        split; [exact Aw|]. split; [exact Dw|]. split; [rewrite Iw, Ei; lia|]. split; [lra|]. rewrite S_INR. split; [|lra].
        cbn [pow]. destruct (bs_g2 BS) as [_ H2]. assert (g2 * delta <= g2 * (D0 * g2 ^ S * g1 ^ U)) by (apply Rmult_le_compat_l; lra). lra.
      + destruct (bs_g1 BS) as [_ H1].
        assert (Aw' : exists xe' x', at_pt s' xe' x' /\ F xe' <= F xe).
        { destruct (Rltb_spec 0 (ratio xe y D dv B z)) as [Hp|Hp]; [destruct Aw as (x' & Aw); exists y, x'; auto|exists xe, x; split; [auto|lra]]. }
        destruct Aw' as (xe' & x' & Aw' & Hf'). exists xe', x', (new_radius (ratio xe y D dv B z) z delta), S, (Datatypes.S U).
        split; [exact Aw'|]. split; [exact Dw|]. split; [rewrite Iw, Ei; lia|]. split; [exact Hn1|]. split; [|lra].
        cbn [pow]. assert (g1 * delta <= g1 * (D0 * g2 ^ S * g1 ^ U)) by (apply Rmult_le_compat_l; lra). lra.
  Qed.

  (** a bound on the number of passes with scaled gradient of norm at least eps that depends on the constants only *)
  Definition most_box (eps Fl : R) (p q : nat) : R := INR q + INR (p + 1) * ((F xs - Fl) / least_dec eps).

  Theorem C63_steep_passes_bounded eps Fl p q f s :
    0 < eps -> coarse_box eps -> good_run eps -> (forall y, boxpt y -> Fl <= F y) ->
    g2 * g1 ^ p <= 1 -> D0 * g1 ^ q < least_rad eps ->
    steep eps f s -> IZR (o_iter s) < most_box eps Fl p q.
  Proof using BS B0 Hxs RE.
    intros He Hco HH HF Hp Hq HR. destruct (steep_box_inv eps f s He Hco HH HR) as (xe & x & delta & S & U & Ha & Ed & Ei & Hl & Hu & Hd).
    pose proof (least_rad_pos eps He) as K0.
    assert (Hc : 0 < least_dec eps).
    { unfold least_dec. pose proof (bs_chi BS). pose proof (bs_mu BS). apply Rmult_lt_0_compat; [|lra]. apply Rmult_lt_0_compat; [apply Rmult_lt_0_compat; lra|lra]. }
    assert (HU : (U < q + p * S)%nat).
    { destruct (bs_g1 BS), (bs_g2 BS), (bs_D0 BS). apply (count_failures g1 g2 D0 (least_rad eps)); auto. lra. }
    assert (HS : INR S <= (F xs - Fl) / least_dec eps).
    { apply (Rmult_le_reg_r (least_dec eps)); [exact Hc|]. unfold Rdiv. rewrite Rmult_assoc, Rinv_l by lra.
      specialize (HF xe (pt_box _ _ _ Ha)). lra. }
    rewrite Ei, <- INR_IZR_INZ. unfold most_box.
    apply (Rlt_le_trans _ (INR (q + (p + 1) * S))); [apply lt_INR; lia|]. rewrite plus_INR, mult_INR.
    apply Rplus_le_compat_l. apply Rmult_le_compat_l; [apply pos_INR|exact HS].
  Qed.

  (** a run that makes that many passes has been at a point with a scaled gradient below eps *)
  Theorem C63_first_order_point_reached eps Fl p q f s :
    0 < eps -> coarse_box eps -> good_run eps -> (forall y, boxpt y -> Fl <= F y) ->
    g2 * g1 ^ p <= 1 -> D0 * g1 ^ q < least_rad eps ->
    loop_head E C ndim (fv x0) sid h0 st f s -> most_box eps Fl p q <= IZR (o_iter s) ->
    exists f1 s1 xe x N, loop_head E C ndim (fv x0) sid h0 st f1 s1 /\ (o_iter s1 < o_iter s)%Z /\ IZR (o_iter s1) < most_box eps Fl p q
      /\ at_pt s1 xe x /\ norm (scaled_gradient s1) = Fin N /\ N < eps /\ nearly_first_order eps x (G xe).
  Proof using BS B0 Hxs RE.
    intros He Hco HH Hl Hp Hq HL Hit.
    assert (K : forall f s, loop_head E C ndim (fv x0) sid h0 st f s -> steep eps f s \/
      exists f1 s1 xe x N, steep eps f1 s1 /\ (o_iter s1 < o_iter s)%Z /\ at_pt s1 xe x /\ norm (scaled_gradient s1) = Fin N /\ N < eps).
    { clear f s HL Hit. induction 1 as [f s Hpr|f s s1 f' s' HL IH Hc Hi]; [left; now apply sb_start|].
      assert (Ei : o_iter s' = (o_iter s + 1)%Z).
      { apply check_continue_true in Hc as (-> & _). apply iteration_ok in Hi as (sp' & fn & Ki). rewrite (ik_iter _ _ _ _ _ _ _ _ Ki). reflexivity. }
      destruct IH as [IH|(f1 & t1 & xe & x & N & A1 & A2 & A3)].
      2:{ right. exists f1, t1, xe, x, N. split; [exact A1|]. split; [lia|exact A3]. }
      destruct (nleb (Fin eps) (norm (scaled_gradient s))) eqn:En; [left; eapply sb_next; eauto|]. right.
      destruct (steep_box_inv eps f s He Hco HH IH) as (xe & x & delta & S & U & Ha & _ & _ & _ & _ & Hd).
      assert (Hs : F xe <= F xs).
      { pose proof (pos_INR S). pose proof (least_rad_pos eps He). assert (0 < least_dec eps).
        { unfold least_dec. pose proof (bs_chi BS). pose proof (bs_mu BS). apply Rmult_lt_0_compat; [|lra]. apply Rmult_lt_0_compat; [apply Rmult_lt_0_compat; lra|lra]. }
        assert (0 <= INR S * least_dec eps) by (apply Rmult_le_pos; lra). lra. }
      destruct (geometry (F xs) RE s xe x Ha Hs) as (D & dv & E1 & _).
      assert (EN : exists N, norm (scaled_gradient s) = Fin N).
      { unfold scaled_gradient, step_args. cbv zeta. cbn [tr_args a_sg].
        destruct Ha as [_ Ex _ _ Eg]. rewrite Ex, Eg, E1, h_vmul, h_norm. eauto. }
      destruct EN as (N & EN). rewrite EN in En. cbn [nleb ERNum er_leb] in En.
      exists f, s, xe, x, N. split; [exact IH|]. split; [lia|]. split; [exact Ha|]. split; [exact EN|]. destruct (Rleb_spec eps N); [discriminate|lra]. }
    destruct (K f s HL) as [HR|(f1 & s1 & xe & x & N & A1 & A2 & A3 & A4 & A5)].
    - pose proof (C63_steep_passes_bounded eps Fl p q f s He Hco HH Hl Hp Hq HR). lra.
    - exists f1, s1, xe, x, N. split; [eapply steep_box_head; eauto|]. split; [exact A2|]. split; [eapply C63_steep_passes_bounded; eauto|].
      split; [exact A3|]. split; [exact A4|]. split; [exact A5|]. eapply small_scaled; eauto.
  Qed.
  End Count.
End ConvBox.

(** the numbers p and q exist *)
Theorem C63_bound_exists (LR g1 g2 D0 : R) : 0 < g1 < 1 -> 1 <= g2 -> 0 < D0 -> 0 < LR ->
  exists p q, g2 * g1 ^ p <= 1 /\ D0 * g1 ^ q < LR.
Proof.
  intros H1 H2 H3 H4.
  destruct (pow_small g1 (/ g2) H1) as (p & Hp); [apply Rinv_0_lt_compat; lra|].
  destruct (pow_small g1 (LR / D0) H1) as (q & Hq); [apply Rmult_lt_0_compat; [lra|now apply Rinv_0_lt_compat]|].
  exists p, q. split.
  - apply (Rmult_le_reg_l (/ g2)); [apply Rinv_0_lt_compat; lra|]. rewrite <- Rmult_assoc, Rinv_l by lra. lra.
  - apply (Rmult_lt_compat_l D0) in Hq; [|lra]. replace (D0 * (LR / D0)) with LR in Hq by (field; lra). exact Hq.
Qed.
