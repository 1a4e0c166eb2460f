(** C71: the 'refine' step-back strategy (exact arithmetic) *)
From Coq Require Import String ZArith List Bool Reals Lra Lia Psatz.
From Verif Require Import Num Subproblem Steps TrustRegion ER NumFacts RVec SubNd RShess Ortho UnboundedFull Argmin Cand StepFacts Prop_Sub1d Prop_Pred Prop_Box Prop_Cand RealStep Prop_Grad Saddle Region.
Import ListNotations.
Local Open Scope R_scope.
Local Open Scope list_scope.

(** ** Specification *)
(** the displacement [s] of a coordinate at [b] uses at most the fraction [theta] of the way to the bounds *)
Definition short_of (theta : R) (l : ER) (b : R) (u : ER) (s : R) : Prop :=
  (l = NInf \/ exists l', l = Fin l' /\ theta * (l' - b) <= s)
  /\ (u = PInf \/ exists u', u = Fin u' /\ s <= theta * (u' - b)).

Section Spec.
  Variables (n : nat) (x g : rvec) (H : rmat) (D dv : rvec) (delta theta : R) (lb ub : list ER) (V : list rvec).
  (** the step with coordinates [c] in the subspace [V]: scaled and unscaled *)
  Definition sstep (c : rvec) : rvec := rlincomb n c V.
  Definition step_of (c : rvec) : rvec := rmul D (sstep c).
  (** points of the subspace inside the trust region that keep the distance to the bounds *)
  Definition allowed (c : rvec) : Prop :=
    length c = length V /\ rnorm (sstep c) <= delta
    /\ forall i, (i < n)%nat -> short_of theta (nth i lb NaN) (nth i x 0) (nth i ub NaN) (nth i (step_of c) 0).
  (** predicted change of the objective: quadratic model plus the curvature of the scaling *)
  Definition predicted (c : rvec) : R :=
    rdot g (step_of c) + / 2 * rform H (step_of c) (step_of c)
    + / 2 * rsum n (fun i => Rabs (nth i g 0) * nth i dv 0 * (nth i (sstep c) 0 * nth i (sstep c) 0)).
End Spec.

(** a point of the constrained subproblem handed to the external solver: trust region and linear constraints on the scaled step *)
Definition feasible (n : nat) (V : list rvec) (d : R) (lo hi : list ER) (c : rvec) : Prop :=
  length c = length V /\ rnorm (rlincomb n c V) <= d
  /\ forall i, (i < n)%nat -> er_leb (nth i lo NaN) (Fin (nth i (rlincomb n c V) 0)) = true
                          /\ er_leb (Fin (nth i (rlincomb n c V) 0)) (nth i hi NaN) = true.
(** the external solver (scipy's trust-constr), if it returns, returns a solution of the problem it is given *)
Definition exact_refine (n : nat) (O : StepOracles ER) : Prop :=
  forall Q q guess V d lo hi sc, Forall (fun col => length col = n) V ->
    so_refine O (fm Q) (fv q) guess (fm V) (Fin d) lo hi = Some sc ->
    exists c, sc = fv c /\ feasible n V d lo hi c /\ forall c', feasible n V d lo hi c' -> qmodel Q q c <= qmodel Q q c'.

(** ** Breakpoints of a step that keeps its distance *)
Lemma breakpoint_far l b u s theta : 0 < theta -> inside l b u -> short_of theta l b u s ->
  breakpoint (Fin b) (Fin s) l u = PInf \/ exists m, breakpoint (Fin b) (Fin s) l u = Fin m /\ 1 <= theta * m.
Proof.
  intros Ht Hin [Hl Hu]. destruct (breakpoint_real l b u s Hin) as [E|(m & E & Hm & Hne & _)]; [auto|].
  right. exists m. split; [exact E|]. revert E. unfold breakpoint. cbn [nabs ERNum nltb n0 nofZ er_abs er_ltb].
  destruct (Rltb_spec 0 (Rabs s)) as [Hs|Hs]; [|discriminate].
  assert (Pos : forall a, 0 < s -> s <= theta * a -> 1 <= theta * (a / s)).
  { intros a S K. assert (0 < / s) by now apply Rinv_0_lt_compat. replace (theta * (a / s)) with (theta * a * / s) by (field; lra).
    replace 1 with (s * / s) by (field; lra). apply Rmult_le_compat_r; lra. }
  assert (Neg : forall a, s < 0 -> theta * a <= s -> 1 <= theta * (a / s)).
  { intros a S K. assert (/ s < 0) by now apply Rinv_lt_0_compat. replace (theta * (a / s)) with ((- (theta * a)) * - / s) by (field; lra).
    replace 1 with ((- s) * - / s) by (field; lra). apply Rmult_le_compat_r; lra. }
  assert (Mp : forall a b0, npmax2 (Fin a) (Fin b0) = Fin (Rmax a b0)).
  { intros a b0. unfold npmax2. cbn [nisnan ERNum er_isnan nltb er_ltb]. unfold Rmax.
    destruct (Rltb_spec a b0), (Rle_dec a b0); try reflexivity; f_equal; lra. }
  assert (Sg : 0 < s \/ s < 0) by lra.
  destruct Hl as [->|(l' & -> & Hl)], Hu as [->|(u' & -> & Hu)].
  - unfold npmax2. cbn. destruct (Rltb_spec s 0); discriminate.
  - change (NInf - Fin b)%num with NInf. change (Fin u' - Fin b)%num with (Fin (u' - b)).
    cbn [ndiv ERNum]. rewrite er_div_fin by auto. cbn [er_div].
    destruct (Rltb_spec s 0) as [S|S]; cbn; [discriminate|]. intros K. injection K as <-. apply Pos; lra.
  - change (PInf - Fin b)%num with PInf. change (Fin l' - Fin b)%num with (Fin (l' - b)).
    cbn [ndiv ERNum]. rewrite er_div_fin by auto. cbn [er_div].
    destruct (Rltb_spec s 0) as [S|S]; cbn; [|discriminate]. intros K. injection K as <-. apply Neg; lra.
  - change (Fin l' - Fin b)%num with (Fin (l' - b)). change (Fin u' - Fin b)%num with (Fin (u' - b)).
    cbn [ndiv ERNum]. rewrite !er_div_fin by auto. rewrite Mp. intros K. injection K as <-.
    destruct Sg as [S|S].
    + apply Rle_trans with (theta * ((u' - b) / s)); [apply Pos; lra|]. apply Rmult_le_compat_l; [lra|apply Rmax_l].
    + apply Rle_trans with (theta * ((l' - b) / s)); [apply Neg; lra|]. apply Rmult_le_compat_l; [lra|apply Rmax_r].
Qed.

(** conversely, a step scaled back by the rule keeps its distance *)
Lemma breakpoint_cut l b u s theta a : 0 < theta -> 0 <= a <= 1 -> inside l b u ->
  (breakpoint (Fin b) (Fin s) l u = PInf \/ exists m, breakpoint (Fin b) (Fin s) l u = Fin m /\ a <= theta * m) ->
  short_of theta l b u (a * s).
Proof.
  intros Ht Ha Hin Hb. pose proof Hin as [Hl Hu].
  assert (Ls : l = NInf \/ exists l', l = Fin l' /\ l' <= b).
  { destruct l as [l'| | |]; cbn in Hl; try discriminate; auto. right. exists l'. split; auto. now apply Rleb_true. }
  assert (Us : u = PInf \/ exists u', u = Fin u' /\ b <= u').
  { destruct u as [u'| | |]; cbn in Hu; try discriminate; auto. right. exists u'. split; auto. now apply Rleb_true. }
  unfold breakpoint in Hb. cbn [nabs ERNum nltb n0 nofZ er_abs er_ltb] in Hb.
  assert (Hz : s = 0 \/ s <> 0) by lra. destruct Hz as [->|Hne].
  { rewrite Rmult_0_r. split; [destruct Ls as [->|(l' & -> & K)]|destruct Us as [->|(u' & -> & K)]]; auto; right; eexists; (split; [reflexivity|nra]). }
  destruct (Rltb_spec 0 (Rabs s)) as [Hs|Hs]; [|exfalso; apply Hs; now apply Rabs_pos_lt].
  assert (Mp : forall a b0, npmax2 (Fin a) (Fin b0) = Fin (Rmax a b0)).
  { intros a' b0. unfold npmax2. cbn [nisnan ERNum er_isnan nltb er_ltb]. unfold Rmax.
    destruct (Rltb_spec a' b0), (Rle_dec a' b0); try reflexivity; f_equal; lra. }
  assert (Mul : forall d, d / s * s = d) by (intros; field; lra).
  assert (Sg : 0 < s \/ s < 0) by lra.
  assert (Up : forall u', 0 < s -> b <= u' -> a <= theta * ((u' - b) / s) -> a * s <= theta * (u' - b)).
  { intros u' S _ K. apply Rmult_le_compat_r with (r := s) in K; [|lra]. rewrite Rmult_assoc, Mul in K. exact K. }
  assert (Dn : forall l', s < 0 -> l' <= b -> a <= theta * ((l' - b) / s) -> theta * (l' - b) <= a * s).
  { intros l' S _ K. apply Rmult_le_compat_r with (r := - s) in K; [|lra].
    replace (theta * ((l' - b) / s) * - s) with (- (theta * ((l' - b) / s * s))) in K by ring. rewrite Mul in K. lra. }
  assert (Rm : forall p q, 0 < s -> q <= b -> b <= p -> Rmax ((p - b) / s) ((q - b) / s) = (p - b) / s).
  { intros p q S K1 K2. apply Rmax_left. assert (0 < / s) by now apply Rinv_0_lt_compat. unfold Rdiv. apply Rmult_le_compat_r; lra. }
  assert (Rm2 : forall p q, s < 0 -> q <= b -> b <= p -> Rmax ((p - b) / s) ((q - b) / s) = (q - b) / s).
  { intros p q S K1 K2. apply Rmax_right. assert (/ s < 0) by now apply Rinv_lt_0_compat. unfold Rdiv. nra. }
  assert (Ap : 0 < s -> 0 <= a * s) by (intros; apply Rmult_le_pos; lra).
  assert (An : s < 0 -> a * s <= 0) by (intros; nra).
  assert (Tl : forall l', l' <= b -> theta * (l' - b) <= 0) by (intros; nra).
  assert (Tu : forall u', b <= u' -> 0 <= theta * (u' - b)) by (intros; nra).
  destruct Ls as [->|(l' & -> & Hl')], Us as [->|(u' & -> & Hu')].
  - split; auto.
  - change (NInf - Fin b)%num with NInf in Hb. change (Fin u' - Fin b)%num with (Fin (u' - b)) in Hb.
    cbn [ndiv ERNum] in Hb. rewrite er_div_fin in Hb by auto. cbn [er_div] in Hb.
    split; [auto|]. right. exists u'. split; [reflexivity|]. specialize (Tu _ Hu').
    destruct Sg as [S|S]; [|specialize (An S); lra]. destruct (Rltb_spec s 0) as [S'|S']; [lra|]. cbn in Hb.
    destruct Hb as [Hb|(m & Hb & K)]; [discriminate|]. injection Hb as <-. auto.
  - change (PInf - Fin b)%num with PInf in Hb. change (Fin l' - Fin b)%num with (Fin (l' - b)) in Hb.
    cbn [ndiv ERNum] in Hb. rewrite er_div_fin in Hb by auto. cbn [er_div] in Hb.
    split; [|auto]. right. exists l'. split; [reflexivity|]. specialize (Tl _ Hl').
    destruct Sg as [S|S]; [specialize (Ap S); lra|]. destruct (Rltb_spec s 0) as [S'|S']; [|lra]. cbn in Hb.
    destruct Hb as [Hb|(m & Hb & K)]; [discriminate|]. injection Hb as <-. auto.
  - change (Fin l' - Fin b)%num with (Fin (l' - b)) in Hb. change (Fin u' - Fin b)%num with (Fin (u' - b)) in Hb.
    cbn [ndiv ERNum] in Hb. rewrite !er_div_fin in Hb by auto. rewrite Mp in Hb.
    destruct Hb as [Hb|(m & Hb & K)]; [discriminate|]. injection Hb as <-.
    specialize (Tl _ Hl'). specialize (Tu _ Hu').
    split; right; eexists; (split; [reflexivity|]); destruct Sg as [S|S].
    + specialize (Ap S). lra.
    + rewrite Rm2 in K by lra. auto.
    + rewrite Rm in K by lra. auto.
    + specialize (An S). lra.
Qed.

Section Refine.
  Variables (O : StepOracles ER) (n : nat) (x g : rvec) (H : rmat) (D dv : rvec) (delta theta : R) (lb ub : list ER).
  Hypothesis P : problem n x g H D dv delta theta lb ub.
  Local Notation A := (rA x g H D dv delta theta lb ub).
  Local Notation B := (rB n g H D dv).
  Local Notation sg := (rsg g D).
  Variable V : list rvec.
  Hypothesis HV : Forall (fun col => length col = n) V.
  Local Notation sstep := (sstep n V).
  Local Notation step_of := (step_of n D V).
  Local Notation allowed := (allowed n x D delta theta lb ub V).
  Local Notation predicted := (predicted n g H D dv V).

  Lemma sstep_length c : length (sstep c) = n.
  Proof using HV. unfold sstep. now apply rlincomb_length. Qed.
  Lemma step_of_length c : length (step_of c) = n.
  Proof using HV P. unfold step_of. destruct P. apply rmul_length; auto. apply sstep_length. Qed.
  Lemma D_pos i : (i < n)%nat -> 0 < nth i D 0.
  Proof using P. intros Hi. destruct P. rewrite Forall_forall in pb_pos. apply pb_pos, nth_In. congruence. Qed.
  Lemma nth_step c i : nth i (step_of c) 0 = nth i D 0 * nth i (sstep c) 0.
  Proof using HV P. unfold step_of. destruct P. apply (nth_rmul _ _ n); auto. apply sstep_length. Qed.
  Lemma predicted_q c : qmodel B sg (sstep c) = predicted c.
  Proof using HV P.
    unfold rB, rsg, predicted. destruct P. rewrite scaled_model by (auto; apply sstep_length). unfold qmodel, step_of.
    rewrite (Rplus_comm (/ 2 * _) (rdot g _)). apply f_equal. apply f_equal. apply rsum_ext. intros i Hi.
    rewrite (nth_rmul _ _ n) by (rewrite ?rabsv_length; auto). rewrite nth_rabsv. reflexivity.
  Qed.

  (** what the main step of the '2D' and 'full' solvers is made of *)
  Lemma main_new sd p : sd <> "scg"%string -> main_step O A sd = Ok p ->
    exists typ pd nw, calculate O (new_step typ A (a_x A) (st_subspace p) (zeros_of A) (zeros_of A) [] [] pd nw) = Ok p.
  Proof using.
    intros Hsd Hm. assert (G : forall typ sub pd nw, calculate O (new_step typ A (a_x A) sub (zeros_of A) (zeros_of A) [] [] pd nw) = Ok p ->
       exists typ pd nw, calculate O (new_step typ A (a_x A) (st_subspace p) (zeros_of A) (zeros_of A) [] [] pd nw) = Ok p).
    { intros typ sub pd nw K. exists typ, pd, nw. pose proof K as K'. apply calculate_fields in K' as (sc & ss & s & _ & _ & _ & Hst & _).
      rewrite (sb_subspace _ _ _ _ _ Hst). exact K. }
    apply main_step_cases in Hm as [(_ & r & Hr & Hc)|[(_ & Hc)|(E & _)]]; [| |contradiction].
    - unfold tr_step_2d in Hr. cbv zeta in Hr. destruct (so_lstsq O _ _) as [ls|]; [|discriminate].
      destruct (so_eig O _) as [[[e_re e_abs] v]|]; [|discriminate].
      destruct (a_sg A) as [|sa [|sb rest]] eqn:Esg.
      all: repeat match type of Hr with context [if ?b then _ else _] =>
             match b with context [if _ then _ else _] => fail 1 | _ => destruct b end end; apply Ok_inj in Hr; subst r; eapply G; exact Hc.
    - eapply G; exact Hc.
  Qed.

  Lemma constraint_lower l b d u : 0 < d -> (l = NInf \/ exists l', l = Fin l' /\ l' <= b) ->
    (er_leb (ndiv (nmul (Fin theta) (nsub l (Fin b))) (Fin d)) (Fin u) = true <-> l = NInf \/ exists l', l = Fin l' /\ theta * (l' - b) <= d * u).
  Proof using P.
    intros Hd Hl. assert (Ht : 0 < theta) by (destruct P; lra). destruct Hl as [->|(l' & -> & Hl)].
    - split; [auto|]. intros _. cbn. unfold er_infmul. destruct (Rltb_spec 0 theta); [|lra]. cbn. destruct (Rltb_spec d 0); [lra|reflexivity].
    - change (nmul (Fin theta) (nsub (Fin l') (Fin b))) with (Fin (theta * (l' - b))). cbn [ndiv ERNum].
      rewrite er_div_fin by lra. cbn [er_leb]. assert (Hi : 0 < / d) by now apply Rinv_0_lt_compat.
      assert (E : theta * (l' - b) / d * d = theta * (l' - b)) by (field; lra).
      split.
      + intros K. apply Rleb_true in K. right. exists l'. split; [reflexivity|]. apply Rmult_le_compat_r with (r := d) in K; lra.
      + intros [K|(l2 & K & K2)]; [discriminate|]. injection K as <-. destruct (Rleb_spec (theta * (l' - b) / d) u) as [|K]; [reflexivity|].
        exfalso. apply K. apply Rmult_le_reg_r with d; lra.
  Qed.
  Lemma constraint_upper l b d u : 0 < d -> (l = PInf \/ exists l', l = Fin l' /\ b <= l') ->
    (er_leb (Fin u) (ndiv (nmul (Fin theta) (nsub l (Fin b))) (Fin d)) = true <-> l = PInf \/ exists l', l = Fin l' /\ d * u <= theta * (l' - b)).
  Proof using P.
    intros Hd Hl. assert (Ht : 0 < theta) by (destruct P; lra). destruct Hl as [->|(l' & -> & Hl)].
    - split; [auto|]. intros _. cbn. unfold er_infmul. destruct (Rltb_spec 0 theta); [|lra]. cbn. destruct (Rltb_spec d 0); [lra|reflexivity].
    - change (nmul (Fin theta) (nsub (Fin l') (Fin b))) with (Fin (theta * (l' - b))). cbn [ndiv ERNum].
      rewrite er_div_fin by lra. cbn [er_leb]. assert (Hi : 0 < / d) by now apply Rinv_0_lt_compat.
      assert (E : theta * (l' - b) / d * d = theta * (l' - b)) by (field; lra).
      split.
      + intros K. apply Rleb_true in K. right. exists l'. split; [reflexivity|]. apply Rmult_le_compat_r with (r := d) in K; lra.
      + intros [K|(l2 & K & K2)]; [discriminate|]. injection K as <-. destruct (Rleb_spec u (theta * (l' - b) / d)) as [|K]; [reflexivity|].
        exfalso. apply K. apply Rmult_le_reg_r with d; lra.
  Qed.

  (** a step of the subspace, stepped back from the bounds *)
  Lemma cut_fields r typ refl tr pd nw c : length r = length V ->
    stepped (new_step typ A (a_x A) (fm V) (zeros_of A) (zeros_of A) refl tr pd nw) (fv (step_of r)) (fv (sstep r)) (fv r) c ->
    exists a, st_alpha c = Fin a /\ 0 <= a <= 1
      /\ st_sc c = fv (rscale a r) /\ st_ss c = fv (sstep (rscale a r)) /\ st_s c = fv (step_of (rscale a r))
      /\ (forall i, (i < n)%nat -> short_of theta (nth i lb NaN) (nth i x 0) (nth i ub NaN) (nth i (step_of (rscale a r)) 0))
      /\ (allowed r -> a = 1).
  Proof using HV P.
    intros Lr Hst. pose proof P as P'. destruct P'. destruct Hst. cbn [new_step st_x st_lb st_ub st_theta] in *.
    change (a_x A) with (fv x) in *. change (a_lb A) with lb in *. change (a_ub A) with ub in *. change (a_theta A) with (Fin theta) in *.
    assert (Lst : length (step_of r) = n) by apply step_of_length.
    assert (Es : forall a, rscale a (step_of r) = step_of (rscale a r)).
    { intros a. apply rvec_ext; [rewrite rscale_length, !step_of_length; reflexivity|]. intros i. rewrite nth_rscale, !nth_step.
      unfold sstep. rewrite rlincomb_rscale by auto. rewrite nth_rscale. ring. }
    assert (Ess : forall a, rscale a (sstep r) = sstep (rscale a r)) by (intros a; symmetry; unfold sstep; now apply rlincomb_rscale).
    pose proof (back_real n theta lb ub pb_n pb_theta pb_lb pb_ub x (step_of r) (st_br c) pb_x Lst pb_box sb_br) as Bk.
    rewrite <- sb_minbr, <- sb_alpha in Bk. destruct Bk as [Lbr (a & Ea & Ha & Hmb & _) _].
    assert (Hi : forall i, (i < n)%nat -> nth i (st_br c) NaN = breakpoint (Fin (nth i x 0)) (Fin (nth i (step_of r) 0)) (nth i lb NaN) (nth i ub NaN)).
    { intros i Hl. destruct (nth_breakpoints (fv x) (fv (step_of r)) lb ub i) as [[E _]|[E _]].
      - rewrite <- sb_br in E. rewrite E, !h_nth by lia. reflexivity.
      - rewrite <- sb_br in E. lia. }
    assert (Hbr : forall i, (i < n)%nat -> nth i (st_br c) NaN = PInf \/ exists m, nth i (st_br c) NaN = Fin m /\ 0 <= m).
    { intros i Hl. rewrite Hi by auto. destruct (breakpoint_real _ _ _ (nth i (step_of r) 0) (pb_box i Hl)) as [E|(m & E & K1 & _)]; eauto. }
    destruct (npmin_spec (st_br c)) as [Hle _].
    { intros E. rewrite E in Lbr. simpl in Lbr. lia. }
    { apply Forall_forall. intros b Hb. apply (In_nth _ _ NaN) in Hb as (i & Hl & <-). rewrite Lbr in Hl.
      destruct (Hbr i Hl) as [->|(m & -> & _)]; reflexivity. }
    rewrite <- sb_minbr in Hle.
    exists a. split; [exact Ea|]. split; [exact Ha|]. rewrite sb_sc, sb_ss, sb_s, Ea, !h_vscaler, Es, Ess.
    split; [reflexivity|]. split; [reflexivity|]. split; [reflexivity|]. split.
    - intros i Hl. rewrite <- Es, nth_rscale. apply breakpoint_cut; [lra|exact Ha|apply pb_box; exact Hl|].
      rewrite <- (Hi i Hl). destruct (Hbr i Hl) as [E|(m & E & _)]; [auto|]. right. exists m. split; [exact E|].
      pose proof (Hle (nth i (st_br c) NaN) (nth_In (st_br c) NaN (eq_ind_r (fun k => (i < k)%nat) Hl Lbr))) as Hle2. rewrite E in Hle2. clear Hle. rename Hle2 into Hle.
      destruct Hmb as [[Em _]|(m0 & Em & _ & -> & _)]; rewrite Em in Hle; [discriminate|].
      cbn [nleb ERNum er_leb] in Hle. apply Rleb_true in Hle. apply Rle_trans with (theta * m0); [apply Rmin_r|nra].
    - intros (_ & _ & Hal). destruct Hmb as [[_ ->]|(m & _ & _ & -> & i & Hl & Em)]; [reflexivity|].
      rewrite Hi in Em by auto. destruct (breakpoint_far _ _ _ _ theta ltac:(lra) (pb_box i Hl) (Hal i Hl)) as [E|(m' & E & K)]; rewrite Em in E; [discriminate|].
      injection E as <-. apply Rmin_left. lra.
  Qed.

  Lemma main_fields sd p r : sd <> "scg"%string -> main_step O A sd = Ok p -> st_subspace p = fm V -> V <> [] -> st_og_sc p = fv r -> length r = length V ->
    exists a, st_alpha p = Fin a /\ 0 <= a <= 1
      /\ st_sc p = fv (rscale a r) /\ st_s p = fv (step_of (rscale a r)) /\ st_qpval p = Fin (predicted (rscale a r))
      /\ (forall i, (i < n)%nat -> short_of theta (nth i lb NaN) (nth i x 0) (nth i ub NaN) (nth i (step_of (rscale a r)) 0)).
  Proof using HV P.
    intros Hsd Hm Hsub Hne Hsc Lr. destruct (main_new sd p Hsd Hm) as (typ & pd & nw & Hc). rewrite Hsub in Hc.
    pose proof P as P'. destruct P'.
    apply calculate_fields in Hc as (sc & ss & s & _ & Ess & Es & Hst & Hq & _).
    rewrite (sb_og_sc _ _ _ _ _ Hst) in Hsc. subst sc. cbn [new_step st_s0 st_subspace st_scaling st_ss0 st_shess st_sg] in Ess, Es, Hq.
    rewrite (zeros_rA n x g H D dv delta theta lb ub P) in Ess, Hq. rewrite fv_length, rzeros_length, h_lincomb in Ess. change (rlincomb n r V) with (sstep r) in Ess. subst ss.
    assert (Es' : s = fv (step_of r)).
    { rewrite Es. destruct V; [congruence|]. cbn [fm map]. apply h_vmul. }
    clear Es. subst s. destruct (cut_fields _ _ _ _ _ _ _ Lr Hst) as (a & Ea & Ha & E1 & E2 & E3 & Hb & _).
    exists a. repeat (split; [assumption|]). split; [|exact Hb].
    rewrite Hq, E2, h_vadd, (rA_shess n x g H D dv delta theta lb ub P), rA_sg.
    rewrite (radd_zeros_r n) by apply sstep_length. rewrite (h_quadratic n); [|apply rB_mat|apply sstep_length]. now rewrite predicted_q.
  Qed.

  Lemma main_reduced sd p : sd <> "scg"%string -> main_step O A sd = Ok p -> st_subspace p = fm V ->
    st_chess p = fm (redB B V) /\ st_cg p = fv (rmv V sg).
  Proof using P.
    intros Hsd Hm Hsub. destruct (main_new sd p Hsd Hm) as (typ & pd & nw & Hc). rewrite Hsub in Hc.
    apply calculate_fields in Hc as (sc & ss & s & _ & _ & _ & _ & _ & E1 & E2). rewrite E1, E2. unfold subspace_hess.
    cbn [new_step st_shess st_sg st_subspace]. rewrite (rA_shess n x g H D dv delta theta lb ub P), rA_sg. split; [apply h_redB|apply h_tmatvec].
  Qed.

  Theorem C71_handed_problem : forall sd p r,
    sd <> "scg"%string -> main_step O A sd = Ok p -> st_subspace p = fm V -> refined_step O A p = Ok r ->
    exists Q q lo hi sc,
      so_refine O (fm Q) (fv q) (st_sc p) (fm V) (Fin delta) lo hi = Some sc
      /\ (forall c, length c = length V -> qmodel Q q c = predicted c)
      /\ (forall c, feasible n V delta lo hi c <-> allowed c)
      /\ st_og_sc r = sc
      /\ (forall c, sc = fv c -> allowed c ->
            st_s r = fv (step_of c) /\ st_ss r = fv (sstep c) /\ st_alpha r = Fin 1 /\ st_qpval r = Fin (predicted c)).
  Proof using HV P.
    intros sd p r Hsd Hm Hsub Hr. pose proof P as P'. destruct P'.
    destruct (main_reduced sd p Hsd Hm Hsub) as [Ech Ecg].
    apply refined_fields in Hr as (sc & ss & s & Ess & Es & Hst & Hq & Hor).
    rewrite Ech, Ecg, Hsub in Hor. exists (redB B V), (rmv V sg).
    match type of Hor with so_refine _ _ _ _ _ _ ?l ?h = _ => set (lo := l) in *; set (hi := h) in * end.
    exists lo, hi, sc. split; [exact Hor|]. split; [|split; [|split; [exact (sb_og_sc _ _ _ _ _ Hst)|]]].
    - intros c Lc. rewrite (red_qmodel n B); [apply predicted_q|apply rB_mat|eapply rB_sym; exact P|exact HV|exact Lc].
    - intros c.
      assert (Nlo : forall i, (i < n)%nat -> nth i lo NaN = ndiv (nmul (Fin theta) (nsub (nth i lb NaN) (Fin (nth i x 0)))) (Fin (nth i D 0))).
      { intros i Hi. unfold lo. change (a_lb A) with lb. change (a_x A) with (fv x). change (a_scaling A) with (fv D). change (a_theta A) with (Fin theta).
        assert (L1 : length (vsub lb (fv x)) = n) by (unfold vsub; rewrite map2_len'; rewrite ?fv_length; congruence).
        rewrite (nth_map2 _ NaN NaN) by (unfold vscale; rewrite map_length, ?fv_length; congruence).
        unfold vscale. rewrite (nth_indep _ NaN (nmul (Fin theta) NaN)) by (rewrite map_length; lia).
        rewrite (map_nth (fun y => nmul (Fin theta) y)). unfold vsub. rewrite (nth_map2 _ NaN NaN) by (rewrite ?fv_length; congruence).
        rewrite !h_nth by lia. reflexivity. }
      assert (Nhi : forall i, (i < n)%nat -> nth i hi NaN = ndiv (nmul (Fin theta) (nsub (nth i ub NaN) (Fin (nth i x 0)))) (Fin (nth i D 0))).
      { intros i Hi. unfold hi. change (a_ub A) with ub. change (a_x A) with (fv x). change (a_scaling A) with (fv D). change (a_theta A) with (Fin theta).
        assert (L1 : length (vsub ub (fv x)) = n) by (unfold vsub; rewrite map2_len'; rewrite ?fv_length; congruence).
        rewrite (nth_map2 _ NaN NaN) by (unfold vscale; rewrite map_length, ?fv_length; congruence).
        unfold vscale. rewrite (nth_indep _ NaN (nmul (Fin theta) NaN)) by (rewrite map_length; lia).
        rewrite (map_nth (fun y => nmul (Fin theta) y)). unfold vsub. rewrite (nth_map2 _ NaN NaN) by (rewrite ?fv_length; congruence).
        rewrite !h_nth by lia. reflexivity. }
      assert (Ls : forall i, (i < n)%nat -> nth i lb NaN = NInf \/ exists l', nth i lb NaN = Fin l' /\ l' <= nth i x 0).
      { intros i Hi. destruct (pb_box i Hi) as [K _]. destruct (nth i lb NaN) as [l'| | |]; cbn in K; try discriminate; auto. right. exists l'. split; auto. now apply Rleb_true. }
      assert (Us : forall i, (i < n)%nat -> nth i ub NaN = PInf \/ exists l', nth i ub NaN = Fin l' /\ nth i x 0 <= l').
      { intros i Hi. destruct (pb_box i Hi) as [_ K]. destruct (nth i ub NaN) as [l'| | |]; cbn in K; try discriminate; auto. right. exists l'. split; auto. now apply Rleb_true. }
      unfold feasible, allowed. split; intros (Lc & Hn & Hb); (split; [exact Lc|]; split; [exact Hn|]); intros i Hi; specialize (Hb i Hi).
      + rewrite Nlo, Nhi in Hb by auto. destruct Hb as [K1 K2]. unfold short_of. rewrite nth_step.
        split; [apply (constraint_lower _ _ _ _ (D_pos i Hi) (Ls i Hi)); exact K1|apply (constraint_upper _ _ _ _ (D_pos i Hi) (Us i Hi)); exact K2].
      + rewrite Nlo, Nhi by auto. destruct Hb as [K1 K2]. rewrite nth_step in K1, K2.
        split; [apply (constraint_lower _ _ _ _ (D_pos i Hi) (Ls i Hi)); exact K1|apply (constraint_upper _ _ _ _ (D_pos i Hi) (Us i Hi)); exact K2].
    - intros c -> Hal. rewrite rA_sg, fv_length, (rsg_length n x g H D dv delta theta lb ub P), Hsub, h_lincomb in Ess. change (rlincomb n c V) with (sstep c) in Ess. subst ss.
      change (a_scaling A) with (fv D) in Es. rewrite h_vmul in Es. change (rmul D (sstep c)) with (step_of c) in Es. subst s. rewrite Hsub in Hst.
      destruct (cut_fields _ _ _ _ _ _ _ (proj1 Hal) Hst) as (a & Ea & Ha & E1 & E2 & E3 & Hb & H1). specialize (H1 Hal). subst a.
      assert (E : rscale 1 c = c) by (apply rvec_ext; [apply rscale_length|intros i; rewrite nth_rscale; ring]). rewrite E in *.
      split; [exact E3|]. split; [exact E2|]. split; [exact Ea|].
      rewrite Hq, E2, (sb_shess _ _ _ _ _ Hst), (sb_sg _ _ _ _ _ Hst). cbn [new_step st_shess st_sg].
      rewrite (rA_shess n x g H D dv delta theta lb ub P), rA_sg. rewrite (h_quadratic n); [|apply rB_mat|apply sstep_length]. now rewrite predicted_q.
  Qed.

  Theorem C71_refine_best : forall sd p r sp,
    trust_region O (fv x) (fv g) (fm H) (fv D) (Fin delta) (fv dv) (Fin theta) lb ub sd "refine" = Ok sp ->
    exact_refine n O -> (1 < n)%nat -> sd <> "scg"%string ->
    main_step O A sd = Ok p -> st_subspace p = fm V -> (1 < length V)%nat -> st_og_sc p = fv r -> length r = length V ->
    (st_alpha p <? n1)%num = true \/ (forall c, length c = length V -> rnorm (sstep c) <= delta -> predicted r <= predicted c) ->
    exists q, st_qpval sp = Fin q /\ forall c, allowed c -> q <= predicted c.
  Proof using HV P.
    intros sd p r sp Ht Hex Hn Hsd Hm Hsub HlV Hog Lr Hcase.
    destruct (main_fields sd p r Hsd Hm Hsub) as (a & Ea & Ha & E1 & E2 & Eq & Hb); auto.
    { intros ->. simpl in HlV. lia. }
    destruct (C34_best_candidate O _ _ _ _ _ _ _ _ _ _ _ _ Ht) as (l & Hl & Hin & Hmin & _).
    change (tr_args (fv x) (fv g) (fm H) (fv D) (Fin delta) (fv dv) (Fin theta) lb ub) with A in Hl.
    unfold candidates in Hl. rewrite Hm in Hl. cbn [rbind] in Hl.
    assert (Lsg : Nat.ltb 1 (length (a_sg A)) = true).
    { apply Nat.ltb_lt. rewrite rA_sg, fv_length, (rsg_length n x g H D dv delta theta lb ub P). exact Hn. }
    rewrite Lsg, andb_true_r in Hl. destruct (st_alpha p <? n1)%num eqn:Eal.
    - clear Hcase. apply rbind_ok in Hl as (ex & Hexs & E). injection E as <-.
      unfold extra_steps in Hexs. cbn [String.eqb Ascii.eqb Bool.eqb orb andb] in Hexs. apply rbind_ok in Hexs as (gs & Hgs & Hexs).
      cbn [rbind] in Hexs. rewrite Hsub, fm_length in Hexs.
      assert (HlV' : Nat.ltb 1 (length V) = true) by now apply Nat.ltb_lt. rewrite HlV' in Hexs.
      apply rbind_ok in Hexs as (re & Hre & Hexs). apply rbind_ok in Hre as (rf & Hrf & Ere). injection Ere as <-.
      apply Ok_inj in Hexs. cbn [app] in Hexs. subst ex.
      destruct (C35_gradient_candidate O n x g H D dv delta theta lb ub P) as (gs' & qg & Hgs' & Eqg & _). rewrite Hgs in Hgs'. injection Hgs' as <-.
      destruct (C71_handed_problem sd p rf Hsd Hm Hsub Hrf) as (Q & q & lo & hi & sc & Hor & HQ & Hfe & _ & Hans).
      destruct (Hex Q q (st_sc p) V delta lo hi sc HV Hor) as (c & -> & Hc & Hopt).
      destruct (Hans c eq_refl (proj1 (Hfe c) Hc)) as (_ & _ & _ & Eqr).
      assert (Hall : forall z, In z [p; gs; rf] -> exists q', st_qpval z = Fin q').
      { intros z [<-|[<-|[<-|[]]]]; eauto. }
      specialize (Hmin ltac:(intros z Hz; destruct (Hall z Hz) as (q' & ->); reflexivity)).
      destruct (Hall sp Hin) as (q' & Eq'). exists q'. split; [exact Eq'|]. intros c' Hc'.
      specialize (Hmin rf ltac:(simpl; auto)). rewrite Eq', Eqr in Hmin. cbn [nleb ERNum er_leb] in Hmin. apply Rleb_true in Hmin.
      rewrite <- (HQ c') by apply Hc'. rewrite <- (HQ c) in Hmin by apply Hc. specialize (Hopt c' (proj2 (Hfe c') Hc')). lra.
    - destruct Hcase as [K|Hopt]; [discriminate|]. apply Ok_inj in Hl. subst l. destruct Hin as [<-|[]].
      exists (predicted (rscale a r)). split; [exact Eq|]. intros c (Lc & Hc & _).
      rewrite Ea in Eal. cbn [nltb ERNum er_ltb n1 nofZ] in Eal. destruct (Rltb_spec a 1) as [K|K]; [discriminate|].
      assert (a = 1) by lra. subst a. replace (rscale 1 r) with r; [now apply Hopt|].
      apply rvec_ext; [now rewrite rscale_length|intros i; rewrite nth_rscale; ring].
  Qed.

  (** the starting guess handed over (the main step cut at the bounds) keeps its distance to the bounds itself, and the value it predicts is its model value *)
  Theorem C71_guess : forall sd p r,
    sd <> "scg"%string -> main_step O A sd = Ok p -> st_subspace p = fm V -> V <> [] -> st_og_sc p = fv r -> length r = length V ->
    exists a, st_alpha p = Fin a /\ 0 <= a <= 1
      /\ st_sc p = fv (rscale a r) /\ st_s p = fv (step_of (rscale a r)) /\ st_qpval p = Fin (predicted (rscale a r))
      /\ (forall i, (i < n)%nat -> short_of theta (nth i lb NaN) (nth i x 0) (nth i ub NaN) (nth i (step_of (rscale a r)) 0)).
  Proof using HV P. exact main_fields. Qed.
End Refine.
