(** C13 (moving starting points off the bounds) and C23 (the affine scaling) *)
From Coq Require Import String ZArith List Bool Reals Lra Lia Psatz.
From Flocq Require Import BinarySingleNaN.
From Verif Require Import Num Constants Subproblem HessApprox Steps TrustRegion Minimize
  ER F64 NumFacts MonadFacts MinFacts Spec Run RunInv Witness Prop_Run RVec Argmin Cand StepFacts Prop_Pred Prop_Box.
Import ListNotations.
Local Open Scope R_scope.
Local Open Scope list_scope.

(** the margin: 100 times the spacing of 1 *)
Definition margin : R := 100 * (1 / 2 ^ 52).
Lemma margin_pos : 0 < margin.
Proof. unfold margin. lra. Qed.
Lemma eps_is_margin : (nondeg_eps : ER) = Fin margin.
Proof.
  unfold nondeg_eps, spacing1, nfrac, margin. cbn [nmul ndiv nofZ ERNum er_div er_mul].
  destruct (Reqb_spec (IZR (2 ^ 52)) 0) as [H|H]; [apply eq_IZR in H; discriminate|].
  f_equal. replace (IZR (2 ^ 52)) with (2 ^ 52); [reflexivity|].
  change (2 ^ 52)%Z with 4503599627370496%Z. lra.
Qed.

Definition fin_or (e : ER) : Prop := exists r, e = Fin r.

(** one coordinate *)
Lemma nudge1_spec x l u : er_leb l (Fin x) = true -> er_leb (Fin x) u = true ->
  exists y, nudge1 (Fin x) l u = Fin y /\ er_leb l (Fin y) = true /\ er_leb (Fin y) u = true
    /\ Rabs (y - x) <= margin
    /\ (er_leb (Fin margin) (er_sub u (Fin x)) = true -> er_leb (Fin margin) (er_sub (Fin x) l) = true -> y = x)
    /\ (er_leb (Fin (2 * margin)) (er_sub u l) = true -> er_ltb l (Fin y) = true /\ er_ltb (Fin y) u = true).
Proof.
  intros Hl Hu. unfold nudge1. rewrite eps_is_margin. cbv zeta. pose proof margin_pos as Hm.
  set (m := margin) in *. clearbody m.
  cbn [nsub nadd nltb ERNum].
  destruct l as [l| | |]; try discriminate; destruct u as [u| | |]; try discriminate;
    cbn [er_leb er_sub er_add er_opp er_ltb] in *;
    repeat match goal with H : Rleb _ _ = true |- _ => apply Rleb_true in H end;
    repeat match goal with |- context [Rltb ?a ?b] => destruct (Rltb_spec a b) end;
    cbn [er_add er_opp];
    (eexists; split; [reflexivity|]; cbn [er_leb er_ltb];
     repeat match goal with |- context [Rleb ?a ?b] => destruct (Rleb_spec a b) end;
     repeat match goal with |- context [Rltb ?a ?b] => destruct (Rltb_spec a b) end;
     repeat split; auto; intros; try discriminate; try lra;
     try (unfold Rabs; destruct Rcase_abs; lra)).
Qed.

Lemma nth_fv i r d : (i < length r)%nat -> nth i (fv r) d = Fin (nth i r 0).
Proof.
  intros H. unfold fv. rewrite (nth_indep _ d (Fin 0)) by now rewrite map_length. now rewrite map_nth.
Qed.
Lemma fv_of (l : list ER) : (forall i, (i < length l)%nat -> exists r, nth i l NaN = Fin r) -> exists r, l = fv r.
Proof.
  induction l as [|a l IH]; intros H; [exists []; reflexivity|].
  destruct (H 0%nat) as [r Hr]; [simpl; lia|]. simpl in Hr. subst a.
  destruct IH as [rs ->]; [intros i Hi; apply (H (S i)); simpl; lia|]. exists (r :: rs). reflexivity.
Qed.
Lemma nth_map3_nan (f : ER -> ER -> ER -> ER) : forall a b c i, (i < length a)%nat -> length a = length b -> length a = length c ->
  nth i (map3 f a b c) NaN = f (nth i a NaN) (nth i b NaN) (nth i c NaN).
Proof.
  induction a as [|x a IH]; intros [|y b] [|z c] i Hi; simpl in *; try lia. intros. destruct i; auto. apply IH; lia.
Qed.

(** guard of make_non_degenerate not taken: every coordinate is at least the margin away *)
Lemma guard_off (C : cfg ER) x : in_box (c_lb C) (c_ub C) (fv x) ->
  nltb (npmin (vabs (vsub (c_ub C) (fv x)))) nondeg_eps = false ->
  nltb (npmin (vabs (vsub (fv x) (c_lb C)))) nondeg_eps = false ->
  forall i, (i < length x)%nat ->
    er_leb (Fin margin) (er_sub (nth i (c_ub C) NaN) (Fin (nth i x 0))) = true
    /\ er_leb (Fin margin) (er_sub (Fin (nth i x 0)) (nth i (c_lb C) NaN)) = true.
Proof.
  intros (H1 & H2 & H) G1 G2 i Hi. rewrite fv_length in *. rewrite eps_is_margin in *. cbn [nltb ERNum] in G1, G2.
  assert (K : forall (l : list ER), (i < length l)%nat -> er_ltb (npmin (vabs l)) (Fin margin) = false ->
             (forall j, (j < length l)%nat -> exists v, nth j l NaN = v /\ er_leb (Fin 0) v = true) ->
             er_leb (Fin margin) (nth i l NaN) = true).
  { intros l Hl G Hn.
    assert (Ha : vabs l = l).
    { unfold vabs. apply nth_ext with (d := NaN) (d' := NaN); [apply map_length|]. intros j Hj. rewrite map_length in Hj.
      change (NaN) with (er_abs NaN) at 1. cbn [nabs ERNum]. rewrite map_nth.
      destruct (Hn j Hj) as (v & -> & Hv). destruct v; try discriminate; auto. cbn in Hv. apply Rleb_true in Hv.
      cbn. f_equal. now apply Rabs_pos_eq, Rge_le, Rle_ge. }
    rewrite Ha in G. destruct (npmin_cases l) as [E|[E1 E2]].
    - exfalso. destruct (npmin_spec l) as [_ S].
      + intros ->. simpl in Hl. lia.
      + apply Forall_forall. intros y Hy. apply (In_nth _ _ NaN) in Hy as (j & Hj & <-).
        destruct (Hn j Hj) as (v & -> & Hv). destruct v; auto; discriminate.
      + rewrite E in S. apply (In_nth _ _ NaN) in S as (j & Hj & S).
        destruct (Hn j Hj) as (v & Ev & Hv). rewrite S in Ev. subst v. discriminate.
    - specialize (E2 _ (nth_In l NaN Hl)). eapply er_le_trans; [|exact E2].
      apply er_not_lt_le; auto. apply er_le_nan in E2. apply E2. }
  assert (Hc : forall j, (j < length x)%nat ->
            er_leb (nth j (c_lb C) NaN) (Fin (nth j x 0)) = true /\ er_leb (Fin (nth j x 0)) (nth j (c_ub C) NaN) = true).
  { intros j Hj. specialize (H j Hj). rewrite nth_fv in H by auto. exact H. }
  assert (N1 : forall j, (j < length x)%nat -> nth j (vsub (c_ub C) (fv x)) NaN = er_sub (nth j (c_ub C) NaN) (Fin (nth j x 0))).
  { intros j Hj. unfold vsub. rewrite nth_map2_nan; [|intros []; reflexivity|intros []; reflexivity].
    now rewrite nth_fv. }
  assert (N2 : forall j, (j < length x)%nat -> nth j (vsub (fv x) (c_lb C)) NaN = er_sub (Fin (nth j x 0)) (nth j (c_lb C) NaN)).
  { intros j Hj. unfold vsub. rewrite nth_map2_nan; [|intros []; reflexivity|intros []; reflexivity].
    now rewrite nth_fv. }
  assert (L1 : length (vsub (c_ub C) (fv x)) = length x).
  { unfold vsub. rewrite Prop_Pred.map2_length, fv_length. lia. }
  assert (L2 : length (vsub (fv x) (c_lb C)) = length x).
  { unfold vsub. rewrite Prop_Pred.map2_length, fv_length. lia. }
  rewrite <- N1, <- N2 by auto. split.
  - apply K; [lia|exact G1|]. intros j Hj. rewrite L1 in Hj. eexists. split; [apply N1; auto|].
    destruct (Hc j Hj) as [_ Hu]. destruct (nth j (c_ub C) NaN) as [u| | |]; try discriminate; auto.
    cbn in *. apply Rleb_true in Hu. destruct (Rleb_spec 0 (u + - nth j x 0)); [auto|lra].
  - apply K; [lia|exact G2|]. intros j Hj. rewrite L2 in Hj. eexists. split; [apply N2; auto|].
    destruct (Hc j Hj) as [Hu _]. destruct (nth j (c_lb C) NaN) as [u| | |]; try discriminate; auto.
    cbn in *. apply Rleb_true in Hu. destruct (Rleb_spec 0 (nth j x 0 + - u)); [auto|lra].
Qed.

(** make_non_degenerate applied to a (finite) point of the box *)
Theorem C13_moved_inside : forall (C : cfg ER) x, in_box (c_lb C) (c_ub C) (fv x) ->
  exists y, nudge C (fv x) = fv y /\ in_box (c_lb C) (c_ub C) (fv y)
    /\ forall i, (i < length x)%nat ->
         (* moved by at most the margin *)
         Rabs (nth i y 0 - nth i x 0) <= margin
         (* not at all if both bounds are at least the margin away *)
         /\ (er_leb (Fin margin) (er_sub (nth i (c_ub C) NaN) (Fin (nth i x 0))) = true ->
             er_leb (Fin margin) (er_sub (Fin (nth i x 0)) (nth i (c_lb C) NaN)) = true -> nth i y 0 = nth i x 0)
         (* strictly inside if the box is at least two margins wide *)
         /\ (er_leb (Fin (2 * margin)) (er_sub (nth i (c_ub C) NaN) (nth i (c_lb C) NaN)) = true ->
             er_ltb (nth i (c_lb C) NaN) (Fin (nth i y 0)) = true /\ er_ltb (Fin (nth i y 0)) (nth i (c_ub C) NaN) = true).
Proof.
  intros C x Hb. pose proof Hb as (H1 & H2 & H). rewrite fv_length in *.
  assert (Hc : forall j, (j < length x)%nat ->
            er_leb (nth j (c_lb C) NaN) (Fin (nth j x 0)) = true /\ er_leb (Fin (nth j x 0)) (nth j (c_ub C) NaN) = true).
  { intros j Hj. specialize (H j Hj). rewrite nth_fv in H by auto. exact H. }
  unfold nudge.
  destruct (_ || _) eqn:G.
  - assert (Hn : forall i, (i < length x)%nat -> nth i (map3 nudge1 (fv x) (c_lb C) (c_ub C)) NaN
               = nudge1 (Fin (nth i x 0)) (nth i (c_lb C) NaN) (nth i (c_ub C) NaN)).
    { intros i Hi. rewrite nth_map3_nan by (rewrite ?fv_length; lia). now rewrite nth_fv. }
    assert (Ln : length (map3 nudge1 (fv x) (c_lb C) (c_ub C)) = length x).
    { rewrite map3_length; rewrite fv_length; auto. }
    destruct (fv_of (map3 nudge1 (fv x) (c_lb C) (c_ub C))) as [y Ey].
    { intros i Hi. rewrite Ln in Hi. rewrite Hn by auto. destruct (Hc i Hi) as [A B].
      destruct (nudge1_spec _ _ _ A B) as (y & -> & _). eauto. }
    rewrite Ey in *. rewrite fv_length in Ln. exists y. split; auto.
    assert (Hs : forall i, (i < length x)%nat -> Fin (nth i y 0) = nudge1 (Fin (nth i x 0)) (nth i (c_lb C) NaN) (nth i (c_ub C) NaN)).
    { intros i Hi. rewrite <- Hn by auto. rewrite nth_fv by lia. reflexivity. }
    split.
    + split; [rewrite fv_length; lia|]. split; [rewrite fv_length; lia|]. intros i Hi. rewrite fv_length, Ln in Hi.
      rewrite nth_fv by lia. destruct (Hc i Hi) as [A B].
      destruct (nudge1_spec _ _ _ A B) as (y' & Ey' & A' & B' & _). rewrite <- Hs in Ey' by auto. injection Ey' as ->. auto.
    + intros i Hi. destruct (Hc i Hi) as [A B].
      destruct (nudge1_spec _ _ _ A B) as (y' & Ey' & _ & _ & S). rewrite <- Hs in Ey' by auto. injection Ey' as ->. exact S.
  - apply orb_false_iff in G as [G1 G2]. pose proof (guard_off C x Hb G1 G2) as Hg.
    exists x. split; auto. split; auto. intros i Hi. destruct (Hg i Hi) as [A B].
    split; [rewrite Rminus_diag_eq, Rabs_R0 by auto; left; apply margin_pos|]. split; auto.
    intros _. pose proof margin_pos. destruct (Hc i Hi) as [A' B'].
    destruct (nth i (c_lb C) NaN) as [l| | |], (nth i (c_ub C) NaN) as [u| | |]; cbn in *; try discriminate;
      repeat match goal with H : Rleb _ _ = true |- _ => apply Rleb_true in H end;
      split; auto; repeat match goal with |- context [Rltb ?a ?b] => destruct (Rltb_spec a b) end; auto; lra.
Qed.

(** in exact arithmetic the nudge never leaves the box, even at infinite coordinates *)
Lemma nudge_stays (C : cfg ER) x : in_box (c_lb C) (c_ub C) x -> in_box (c_lb C) (c_ub C) (nudge C x).
Proof.
  intros (H1 & H2 & H). unfold nudge. destruct (_ || _); [|split; auto].
  assert (Ln : length (map3 nudge1 x (c_lb C) (c_ub C)) = length x) by (rewrite map3_length; auto).
  split; [congruence|]. split; [congruence|]. intros i Hi. rewrite Ln in Hi.
  change (@nnan ER _) with NaN in *. rewrite nth_map3_nan by auto. destruct (H i Hi) as [A B].
  cbn [nleb ERNum] in *.
  destruct (nth i x NaN) as [r| | |]; try discriminate.
  - destruct (nudge1_spec _ _ _ A B) as (y & -> & A' & B' & _). auto.
  - destruct (nth i (c_ub C) NaN); try discriminate. unfold nudge1. rewrite eps_is_margin.
    destruct (nth i (c_lb C) NaN); try discriminate; cbn; auto.
  - destruct (nth i (c_lb C) NaN); try discriminate. unfold nudge1. rewrite eps_is_margin.
    destruct (nth i (c_ub C) NaN); try discriminate; cbn; auto.
Qed.
(** C10 in exact arithmetic: every iterate and the returned point itself are in the box *)
Theorem C10_iterates_exactly_in_box : forall (E : env ER) (C : cfg ER) ndim x0 sid h0 st f s,
  loop_head E C ndim x0 sid h0 st f s -> in_box (c_lb C) (c_ub C) (deref s (o_x s)).
Proof.
  intros E C ndim x0 sid h0 st f s Hl.
  destruct (Prop_Run.C10_iterates_in_box E C ndim x0 sid h0 st f s Hl) as (p & Hp & [->| ->] & _); auto.
  now apply nudge_stays.
Qed.
Theorem C10_returned_exactly_in_box : forall (E : env ER) (C : cfg ER) fuel ndim x0 sid h0 st fv x g h st',
  minimize E C fuel ndim x0 sid h0 st = (Ok (fv, x, g, h), st') ->
  in_box (c_lb C) (c_ub C) (deref st' x).
Proof.
  intros E C fuel ndim x0 sid h0 st fv x g h st' H.
  destruct (Prop_Run.C10_returned_in_box E C fuel ndim x0 sid h0 st _ _ _ _ _ H) as (p & Hp & [->| ->]); auto.
  now apply nudge_stays.
Qed.

(** A start outside the box by more than the margin raises RuntimeError before the objective is called *)
Theorem C13_far_outside_rejected : forall (E : env ER) (C : cfg ER) fuel ndim x0 sid h0 st r st' i,
  (ndim <= 1)%nat -> length x0 = length (c_lb C) -> length x0 = length (c_ub C) -> (i < length x0)%nat ->
  (er_ltb (nth i (c_ub C) NaN) (Fin (nth i x0 0 - margin)) = true
   \/ er_ltb (Fin (nth i x0 0 + margin)) (nth i (c_lb C) NaN) = true) ->
  minimize E C fuel ndim (fv x0) sid h0 st = (r, st') ->
  r = Err ERuntime /\ o_flag st' = EXCEEDED_BOUNDARY /\ o_evals st' = o_evals st.
Proof.
  intros E C fuel ndim x0 sid h0 st r st' i Hnd L1 L2 Hi Ho Hr.
  assert (Hb : in_bounds C (nudge C (fv x0)) = false).
  { destruct (in_bounds C (nudge C (fv x0))) eqn:Eb; auto. exfalso.
    apply in_bounds_box in Eb; [|rewrite nudge_length; rewrite fv_length; auto|rewrite nudge_length; rewrite fv_length; auto].
    destruct Eb as (_ & _ & Hbox).
    specialize (Hbox i). rewrite nudge_length in Hbox by (rewrite fv_length; auto). rewrite fv_length in Hbox. specialize (Hbox Hi).
    change (nnan : ER) with NaN in Hbox. destruct Hbox as [Bl Bu]. cbn [nleb ERNum] in Bl, Bu. pose proof margin_pos as Hm.
    assert (Hn : nth i (nudge C (fv x0)) NaN = Fin (nth i x0 0)
                 \/ nth i (nudge C (fv x0)) NaN = nudge1 (Fin (nth i x0 0)) (nth i (c_lb C) NaN) (nth i (c_ub C) NaN)).
    { unfold nudge. destruct (_ || _); [right|left; now apply nth_fv].
      rewrite nth_map3_nan by (rewrite ?fv_length; lia). now rewrite nth_fv. }
    destruct Hn as [Hn|Hn]; rewrite Hn in Bl, Bu; clear Hn.
    - destruct (nth i (c_lb C) NaN) as [l| | |], (nth i (c_ub C) NaN) as [u| | |]; cbn in Bl, Bu, Ho; try discriminate;
        destruct Ho as [Ho|Ho]; try discriminate; er_bool; lra.
    - unfold nudge1 in Bl, Bu. rewrite eps_is_margin in Bl, Bu. cbv zeta in Bl, Bu.
      set (m := margin) in *. clearbody m.
      cbn [nsub nadd nltb ERNum] in Bl, Bu.
      destruct (nth i (c_lb C) NaN) as [l| | |], (nth i (c_ub C) NaN) as [u| | |]; cbn in Ho;
        destruct Ho as [Ho|Ho]; try discriminate; cbn [er_sub er_opp er_add er_ltb] in Bl, Bu; er_bool;
        repeat match type of Bl with context [Rltb ?a ?b] => destruct (Rltb_spec a b) end;
        cbn in Bl, Bu; try discriminate; er_bool; try lra. }
  unfold minimize in Hr.
  assert (Hp : forall r1 s1, prepare E C ndim (fv x0) sid h0 st = (r1, s1) ->
             r1 = Err ERuntime /\ o_flag s1 = EXCEEDED_BOUNDARY /\ o_evals s1 = o_evals st).
  { intros r1 s1 Hp. apply prepare_inv in Hp.
    assert (Hd : pr_dims C ndim (fv x0) = true).
    { unfold pr_dims. rewrite fv_length, <- L1, <- L2, !Nat.eqb_refl.
      destruct (Nat.ltb_spec 1 ndim); [lia|]. destruct (Nat.eqb_spec (length x0) 0); [lia|reflexivity]. }
    inversion Hp; try congruence. subst. split; auto. split; [reflexivity|].
    unfold pr_s1, pr_s0. destruct (pr_id sid); reflexivity. }
  destruct (prepare E C ndim (fv x0) sid h0 st) as [r1 s1] eqn:Ep. destruct (Hp _ _ eq_refl) as (-> & F1 & F2).
  unfold bind in Hr. rewrite Ep in Hr. apply pair_equal_spec in Hr as [<- <-]. auto.
Qed.

(** a concrete case for C13_moved_inside: on the lower bound, in the middle, unbounded *)
Definition ex13 : cfg ER :=
  mkCfg (mkOpts 0 n1 n1 n1 n1 n1 n1 "" "" n1 n1 n1 n1 n1 n1 None) [Fin 0; Fin 0; NInf] [Fin 1; Fin 1; PInf] 0 false.
Example C13_ex : in_box (c_lb ex13) (c_ub ex13) (fv [0; / 2; 7]).
Proof.
  split; [reflexivity|]. split; [reflexivity|]. intros [|[|[|i]]] Hi; cbn in *; try lia; split; er_bool; auto; lra.
Qed.
(** and for C13_far_outside_rejected *)
Example C13_ex_outside : er_ltb (nth 1 (c_ub ex13) NaN) (Fin (nth 1 [0; 2; 7] 0 - margin)) = true.
Proof. cbn. unfold margin. destruct (Rltb_spec 1 (2 - 100 * (1 / 2 ^ 52))); [auto|lra]. Qed.

(** In double precision the move is lost in rounding for bounds from 256 on: the point stays on the bound *)
Definition far_box : cfg F64 :=
  mkCfg (c_opts dflt_cfg) (fzs [256]%Z) (fzs [1000]%Z) 3 false.
Theorem C13_strict_interior_refuted_in_doubles :
  in_box (c_lb far_box) (c_ub far_box) (fzs [256]%Z) /\ nudge far_box (fzs [256]%Z) = c_lb far_box.
Proof.
  assert (H : (nleb (nth 0 (c_lb far_box) nnan) (nth 0 (fzs [256]%Z) nnan)
               && nleb (nth 0 (fzs [256]%Z) nnan) (nth 0 (c_ub far_box) nnan))%bool = true) by (vm_compute; reflexivity).
  apply andb_true_iff in H as [H1 H2].
  split.
  - split; [reflexivity|]. split; [reflexivity|]. intros [|i] Hi; [auto|cbn in Hi; lia].
  - apply veq_eq. vm_compute. reflexivity.
Qed.

(** ** C23: the affine scaling *)
Section C23.
  Context {T : Type} {N : Num T} {L : NumLaws T}.
  Local Open Scope num_scope.

  (** entry i of the scaling vector and of its derivative, in any number system: distance to the bound the
      gradient points to, or the sign of the gradient when that bound is infinite *)
  Theorem C23_entries : forall (x g lb ub : list T) i, (i < length x)%nat ->
    length g = length x -> length lb = length x -> length ub = length x ->
    exists v dv, nth_error (affine_scaling x g lb ub) i = Some (v, dv)
      /\ (nth i g nnan <? n0 = true -> nisfin (nth i ub nnan) = true -> v = nth i x nnan - nth i ub nnan /\ dv = n1)
      /\ (nth i g nnan <? n0 = false -> nisfin (nth i lb nnan) = true -> v = nth i x nnan - nth i lb nnan /\ dv = n1)
      /\ (nth i g nnan <? n0 = true -> nisfin (nth i ub nnan) = false ->
            v = - n1 + n0 /\ dv = n0)
      /\ (n0 <=? nth i g nnan = true -> nisfin (nth i lb nnan) = false ->
            (v = n1 + n0 \/ v = n0 + n1) /\ dv = n0).
  Proof.
    induction x as [|a x IH]; intros g lb ub i Hi Lg Ll Lu; [simpl in Hi; lia|].
    destruct g as [|b g], lb as [|l lb], ub as [|u ub]; try discriminate.
    destruct i as [|i]; [|simpl in *; apply IH; lia].
    cbn [affine_scaling nth_error nth]. unfold affine1.
    destruct (b <? n0) eqn:Eg.
    - destruct (nisfin u) eqn:Eu; eexists _, _; (split; [reflexivity|]); repeat split; intros; try discriminate; auto;
        try match goal with H : n0 <=? b = true |- _ => exfalso; apply le_not_lt in H; congruence end.
      unfold npsign. pose proof (lt_nan _ _ Eg) as [Hn _]. rewrite Hn, Eg.
      replace (b =? n0) with false; [reflexivity|]. symmetry. apply lt_neq. auto.
    - destruct (nisfin l) eqn:El; eexists _, _; (split; [reflexivity|]); repeat split; intros; try discriminate; auto.
      unfold npsign. pose proof (le_nan _ _ H) as [_ Hn]. rewrite Hn, Eg.
      destruct (n0 <? b) eqn:Ep.
      + left. replace (b =? n0) with false; [reflexivity|]. symmetry.
        apply lt_neq in Ep. rewrite emb_eqb in *. destruct (emb b), (emb n0); cbn in *; auto.
        er_bool; auto. congruence.
      + right. replace (b =? n0) with true; [reflexivity|]. symmetry.
        rewrite emb_leb in H. rewrite emb_ltb in Ep, Eg. rewrite emb_eqb, emb_0 in *.
        destruct (emb b); cbn in *; try discriminate. er_bool; auto; lra.
  Qed.
End C23.
