(** C11: in exact arithmetic every point at which the objective is called lies in the box *)
From Coq Require Import String ZArith List Bool Reals Lra Lia Psatz.
From Flocq Require Import BinarySingleNaN.
From Verif Require Import Num Constants Subproblem HessApprox Steps TrustRegion Minimize
  ER F64 NumFacts MonadFacts MinFacts Spec Run RunInv TRErr RunFrame HessDim Witness Prop_Run RVec Argmin Cand StepFacts
  Prop_Pred Prop_Box Prop_Nudge Prop_BoxRun.
Import ListNotations.
Local Open Scope R_scope.
Local Open Scope list_scope.

(** a vector each of whose coordinates is NaN or within the bounds *)
Definition nan_or_in_box (lb ub p : list ER) : Prop :=
  length p = length lb /\ length p = length ub /\
  forall i, (i < length p)%nat ->
    nth i p NaN = NaN \/ (er_leb (nth i lb NaN) (nth i p NaN) = true /\ er_leb (nth i p NaN) (nth i ub NaN) = true).

Lemma in_bounds_fin (C : cfg ER) p : length p = length (c_lb C) -> length p = length (c_ub C) ->
  in_bounds C p = true -> exists x, p = fv x /\ in_box (c_lb C) (c_ub C) (fv x).
Proof.
  intros L1 L2 H. pose proof (in_bounds_box C p L1 L2 H) as B.
  destruct (fv_of p) as [x ->]; [|eauto].
  unfold in_bounds in H. apply andb_true_iff in H as [Hu Hl]. rewrite forallb_forall in Hu, Hl.
  intros i Hi. destruct B as (_ & _ & B). specialize (B i Hi). change (nnan : ER) with NaN in B. cbn [nleb ERNum] in B.
  assert (In1 : In (er_mul (er_opp (Fin 1)) (er_sub (nth i (c_ub C) NaN) (nth i p NaN)))
                 (map (fun a : ER => nmul (nopp n1) a) (vsub (c_ub C) p))).
  { change (er_mul (er_opp (Fin 1)) (er_sub (nth i (c_ub C) NaN) (nth i p NaN)))
      with ((fun a : ER => nmul (nopp n1) a) (er_sub (nth i (c_ub C) NaN) (nth i p NaN))). apply in_map.
    replace (er_sub (nth i (c_ub C) NaN) (nth i p NaN)) with (nth i (vsub (c_ub C) p) NaN).
    - apply nth_In. unfold vsub. rewrite Prop_Pred.map2_length. lia.
    - unfold vsub. rewrite nth_map2_nan; [reflexivity|intros []; reflexivity|intros []; reflexivity]. }
  assert (In2 : In (er_mul (Fin 1) (er_sub (nth i (c_lb C) NaN) (nth i p NaN)))
                 (map (fun a : ER => nmul n1 a) (vsub (c_lb C) p))).
  { change (er_mul (Fin 1) (er_sub (nth i (c_lb C) NaN) (nth i p NaN)))
      with ((fun a : ER => nmul n1 a) (er_sub (nth i (c_lb C) NaN) (nth i p NaN))). apply in_map.
    replace (er_sub (nth i (c_lb C) NaN) (nth i p NaN)) with (nth i (vsub (c_lb C) p) NaN).
    - apply nth_In. unfold vsub. rewrite Prop_Pred.map2_length. lia.
    - unfold vsub. rewrite nth_map2_nan; [reflexivity|intros []; reflexivity|intros []; reflexivity]. }
  specialize (Hu _ In1). specialize (Hl _ In2). cbn [nleb ERNum n0 nofZ] in Hu, Hl.
  destruct (nth i p NaN) as [r| | |]; [eauto| | |]; exfalso.
  - destruct (nth i (c_ub C) NaN); cbn in *; destruct B; try discriminate.
  - destruct (nth i (c_lb C) NaN); cbn in *; destruct B; try discriminate.
  - destruct (nth i (c_ub C) NaN); cbn in *; destruct B; try discriminate.
Qed.

Section C11.
  Variables (E : env ER) (C : cfg ER) (ndim : nat) (x0 : list ER) (sid : option string) (h0 : hess0_arg ER) (st : opt ER).
  Variable tm : R.
  Hypothesis Htm : op_theta_max (c_opts C) = Fin tm.
  Hypothesis Htm01 : 0 <= tm <= 1.

  Lemma head_point f s : loop_head E C ndim x0 sid h0 st f s ->
    exists x, deref s (o_x s) = fv x /\ in_box (c_lb C) (c_ub C) (fv x).
  Proof using.
    intros HL. pose proof (loop_head_Inv E C _ _ _ _ _ _ _ HL) as I.
    destruct (iv_cur _ _ _ _ _ _ _ I) as (p & r & _ & _ & _ & Hb & Lp & Hp).
    destruct (iv_dims _ _ _ _ _ _ _ I) as [D1 D2].
    destruct (in_bounds_fin C p) as (x & -> & Hx); try congruence.
    destruct Hp as [->| ->]; [eauto|].
    destruct (C13_moved_inside C x Hx) as (y & -> & Hy & _). eauto.
  Qed.

  Lemma head_theta f s : loop_head E C ndim x0 sid h0 st f s -> forall sp, proposes E C s sp ->
    exists t, pymax (op_theta_max (c_opts C)) (nsub n1 (norm_inf (vmul (map fst (affine_scaling (deref s (o_x s)) (o_grad s) (c_lb C) (c_ub C))) (o_grad s)))) = Fin t
      /\ 0 <= t <= 1.
  Proof using Htm Htm01.
    intros HL sp Hp.
    destruct (C23_theta_range E C s sp) as [H1 H2]; auto.
    { rewrite Htm. cbn. destruct (Rleb_spec tm 1); auto; lra. }
    destruct Hp as (Hp & _). apply trust_region_in in Hp as (l & Hl & Hn).
    apply nth_error_In in Hn. pose proof (candidates_theta _ _ _ _ _ Hl) as HF. rewrite Forall_forall in HF.
    rewrite (HF _ Hn) in H1, H2. cbn [tr_args a_theta] in H1, H2. rewrite Htm in *.
    destruct (pymax _ _) as [t| | |]; cbn in H1, H2; try discriminate. exists t. split; auto. er_bool. lra.
  Qed.

  Lemma affine_fin : forall x g lb ub, length g = length x -> length lb = length x -> length ub = length x ->
    exists v, map (fun p : ER * ER => er_sqrt (er_abs (fst p))) (affine_scaling (fv x) (fv g) lb ub) = fv v /\ length v = length x.
  Proof using.
    induction x as [|a x IH]; intros [|b g] [|l lb] [|u ub]; cbn; try lia; intros; [exists []; auto|].
    destruct (IH g lb ub) as (v & Ev & Lv); try lia.
    assert (K : exists r, er_sqrt (er_abs (fst (affine1 (Fin a) (Fin b) l u))) = Fin r).
    { assert (S : forall v, exists r, er_sqrt (er_abs (Fin v)) = Fin r).
      { intros w. cbn. pose proof (Rabs_pos w). destruct (Rltb_spec (Rabs w) 0); [lra|eauto]. }
      unfold affine1. cbn [nltb nisfin nsub ERNum n0 nofZ er_ltb].
      match goal with |- context [er_isfin ?q] => destruct q eqn:Eq end; cbn [er_isfin fst er_sub er_opp er_add]; try apply S;
      unfold npsign; cbn [nisnan ERNum er_isnan nltb er_ltb n0 nofZ neqb er_eqb];
      destruct (Rltb b 0), (Rltb 0 b), (Reqb b 0); cbn [nofbool n1 n0 nofZ nopp ERNum er_opp nadd er_add]; apply S. }
    destruct K as [r Er]. exists (r :: v). cbn. split; [|lia].
    cbn in Ev. change (fst (affine1 (Fin a) (Fin b) l u)) with (fst (affine1 (Fin a) (Fin b) l u)) in Er.
    unfold fv in *. rewrite Ev. f_equal. exact Er.
  Qed.

  (** whatever solver, subspace and step-back strategy: the proposed trial point is in the box, coordinate by
      coordinate, unless the coordinate is NaN *)
  Theorem C11_trial_points : forall f s sp,
    loop_head E C ndim x0 sid h0 st f s -> proposes E C s sp ->
    nan_or_in_box (c_lb C) (c_ub C) (trial_point s sp).
  Proof using Htm Htm01.
    intros f s sp HL Hp.
    pose proof (loop_head_Inv E C _ _ _ _ _ _ _ HL) as I.
    destruct (iv_dims _ _ _ _ _ _ _ I) as [D1 D2].
    destruct (head_point _ _ HL) as (x & Ex & Hx).
    destruct (head_dims E C _ _ _ _ _ _ _ HL) as [_ Lg].
    destruct (head_theta _ _ HL sp Hp) as (t & Et & Ht).
    assert (Lx : length x = length x0) by (rewrite <- (fv_length x), <- Ex; apply (iv_len _ _ _ _ _ _ _ I)).
    pose proof Hp as (Htr & L1 & L2).
    assert (Lt : length (trial_point s sp) = length x0).
    { unfold trial_point, vadd. rewrite !Prop_Pred.map2_length, L1, L2, Ex, fv_length. lia. }
    split; [lia|]. split; [lia|]. intros i Hi.
    apply trust_region_in in Htr as (l & Hl & Hn). apply nth_error_In in Hn.
    match type of Hl with candidates ?o ?a _ _ = _ => set (O' := o) in *; set (A := a) in * end.
    assert (LA : length (a_x A) = length (a_sg A)).
    { unfold A. cbn [tr_args a_x a_sg]. unfold vmul.
      assert (La : length (affine_scaling (deref s (o_x s)) (o_grad s) (c_lb C) (c_ub C)) = length x0).
      { rewrite Ex. assert (G : forall a b c d, length b = length a -> length c = length a -> length d = length a ->
             length (affine_scaling (T := ER) a b c d) = length a).
        { induction a as [|? a IH]; intros [|? b] [|? c] [|? d]; simpl; try lia. intros. rewrite IH; lia. }
        rewrite G; rewrite ?fv_length; lia. }
      rewrite Prop_Pred.map2_length, map_length, La, Ex, fv_length. lia. }
    assert (HB : Forall (boxed A t) l).
    { apply (all_boxed O' A t) with (sd := op_subspace_dim (c_opts C)) (strat := op_stepback (c_opts C)); auto.
      - unfold A. cbn [tr_args a_x a_lb a_ub]. intros j. rewrite Ex. destruct Hx as (X1 & X2 & X3).
        destruct (Nat.ltb_spec j (length (fv x))) as [Hj|Hj].
        + right. specialize (X3 j Hj). exact X3.
        + left. now apply nth_overflow. }
    rewrite Forall_forall in HB. pose proof (boxed_trial A t Ht LA sp i (HB _ Hn)) as K.
    unfold trial_point. unfold A in K. cbn [tr_args a_x a_lb a_ub] in K. exact K.
  Qed.

  (** every evaluation of a run, however the run ends *)
  Theorem C11_all_evaluations : forall fuel r st',
    minimize E C fuel ndim x0 sid h0 st = (r, st') ->
    exists log, o_evals st' = o_evals st ++ log /\
      Forall (fun e => nan_or_in_box (c_lb C) (c_ub C) (fst e)) log.
  Proof using Htm Htm01.
    intros fuel r st' H.
    apply (run_log E C (nan_or_in_box (c_lb C) (c_ub C)) fuel ndim x0 sid h0 st) in H; auto.
    - intros L1 L2 Hb. apply in_bounds_box in Hb; [|rewrite nudge_length; auto|rewrite nudge_length; auto].
      destruct Hb as (A1 & A2 & A3). split; auto.
    - intros f s sp HL Hp. eapply C11_trial_points; eauto.
  Qed.

  (** and a step that is about to be accepted has no NaN coordinate *)
  Theorem C11_accepted_in_box : forall f s sp v g,
    loop_head E C ndim x0 sid h0 st f s -> proposes E C s sp -> accepts C s sp v g = true ->
    in_box (c_lb C) (c_ub C) (trial_point s sp) /\ vfinite (trial_point s sp) = true.
  Proof using Htm Htm01.
    intros f s sp v g HL Hp Ha.
    pose proof (C11_trial_points f s sp HL Hp) as (B1 & B2 & B3).
    pose proof (loop_head_Inv E C _ _ _ _ _ _ _ HL) as I.
    destruct (iv_dims _ _ _ _ _ _ _ I) as [D1 D2].
    destruct (head_point _ _ HL) as (x & Ex & Hx).
    destruct (head_dims E C _ _ _ _ _ _ _ HL) as [Lh Lg].
    assert (Lx : length x = length x0) by (rewrite <- (fv_length x), <- Ex; apply (iv_len _ _ _ _ _ _ _ I)).
    pose proof Hp as (Htr & L1 & L2).
    destruct (iv_fin _ _ _ _ _ _ _ I) as [_ Fg].
    destruct (fv_of (o_grad s)) as [gr Eg].
    { intros i Hi. unfold vfinite in Fg. rewrite forallb_forall in Fg. specialize (Fg _ (nth_In _ NaN Hi)).
      destruct (nth i (o_grad s) NaN); try discriminate; eauto. }
    assert (Lgr : length gr = length x0) by (rewrite <- (fv_length gr), <- Eg; auto).
    (* the model value is finite *)
    assert (Hq : exists q, st_qpval sp = Fin q).
    { unfold accepts, predicted_decrease in Ha. apply andb_true_iff in Ha as [Ha H3]. apply andb_true_iff in Ha as [_ H2].
      cbn [nltb n0 nofZ nopp ERNum ndiv] in H2, H3.
      destruct (st_qpval sp) as [q| | |]; [eauto|discriminate| |discriminate].
      exfalso. cbn [er_opp] in H3. match type of H3 with context [er_div ?a PInf] => destruct a end; cbn in H3; try discriminate.
      er_bool. lra. }
    destruct Hq as [q Hq].
    apply trust_region_in in Htr as (l & Hl & Hn). apply nth_error_In in Hn.
    match type of Hl with candidates ?o ?a _ _ = _ => set (O' := o) in *; set (A := a) in * end.
    destruct (affine_fin x gr (c_lb C) (c_ub C)) as (sv & Esv & Lsv); try congruence.
    assert (LA : length (a_sg A) = length x0).
    { unfold A. cbn [tr_args a_sg]. unfold vmul. rewrite Prop_Pred.map2_length, Ex, Eg.
      change (map (fun p : ER * ER => nsqrt (nabs (fst p))) (affine_scaling (fv x) (fv gr) (c_lb C) (c_ub C)))
          with (map (fun p : ER * ER => er_sqrt (er_abs (fst p))) (affine_scaling (fv x) (fv gr) (c_lb C) (c_ub C))).
      rewrite Esv, !fv_length. lia. }
    assert (HT : Forall (transfers (length x0)) l).
    { apply (all_transfers O' A (length x0)) with (sd := op_subspace_dim (c_opts C)) (strat := op_stepback (c_opts C)); auto.
      - unfold A. cbn [tr_args a_scaling]. intros i Hi. rewrite Ex, Eg.
        change (map (fun p : ER * ER => nsqrt (nabs (fst p))) (affine_scaling (fv x) (fv gr) (c_lb C) (c_ub C)))
          with (map (fun p : ER * ER => er_sqrt (er_abs (fst p))) (affine_scaling (fv x) (fv gr) (c_lb C) (c_ub C))).
        rewrite Esv. exists (nth i sv 0). apply nth_fv. lia.
      - intros _. unfold A. cbn [tr_args a_hess]. lia. }
    rewrite Forall_forall in HT. specialize (HT _ Hn).
    assert (Hall : forall i, (i < length (trial_point s sp))%nat -> exists r, nth i (trial_point s sp) NaN = Fin r).
    { intros i Hi. assert (Hi0 : (i < length x0)%nat) by lia.
      destruct (transfers_fin A (length x0) LA sp q HT Hq) with (i := i) as [[a Fa] [b Fb]]; auto.
      - rewrite L1, Ex, fv_length. auto.
      - rewrite L2, Ex, fv_length. auto.
      - unfold trial_point. rewrite !nth_vadd_nan, Fa, Fb, Ex, nth_fv by lia. cbn. eauto. }
    split.
    - split; [auto|]. split; [auto|]. intros i Hi. destruct (B3 i Hi) as [B|B]; [|exact B].
      destruct (Hall i Hi) as [r Hr]. congruence.
    - unfold vfinite. apply forallb_forall. intros y Hy. apply (In_nth _ _ NaN) in Hy as (i & Hi & <-).
      destruct (Hall i Hi) as [r ->]. reflexivity.
  Qed.

  (** so, once the start is inside, a run can never end with the out-of-bounds error *)
  Theorem C11_no_bounds_error : forall fuel st',
    roots_raise (so_sub (e_la E)) (fun e => e <> ERuntime) ->
    in_bounds C (nudge C x0) = true ->
    minimize E C fuel ndim x0 sid h0 st = (Err ERuntime, st') ->
    o_flag st' <> EXCEEDED_BOUNDARY.
  Proof using Htm Htm01.
    intros fuel st' Hr Hb H Hf.
    destruct (C07_runtime_error E C _ _ _ _ _ _ st' Hr H) as [[_ [K|K]]|[K _]]; [congruence| |congruence].
    destruct K as (f & s & sp & v & g & HL & Hp & _ & _ & Ha & Hn).
    destruct (C11_accepted_in_box f s sp v g HL Hp Ha) as [B1 B2].
    apply (box_in_bounds C) in B1; auto. congruence.
  Qed.
End C11.
