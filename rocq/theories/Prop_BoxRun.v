(** C23 (scaling and step-back parameter in a run) and C11 (all evaluations inside the box, exact arithmetic) *)
From Coq Require Import String ZArith List Bool Reals Lra Lia Psatz.
From Flocq Require Import BinarySingleNaN.
From Verif Require Import Num Constants Subproblem HessApprox Steps TrustRegion Minimize
  ER F64 NumFacts MonadFacts MinFacts Spec Run RunInv TRErr RunFrame HessDim Witness Prop_Run RVec Argmin Cand StepFacts Prop_Pred Prop_Box Prop_Nudge.
Import ListNotations.
Local Open Scope R_scope.
Local Open Scope list_scope.

Section Theta.
  Context {T : Type} {N : Num T} {L : NumLaws T}.
  Local Open Scope num_scope.

  Lemma candidates_theta (O : StepOracles T) A sd strat l :
    candidates O A sd strat = Ok l -> Forall (fun c => st_theta c = a_theta A) l.
  Proof.
    apply candidates_all.
    - intros p c _ _ H. apply calculate_fields in H as (sc & ss & s & _ & _ & _ & Hst & _). rewrite (sb_theta _ _ _ _ _ Hst). reflexivity.
    - intros p c _ _ H. apply calculate_fields in H as (sc & ss & s & _ & _ & _ & Hst & _). rewrite (sb_theta _ _ _ _ _ Hst). reflexivity.
    - intros c H. apply calculate_fields in H as (sc & ss & s & _ & _ & _ & Hst & _). rewrite (sb_theta _ _ _ _ _ Hst). reflexivity.
    - intros p c _ H. apply refined_fields in H as (sc & ss & s & _ & _ & Hst & _). rewrite (sb_theta _ _ _ _ _ Hst). reflexivity.
    - intros c H. apply main_step_cases in H as [(_ & r & H1 & H2)|[(_ & H)|(_ & H)]].
      + apply calculate_fields in H2 as (sc & ss & s & _ & _ & _ & Hst & _). rewrite (sb_theta _ _ _ _ _ Hst).
        revert H1. clear. unfold tr_step_2d. cbv zeta. destruct (so_lstsq _ _ _); [|discriminate].
        destruct (so_eig _ _) as [[[e1 e2] v]|]; [|discriminate].
        set (pd := (_ <? _)%num). clearbody pd.
        assert (G : forall sub pd nw, Ok (new_step "2d" A (a_x A) sub (zeros_of A) (zeros_of A) [] [] (Some pd) nw) = Ok r ->
                     st_theta r = a_theta A)
            by (intros ? ? ? H; injection H as <-; reflexivity).
        destruct (a_sg A) as [|s0 [|s1 sg]]; [|apply G|];
            (destruct (_ && _); [apply G|]; match goal with |- (if ?b then _ else _) = _ -> _ => destruct b end; apply G).
      + apply calculate_fields in H as (sc & ss & s & _ & _ & _ & Hst & _). rewrite (sb_theta _ _ _ _ _ Hst). reflexivity.
      + apply cg_fields in H as (sub & sc & ss & ss0 & s & _ & _ & Hst & _). rewrite (sb_theta _ _ _ _ _ Hst). reflexivity.
  Qed.

  Lemma nn_npmax (l : list T) : Forall nn l -> nn (npmax l).
  Proof.
    destruct l as [|x l]; intros H; [unfold npmax, nn; rewrite emb_ltb, emb_nan; reflexivity|].
    inversion H as [|? ? Hx Hl]; subst. simpl. clear H. revert x Hx. induction Hl as [|y l Hy _ IH]; intros x Hx; simpl; auto.
    apply IH. unfold npmax2. destruct (nisnan x); auto. destruct (nisnan y); auto. destruct (x <? y); auto.
  Qed.
  Lemma nn_norm_inf (l : list T) : nn (norm_inf l).
  Proof.
    apply nn_npmax. unfold vabs. apply Forall_forall. intros y Hy. apply in_map_iff in Hy as (x & <- & _). apply nn_abs.
  Qed.
  Lemma one_minus (b : T) : nn b -> nisnan (n1 - b) = false -> (n1 - b) <=? n1 = true.
  Proof.
    unfold nn. rewrite emb_isnan, emb_ltb, emb_leb, emb_sub, emb_0, emb_1. intros Hb Hn.
    rewrite rnd_isnan in Hn. assert (R1 : rnd (T := T) (Fin 1) = Fin 1) by (rewrite <- (emb_1 (T := T)); apply rnd_emb).
    rewrite <- R1 at 2. apply rnd_mono.
    destruct (emb b); cbn in *; try discriminate; auto. er_bool; auto. lra.
  Qed.
  (** the step-back parameter of every proposed step, in any number system *)
  Theorem C23_theta_range : forall (E : env T) (C : cfg T) s sp,
    op_theta_max (c_opts C) <=? n1 = true -> proposes E C s sp ->
    op_theta_max (c_opts C) <=? st_theta sp = true /\ st_theta sp <=? n1 = true.
  Proof.
    intros E C s sp Ht (H & _ & _). apply trust_region_in in H as (l & Hl & Hn).
    apply nth_error_In in Hn. pose proof (candidates_theta _ _ _ _ _ Hl) as HF. rewrite Forall_forall in HF.
    rewrite (HF _ Hn). cbn [tr_args a_theta]. pose proof (le_nan _ _ Ht) as [Hnt _].
    unfold pymax. match goal with |- context [nltb ?a ?b] => set (q := b); destruct (a <? q) eqn:Eq end.
    - split; [now apply lt_le|]. subst q. apply one_minus; [apply nn_norm_inf|]. now apply lt_nan in Eq.
    - split; auto. now apply le_refl.
  Qed.
End Theta.

(** strictly inside the box the scaling matrix is invertible *)
Theorem C23_scaling_invertible : forall x g lb ub i, (i < length x)%nat ->
  length g = length x -> length lb = length x -> length ub = length x ->
  er_ltb (nth i lb NaN) (Fin (nth i x 0)) = true -> er_ltb (Fin (nth i x 0)) (nth i ub NaN) = true ->
  exists d, nth_error (map (fun p : ER * ER => er_sqrt (er_abs (fst p))) (affine_scaling (fv x) (fv g) lb ub)) i = Some (Fin d)
            /\ 0 < d.
Proof.
  intros x g lb ub i Hi Lg Ll Lu Hl Hu.
  assert (G : forall v, v <> 0 -> exists d, er_sqrt (er_abs (Fin v)) = Fin d /\ 0 < d).
  { intros v Hv. exists (sqrt (Rabs v)). cbn. apply Rabs_pos_lt in Hv. destruct (Rltb_spec (Rabs v) 0); [lra|].
    split; auto. now apply sqrt_lt_R0. }
  revert g lb ub i Hi Lg Ll Lu Hl Hu. induction x as [|a x IH]; intros [|b g] [|l lb] [|u ub] i Hi Lg Ll Lu Hl Hu;
    try discriminate; try (simpl in Hi; lia).
  destruct i as [|i]; [|apply (IH g lb ub i); simpl in *; auto; lia].
  cbn [nth] in Hl, Hu. change (fv (a :: x)) with (Fin a :: fv x). change (fv (b :: g)) with (Fin b :: fv g).
  cbn [affine_scaling map nth_error]. unfold affine1. cbn [nltb nisfin nsub ERNum n0 nofZ er_ltb].
  assert (N1 : forall v, v <> 0 -> exists d, Some (er_sqrt (er_abs (Fin v))) = Some (Fin d) /\ 0 < d).
  { intros v Hv. destruct (G v Hv) as (d & Ed & Hd). exists d. rewrite Ed. auto. }
  destruct (Rltb_spec b 0).
  - destruct u as [u| | |]; cbn [er_isfin fst er_sub er_opp er_add].
    + apply N1. cbn in Hu. er_bool. lra.
    + unfold npsign. cbn [nisnan ERNum er_isnan nltb er_ltb n0 nofZ neqb er_eqb]. destruct (Rltb_spec b 0); [|lra].
      destruct (Reqb_spec b 0); [lra|]. cbn. apply N1. lra.
    + cbn in Hu. discriminate.
    + discriminate.
  - destruct l as [l| | |]; cbn [er_isfin fst er_sub er_opp er_add]; try discriminate.
    + apply N1. cbn in Hl. er_bool. lra.
    + unfold npsign. cbn [nisnan ERNum er_isnan nltb er_ltb n0 nofZ neqb er_eqb]. destruct (Rltb_spec b 0); [lra|].
      destruct (Rltb_spec 0 b), (Reqb_spec b 0); try lra; cbn; apply N1; lra.
Qed.

(** *** if the model value is finite, so is the step *)
Definition fin_at (l : list ER) (i : nat) : Prop := exists r, nth i l NaN = Fin r.
Lemma er_add_fin a b r : er_add a b = Fin r -> (exists x, a = Fin x) /\ exists y, b = Fin y.
Proof. destruct a, b; cbn; try discriminate; eauto. Qed.
Lemma er_mul_fin a b r : er_mul a b = Fin r -> (exists x, a = Fin x) /\ exists y, b = Fin y.
Proof. destruct a, b; cbn; unfold er_infmul; try discriminate; eauto; er_bool; discriminate. Qed.
Lemma dot_fin : forall (a b : list ER) r i, dot a b = Fin r -> (i < length a)%nat -> (i < length b)%nat -> fin_at b i.
Proof.
  induction a as [|x a IH]; intros [|y b] r i H Ha Hb; simpl in Ha, Hb; try lia.
  change (dot (x :: a) (y :: b)) with (er_add (er_mul x y) (dot a b)) in H.
  apply er_add_fin in H as [[u H1] [w H2]]. apply er_mul_fin in H1 as [_ [v ->]].
  destruct i; [exists v; reflexivity|]. apply (IH b w i); auto; lia.
Qed.
Lemma quadratic_fin q p x r i : quadratic_form q p x = Fin r -> (i < length p)%nat -> (i < length x)%nat -> fin_at x i.
Proof.
  unfold quadratic_form. intros H Hp Hx. cbn [nadd ERNum] in H. apply er_add_fin in H as [_ [w H]].
  eapply dot_fin; eauto.
Qed.
Lemma fin_vadd a b i : fin_at (vadd a b) i -> fin_at a i /\ fin_at b i.
Proof.
  intros [r H]. rewrite nth_vadd_nan in H. apply er_add_fin in H as [[x H1] [y H2]]. split; [exists x|exists y]; auto.
Qed.
Lemma vadd_fin a b i : fin_at a i -> fin_at b i -> fin_at (vadd a b) i.
Proof. intros [x H1] [y H2]. exists (x + y). rewrite nth_vadd_nan, H1, H2. reflexivity. Qed.
Lemma fin_vscaler a c i : fin_at (vscaler a c) i -> fin_at a i /\ exists z, c = Fin z.
Proof.
  intros [r H]. rewrite nth_vscaler_nan in H. apply er_mul_fin in H as [[x H1] H2]. split; [exists x|]; auto.
Qed.
Lemma vscaler_fin a z i : fin_at a i -> fin_at (vscaler a (Fin z)) i.
Proof. intros [x H]. exists (x * z). rewrite nth_vscaler_nan, H. reflexivity. Qed.
Lemma zeros_fin n i : (i < n)%nat -> fin_at (vzeros n) i.
Proof. intros H. exists 0. unfold vzeros. revert i H; induction n; intros [|i] H; simpl; auto; try lia; apply IHn; lia. Qed.

Section Transfer.
  Variables (O : StepOracles ER) (A : sargs ER) (n : nat).
  Hypothesis Hsg : length (a_sg A) = n.
  Hypothesis HD : forall i, (i < n)%nat -> fin_at (a_scaling A) i.

  Record transfers (c : step ER) : Prop := mkTransfers {
    tf_og : forall i, (i < n)%nat -> fin_at (st_og_ss c) i -> fin_at (st_ss0 c) i -> fin_at (st_og_s c) i;
    tf_s0 : forall i, (i < n)%nat -> fin_at (st_ss0 c) i -> fin_at (st_s0 c) i;
    tf_s : st_s c = vscaler (st_og_s c) (st_alpha c);
    tf_ss : st_ss c = vscaler (st_og_ss c) (st_alpha c);
    tf_len : (n <= length (st_s0 c) -> n <= length (st_ss0 c))%nat;
    tf_oglen : (n <= length (st_og_s c) -> n <= length (st_og_ss c))%nat;
    tf_q : forall r, st_qpval c = Fin r -> (n <= length (st_ss c))%nat -> (n <= length (st_ss0 c))%nat ->
             forall i, (i < n)%nat -> fin_at (st_ss c) i /\ fin_at (st_ss0 c) i
  }.

  Lemma scaled_fin ss i : (i < n)%nat -> fin_at ss i -> fin_at (vmul (a_scaling A) ss) i.
  Proof.
    intros Hi [x Hx]. destruct (HD i Hi) as [d Hd]. exists (d * x). unfold vmul.
    rewrite nth_map2_nan; [|apply er_mul_nan|reflexivity]. now rewrite Hd, Hx.
  Qed.
  Lemma vmul_len_r (D ss : list ER) : (length (vmul D ss) <= length ss)%nat.
  Proof. unfold vmul. rewrite Prop_Pred.map2_length. lia. Qed.

  Lemma calc_transfers typ x' sub s0 ss0 refl tr pd nw c :
    (forall i, (i < n)%nat -> fin_at ss0 i -> fin_at s0 i) -> (n <= length s0 -> n <= length ss0)%nat ->
    calculate O (new_step typ A x' sub s0 ss0 refl tr pd nw) = Ok c -> transfers c.
  Proof.
    intros H0 Hl H. apply calculate_fields in H as (sc & ss & s & _ & _ & Es & Hst & Hq & _).
    pose proof (sb_og_s _ _ _ _ _ Hst) as E1. pose proof (sb_og_ss _ _ _ _ _ Hst) as E2.
    pose proof (sb_s0 _ _ _ _ _ Hst) as E3. pose proof (sb_ss0 _ _ _ _ _ Hst) as E4.
    cbn [new_step st_s0 st_ss0 st_subspace st_scaling st_shess st_sg] in *.
    constructor.
    - intros i Hi F _. rewrite E1, E2 in *. destruct sub; [now subst s|]. subst s. now apply scaled_fin.
    - intros i Hi. rewrite E3, E4. now apply H0.
    - rewrite (sb_s _ _ _ _ _ Hst), E1. reflexivity.
    - rewrite (sb_ss _ _ _ _ _ Hst), E2. reflexivity.
    - rewrite E3, E4. exact Hl.
    - rewrite E1, E2. destruct sub; subst s; auto. pose proof (vmul_len_r (a_scaling A) ss). lia.
    - intros r Er L1 L2 i Hi. rewrite E4 in *. rewrite Hq in Er. apply fin_vadd.
      eapply quadratic_fin; [exact Er|lia|]. unfold vadd. rewrite Prop_Pred.map2_length. lia.
  Qed.
  Lemma zeros_transfers : (forall i, (i < n)%nat -> fin_at (zeros_of A) i -> fin_at (zeros_of A) i) /\
                          (n <= length (zeros_of A) -> n <= length (zeros_of A))%nat.
  Proof. auto. Qed.

  Lemma reflected_transfers p c : transfers p -> calculate O (tr_step_reflected A p) = Ok c -> transfers c.
  Proof.
    intros Hp. unfold tr_step_reflected. apply calc_transfers.
    - intros i Hi F. apply fin_vadd in F as [F1 F2].
      assert (E : forall v, fin_at (vscale (pymin (st_minbr p) n1) v) i -> fin_at v i /\ exists z, pymin (st_minbr p) n1 = Fin z).
      { intros v [r Hr]. rewrite nth_vscale_nan in Hr. apply er_mul_fin in Hr as [[x Hx] Hz]. split; [exists x|]; auto. }
      apply E in F1 as [F1 [z Hz]].
      apply vadd_fin; [|apply (tf_s0 _ Hp); auto].
      destruct (tf_og _ Hp i Hi F1 F2) as [w Hw]. exists (w * z). rewrite nth_vscale_nan, Hw, Hz. reflexivity.
    - unfold vadd, vscale. rewrite !Prop_Pred.map2_length, !map_length. intros H.
      pose proof (tf_len _ Hp). pose proof (tf_oglen _ Hp). lia.
  Qed.
  Lemma truncated_transfers p c : transfers p -> calculate O (tr_step_truncated A p) = Ok c -> transfers c.
  Proof.
    intros Hp. unfold tr_step_truncated. apply calc_transfers.
    - intros i Hi [r F]. unfold trunc_s0 in F |- *. unfold fin_at.
      match type of F with nth i (mapi ?f ?l) NaN = _ => destruct (nth_mapi_nan f l i) as [[E1 E2]|E] end; [rewrite E1 in F; discriminate|].
      rewrite E in F.
      match goal with |- exists r, nth i (mapi ?f ?l) NaN = _ => destruct (nth_mapi_nan f l i) as [[E1 E2]|E'] end.
      { exfalso. destruct (mem i (st_iminbr p)).
        - cbn [nadd ERNum] in F. apply er_add_fin in F as [[x F] _]. destruct (tf_s0 _ Hp i Hi) as [y Hy]; [exists x; auto|]. congruence.
        - destruct (tf_s0 _ Hp i Hi) as [y Hy]; [exists r; auto|]. congruence. }
      rewrite E'. destruct (mem i (st_iminbr p)).
      + cbn [nadd nmul ERNum] in *. apply er_add_fin in F as [[x F1] [y F2]]. apply er_mul_fin in F2 as [[z F2] [w F3]].
        destruct (tf_s0 _ Hp i Hi) as [a Ha]; [exists x; auto|].
        destruct (tf_og _ Hp i Hi) as [b Hb]; [exists w; auto|exists x; auto|].
        change (nnan : ER) with NaN in *. rewrite Ha, Hb, F2. cbn. eauto.
      + apply (tf_s0 _ Hp i Hi). exists r. auto.
    - unfold trunc_s0. rewrite !mapi_length. apply (tf_len _ Hp).
  Qed.
  Lemma refined_transfers p c : refined_step O A p = Ok c -> transfers c.
  Proof.
    intros H. apply refined_fields in H as (sc & ss & s & _ & Es & Hst & Hq & _).
    pose proof (sb_og_s _ _ _ _ _ Hst) as E1. pose proof (sb_og_ss _ _ _ _ _ Hst) as E2.
    pose proof (sb_s0 _ _ _ _ _ Hst) as E3. pose proof (sb_ss0 _ _ _ _ _ Hst) as E4. pose proof (sb_sg _ _ _ _ _ Hst) as E5.
    cbn [new_step st_s0 st_ss0 st_subspace st_scaling st_shess st_sg] in *.
    constructor.
    - intros i Hi F _. rewrite E1, E2 in *. subst s. now apply scaled_fin.
    - intros i Hi. rewrite E3, E4. auto.
    - rewrite (sb_s _ _ _ _ _ Hst), E1. reflexivity.
    - rewrite (sb_ss _ _ _ _ _ Hst), E2. reflexivity.
    - rewrite E3, E4. auto.
    - rewrite E1, E2. subst s. pose proof (vmul_len_r (a_scaling A) ss). lia.
    - intros r Er L1 L2 i Hi. split; [|rewrite E4; apply zeros_fin; rewrite Hsg; auto]. rewrite Hq in Er.
      eapply quadratic_fin; [exact Er|rewrite E5; lia|lia].
  Qed.

  (** the CG solver: arrays keep the length n *)
  Lemma cg_transfers c : (n <= length (a_hess A))%nat -> cg_step O A = Ok c -> transfers c.
  Proof.
    intros Hh H. apply cg_fields in H as (sub & sc & ss & ss0 & s & Hcg & Es & Hst & Hq).
    pose proof (sb_og_s _ _ _ _ _ Hst) as E1. pose proof (sb_og_ss _ _ _ _ _ Hst) as E2.
    pose proof (sb_s0 _ _ _ _ _ Hst) as E3. pose proof (sb_ss0 _ _ _ _ _ Hst) as E4. pose proof (sb_sg _ _ _ _ _ Hst) as E5.
    cbn [new_step st_s0 st_ss0 st_subspace st_scaling st_shess st_sg] in *.
    assert (Lz : length (zeros_of A) = n) by (unfold zeros_of, vzeros; rewrite repeat_length; auto).
    assert (Lo : length (vopp (a_sg A)) = n) by (unfold vopp; rewrite map_length; lia).
    assert (Lh : (n <= length (shess_of (a_scaling A) (a_hess A) (a_gd A)))%nat) by (unfold shess_of; rewrite mapi_length; auto).
    assert (L0 : (n <= length ss0)%nat).
    { revert Hcg. assert (K : forall k z r d, length z = n -> length r = n -> length d = n ->
        cg_loop k (shess_of (a_scaling A) (a_hess A) (a_gd A)) (a_sg A) (a_delta A)
          (nmul (pymin nhalf (nsqrt (norm (a_sg A)))) (norm (a_sg A))) z r d = Ok (sub, sc, ss, ss0) -> (n <= length ss0)%nat).
      { induction k as [|k IH]; intros z r d Hz Hr Hd H; [discriminate|]. cbn [cg_loop] in H. cbv zeta in H.
      match type of H with (if ?b then _ else _) = _ => destruct b end.
      { injection H as _ _ _ <-. lia. }
      match type of H with (if ?b then _ else _) = _ => destruct b end.
      - injection H as _ _ <- <-. unfold vsub. rewrite Prop_Pred.map2_length.
        match goal with |- (n <= Nat.min (length ?a) (length ?b))%nat => assert (length a = n); [|assert (length b = n); [|lia]] end.
        + unfold vadd, vscale. rewrite Prop_Pred.map2_length, map_length. lia.
        + match goal with |- length (vadd (vscale ?q (normalize d)) (vzeros _)) = _ => generalize q; intros q0 end.
          unfold vadd, vscale, vzeros. rewrite Prop_Pred.map2_length, map_length, repeat_length, normalize_len. lia.
      - revert H. apply IH.
        + unfold vadd, vscale. rewrite Prop_Pred.map2_length, map_length. lia.
        + unfold vadd, vscale, matvec. rewrite Prop_Pred.map2_length, !map_length. lia.
        + unfold vadd, vscale, vopp. rewrite Prop_Pred.map2_length, !map_length.
          unfold vadd, vscale, matvec. rewrite Prop_Pred.map2_length, !map_length. lia. }
      apply K; lia. }
    constructor.
    - intros i Hi F F0. rewrite E1, E2, E4 in *. subst s. apply scaled_fin; auto. now apply vadd_fin.
    - intros i Hi _. rewrite E3. apply zeros_fin. now rewrite Hsg.
    - rewrite (sb_s _ _ _ _ _ Hst), E1. reflexivity.
    - rewrite (sb_ss _ _ _ _ _ Hst), E2. reflexivity.
    - rewrite E4. auto.
    - rewrite E1, E2. subst s. pose proof (vmul_len_r (a_scaling A) (vadd ss ss0)).
      unfold vadd in *. rewrite Prop_Pred.map2_length in *. lia.
    - intros r Er L1 L2 i Hi. rewrite Hq in Er. apply fin_vadd.
      eapply quadratic_fin; [exact Er|rewrite E5; lia|]. unfold vadd. rewrite Prop_Pred.map2_length. lia.
  Qed.

  Lemma all_transfers sd strat l : (sd = "scg"%string -> (n <= length (a_hess A))%nat) ->
    candidates O A sd strat = Ok l -> Forall transfers l.
  Proof.
    intros Hh. apply candidates_all.
    - intros p c Hp _. now apply reflected_transfers.
    - intros p c Hp _. now apply truncated_transfers.
    - unfold gradient_step. intros c. now apply calc_transfers.
    - intros p c _. apply refined_transfers.
    - intros c H. apply main_step_cases in H as [(_ & r & H1 & H2)|[(_ & H)|(E & H)]].
      + assert (exists sub pd nw, r = new_step "2d" A (a_x A) sub (zeros_of A) (zeros_of A) [] [] pd nw) as (sub & pd & nw & ->).
        { revert H1. clear. unfold tr_step_2d. cbv zeta. destruct (so_lstsq _ _ _); [|discriminate].
          destruct (so_eig _ _) as [[[e1 e2] v]|]; [|discriminate].
          set (pd := (_ <? _)%num). clearbody pd.
          assert (G : forall sub pd nw, Ok (new_step "2d" A (a_x A) sub (zeros_of A) (zeros_of A) [] [] (Some pd) nw) = Ok r ->
                     exists sub pd nw, r = new_step "2d" A (a_x A) sub (zeros_of A) (zeros_of A) [] [] pd nw)
            by (intros ? ? ? H; injection H as <-; eauto).
          destruct (a_sg A) as [|s0 [|s1 sg]]; [|apply G|];
            (destruct (_ && _); [apply G|]; match goal with |- (if ?b then _ else _) = _ -> _ => destruct b end; apply G). }
        revert H2. now apply calc_transfers.
      + revert H. unfold tr_step_full. now apply calc_transfers.
      + apply cg_transfers; auto.
  Qed.

  (** a step of the right shape with a finite model value is finite *)
  Lemma transfers_fin c r : transfers c -> st_qpval c = Fin r -> length (st_s c) = n -> length (st_s0 c) = n ->
    forall i, (i < n)%nat -> fin_at (st_s c) i /\ fin_at (st_s0 c) i.
  Proof.
    intros Hc Hq L1 L2 i Hi. rewrite (tf_s _ Hc) in *. unfold vscaler in L1. rewrite map_length in L1.
    assert (L3 : (n <= length (st_og_ss c))%nat) by (apply (tf_oglen _ Hc); lia).
    assert (L4 : (n <= length (st_ss0 c))%nat) by (apply (tf_len _ Hc); lia).
    assert (L5 : (n <= length (st_ss c))%nat) by (rewrite (tf_ss _ Hc); unfold vscaler; rewrite map_length; lia).
    destruct (tf_q _ Hc _ Hq L5 L4 i Hi) as [F1 F2]. rewrite (tf_ss _ Hc) in F1.
    apply fin_vscaler in F1 as [F1 [z Hz]]. rewrite Hz. split; [|apply (tf_s0 _ Hc); auto].
    apply vscaler_fin. apply (tf_og _ Hc); auto.
  Qed.
End Transfer.


(** *** every evaluation of a run *)
Section Log.
  Context {T : Type} {N : Num T} {L : NumLaws T}.
  Variables (E : env T) (C : cfg T) (P : list T -> Prop).
  Variables (fuel ndim : nat) (x0 : list T) (sid : option string) (h0 : hess0_arg T) (st : opt T).
  Hypothesis P0 : length x0 = length (c_lb C) -> length x0 = length (c_ub C) -> in_bounds C (nudge C x0) = true -> P (nudge C x0).
  Hypothesis PS : forall f s sp, loop_head E C ndim x0 sid h0 st f s -> proposes E C s sp -> P (trial_point s sp).

  Definition good_log (s : opt T) : Prop := exists l, o_evals s = o_evals st ++ l /\ Forall (fun e => P (fst e)) l.
  Lemma good_ext (s s' : opt T) : o_evals s' = o_evals s -> good_log s -> good_log s'.
  Proof. unfold good_log. intros ->. auto. Qed.
  Lemma good_app (s s' : opt T) p r : o_evals s' = o_evals s ++ [(p, r)] -> P p -> good_log s -> good_log s'.
  Proof.
    intros E1 Hp (l & E2 & Hl). exists (l ++ [(p, r)]). split; [rewrite E1, E2; now rewrite app_assoc|].
    apply Forall_app. split; auto.
  Qed.

  Lemma prepare_log r s : prepare E C ndim x0 sid h0 st = (r, s) -> good_log s.
  Proof using P0.
    intros H. apply prepare_inv in H.
    assert (He : o_evals (pr_s0 E C sid st) = o_evals st) by (unfold pr_s0; destruct (pr_id sid); reflexivity).
    assert (Hd : pr_dims C ndim x0 = true -> in_bounds C (nudge C x0) = true -> P (nudge C x0)).
    { intros Hd Hb. unfold pr_dims in Hd. apply andb_true_iff in Hd as [Hd _]. apply andb_true_iff in Hd as [_ Hd].
      apply andb_true_iff in Hd as [Hd1 Hd2]. apply Nat.eqb_eq in Hd1, Hd2. auto. }
    assert (G0 : good_log st) by (exists []; rewrite app_nil_r; split; auto).
    assert (G4 : forall hess h' f, P (nudge C x0) -> good_log (pr_s4 E C sid x0 hess h' f st)).
    { intros hess h' f HP. eapply (good_app st _ (nudge C x0) (pr_ret E C x0 st)); auto. unfold pr_s4. destruct better; reflexivity. }
    inversion H; clear H; subst.
    - now apply (good_ext st).
    - now apply (good_ext st).
    - now apply (good_app st _ (nudge C x0) (pr_ret E C x0 st)); auto.
    - now apply (good_app st _ (nudge C x0) (pr_ret E C x0 st)); auto.
    - now apply (good_app st _ (nudge C x0) (pr_ret E C x0 st)); auto.
    - apply (good_ext (pr_s4 E C sid x0 hess h' f st)); [reflexivity|]. apply G4; auto.
    - apply (good_ext (pr_s4 E C sid x0 hess h' f st)); [reflexivity|]. apply G4; auto.
  Qed.
  Lemma iteration_log f s k r s' : loop_head E C ndim x0 sid h0 st f s -> good_log s ->
    iteration E C f (set_o_clk k s) = (r, s') -> good_log s'.
  Proof using PS.
    intros HL HG H.
    assert (Ht : forall sp, it_tr E C (set_o_clk k s) = Ok sp -> P (it_trial (set_o_clk k s) sp)).
    { intros sp Hs. apply proposes_it_tr in Hs. apply (PS f s sp HL). exact Hs. }
    destruct r as [f'|e].
    - apply iteration_ok in H as (sp & fn & K). eapply (good_app s); [rewrite (ik_evals _ _ _ _ _ _ _ _ K); reflexivity| |auto].
      apply Ht, (ev_tr _ _ _ _ _ (ik_ev _ _ _ _ _ _ _ _ K)).
    - apply iteration_inv in H.
      inversion H as [Hc Er Es|e' Hs Er Es|sp e' Hs He Er Es|sp pf e' Hs He Hy Er Es
        |sp pf fn Hs He Hy H1 H2 Er Es|sp fn e' st' Hev Ha Hu Er Es|sp fn st' Hev Hu Hh Er Es|];
        clear H; subst.
      + now apply (good_ext s).
      + now apply (good_ext s).
      + eapply (good_app s); [reflexivity|apply Ht; auto|auto].
      + eapply (good_app s); [reflexivity|apply Ht; auto|auto].
      + eapply (good_app s); [reflexivity|apply Ht; auto|auto].
      + assert (G5 : good_log (it_s5 E C (set_o_clk k s) sp fn)).
        { eapply (good_app s); [rewrite s5_evals; reflexivity|apply Ht, (ev_tr _ _ _ _ _ Hev)|auto]. }
        revert Hu G5. generalize (it_s5 E C (set_o_clk k s) sp fn). intros s5 Hu G5.
        rewrite update_run in Hu. destruct new_hess as [[hess h']|e1].
        * cbv zeta in Hu. match type of Hu with context [in_bounds C ?q] => destruct (in_bounds C q) end; [discriminate Hu|].
          apply pair_equal_spec in Hu as [_ Hu]. subst s'. revert G5. now apply good_ext.
        * apply pair_equal_spec in Hu as [_ Hu]. now subst s'.
      + assert (G5 : good_log (it_s5 E C (set_o_clk k s) sp fn)).
        { eapply (good_app s); [rewrite s5_evals; reflexivity|apply Ht, (ev_tr _ _ _ _ _ Hev)|auto]. }
        destruct it_acc; [|now subst].
        revert Hu G5. generalize (it_s5 E C (set_o_clk k s) sp fn). intros s5 Hu G5.
        rewrite update_run in Hu. destruct new_hess as [[hess h']|e1]; [|discriminate Hu].
        cbv zeta in Hu. match type of Hu with context [in_bounds C ?q] => destruct (in_bounds C q) end; [|discriminate Hu].
        apply pair_equal_spec in Hu as [_ Hu]. subst s'. revert G5. now apply good_ext.
  Qed.
  Lemma head_log f s : loop_head E C ndim x0 sid h0 st f s -> good_log s.
  Proof using P0 PS L.
    induction 1 as [f s H|f s s1 f' s' HL IH Hc Hi].
    - eapply prepare_log; eauto.
    - apply check_continue_true in Hc as (-> & _). eapply iteration_log; eauto.
  Qed.
  (** every point at which a run calls the objective has the property *)
  Lemma run_log r st' : minimize E C fuel ndim x0 sid h0 st = (r, st') -> good_log st'.
  Proof using P0 PS L.
    destruct r as [[[[v x] g] h]|e]; intros H.
    - apply minimize_ok_inv in H as (f & s & s1 & HL & Hc & Hw & _). apply head_log in HL.
      apply check_continue_false in Hc as (fl & k & ->).
      assert (Ew : o_evals st' = o_evals s)
        by (apply write_history_inv in Hw as [(_ & _ & ->)|[(file & _ & _ & _ & ->)|(file & _ & _ & -> & _)]]; reflexivity).
      now apply (good_ext s).
    - apply minimize_err_inv in H as [H|[[He [f HL]]|[(f & s & s1 & HL & Hc & Hi)|(f & s & s1 & HL & Hc & Hw)]]].
      + eapply prepare_log; eauto.
      + eapply head_log; eauto.
      + apply check_continue_true in Hc as (-> & _). eapply iteration_log; eauto. eapply head_log; eauto.
      + apply head_log in HL. apply check_continue_false in Hc as (fl & k & ->).
        assert (Ew : o_evals st' = o_evals s)
          by (apply write_history_inv in Hw as [(_ & _ & ->)|[(file & _ & _ & _ & ->)|(file & _ & _ & -> & _)]]; reflexivity).
        now apply (good_ext s).
  Qed.
End Log.
