(** C70: starting vectors given as integer arrays.  numpy keeps the integer type of x0 in
    self.x = np.array(x0).copy(), and assigning floats into an integer array truncates them toward zero, so
    make_non_degenerate moves such a start by a whole unit or not at all. *)
From Coq Require Import String ZArith List Bool Reals Lra Lia Psatz.
From Flocq Require Import Core BinarySingleNaN.
From Verif Require Import Num Constants Subproblem HessApprox Steps TrustRegion Minimize
  ER NumFacts MonadFacts MinFacts Spec Run RunInv RunFrame RVec F64 Witness Prop_Box Prop_Nudge WitnessER.
Import ListNotations.
Local Open Scope list_scope.

Section IntStart.
  Context {T : Type} {N : Num T}.
  (** the C cast from double to int64, toward zero (values outside the range of int64 are not modelled) *)
  Variable tr : T -> Z.
  Local Open Scope num_scope.
  Local Notation "x <- a ;; b" := (bind a (fun x => b)) (at level 61, a at next level, right associativity).
  Local Notation "a ;;; b" := (bind a (fun _ => b)) (at level 61, right associativity).

  (** an integer array seen as numbers (int64 to double) *)
  Definition ints (x : list Z) : list T := map nofZ x.

  Section Cfg.
  Variable E : env T.
  Variable C : cfg T.

  (** minimize.py:713-716 on an integer array, one coordinate: both masks come from the old value, each
      assignment casts the computed float back to an integer *)
  Definition nudge1_int (x : Z) (lb ub : T) : Z :=
    let eps := nondeg_eps in
    let x1 := if (ub - nofZ x) <? eps then tr (nofZ x - eps) else x in
    if (nofZ x - lb) <? eps then tr (nofZ x1 + eps) else x1.

  (** minimize.py:700-716  make_non_degenerate on an integer array *)
  Definition nudge_int (x : list Z) : list Z :=
    if (npmin (vabs (vsub (c_ub C) (ints x))) <? nondeg_eps)
       || (npmin (vabs (vsub (ints x) (c_lb C))) <? nondeg_eps)
    then map3 nudge1_int x (c_lb C) (c_ub C)
    else x.

  (** minimize.py:355-383  as [prepare], for an integer array x0 *)
  Definition prepare_int (ndim : nat) (x0 : list Z) (start_id : option string) (hess0 : hess0_arg T)
      : M T (fout T) :=
    reset E C start_id ;;;
    x <- alloc (ints x0) ;;
    modify (set_o_x x) ;;;
    if Nat.ltb 1 ndim then raise EValue
    else if negb (Nat.eqb (List.length x0) (List.length (c_ub C))
                  && Nat.eqb (List.length x0) (List.length (c_lb C)))
            || Nat.eqb (List.length x0) 0
    then raise EValue
    else
    store x (ints (nudge_int x0)) ;;;
    st <- get ;;
    check_in_bounds C (deref st (o_x st)) ;;;
    pf <- evaluate E C (o_x st) ;;
    init_hess (List.length x0) hess0 pf ;;;
    lift (checkdims (List.length x0) pf) ;;;
    f <- lift (typed_fout (List.length x0) pf (o_x st)) ;;
    modify (fun st => set_o_fval (fo_fval f) (set_o_grad (fo_grad f) st)) ;;;
    track_minimum f ;;;
    check_finite_fo f ;;;
    modify (set_o_conv false) ;;;
    ret f.

  (** minimize.py:313-443  Optimizer.minimize called with an integer array; from the first accepted step on,
      self.x is an array of floats (x_new = x + s), so the loop is the same *)
  Definition minimize_int (fuel : nat) (ndim : nat) (x0 : list Z) (start_id : option string)
      (hess0 : hess0_arg T) : M T (T * nat * list T * list (list T)) :=
    f <- prepare_int ndim x0 start_id hess0 ;;
    loop E C fuel f ;;;
    write_history C ;;;
    st <- get ;;
    ret (o_fval st, o_x st, o_grad st, o_hess st).

  (** *** The run is the float run started at the moved point, if that point is left alone *)
  Lemma map3_len {A B D F} (f : A -> B -> D -> F) : forall a b c, List.length a = List.length b -> List.length a = List.length c ->
    List.length (map3 f a b c) = List.length a.
  Proof. induction a as [|x a IH]; intros [|y b] [|z c] H1 H2; try discriminate; simpl in *; auto. Qed.
  Lemma nudge_int_length x : List.length x = List.length (c_lb C) -> List.length x = List.length (c_ub C) ->
    List.length (nudge_int x) = List.length x.
  Proof. intros H1 H2. unfold nudge_int. destruct orb; auto. now apply map3_len. Qed.
  Lemma upd_last {A} (h : list A) a b : upd (h ++ [a]) (List.length h) b = h ++ [b].
  Proof. induction h; simpl; congruence. Qed.
  Lemma nth_last {A} (h : list A) a d : nth (List.length h) (h ++ [a]) d = a.
  Proof. induction h; simpl; auto. Qed.

  Lemma bind_cong {A B} (m : M T A) (f g : A -> M T B) s : (forall a s', f a s' = g a s') -> bind m f s = bind m g s.
  Proof. intros H. unfold bind. destruct (m s) as [[a|e] s']; auto. Qed.
  Lemma bind_same {A B} (m m' : M T A) (f : A -> M T B) s : m s = m' s -> bind m f s = bind m' f s.
  Proof. intros H. unfold bind. now rewrite H. Qed.

  Lemma prepare_int_moved ndim x0 sid h0 st :
    (ndim <= 1)%nat -> List.length x0 = List.length (c_lb C) -> List.length x0 = List.length (c_ub C) ->
    nudge C (ints (nudge_int x0)) = ints (nudge_int x0) ->
    prepare_int ndim x0 sid h0 st = prepare E C ndim (ints (nudge_int x0)) sid h0 st.
  Proof.
    intros Hd L1 L2 Hn. unfold prepare_int, prepare.
    apply bind_cong. intros _ s0.
    assert (Ll : List.length (ints (nudge_int x0)) = List.length x0) by (unfold ints; rewrite map_length; now apply nudge_int_length).
    rewrite Ll.
    destruct (Nat.ltb_spec 1 ndim); [lia|].
    rewrite <- L1, <- L2, Nat.eqb_refl. cbn [andb negb orb].
    destruct (Nat.eqb_spec (List.length x0) 0) as [Z0|Z0].
    { destruct x0; [|discriminate]. destruct (nudge_int []) eqn:En; [reflexivity|discriminate]. }
    set (y := ints (nudge_int x0)) in *.
    match goal with |- bind _ (fun x => bind _ (fun _ => bind (store x _) ?K1)) s0 = bind _ (fun x => bind _ (fun _ => bind _ ?K2)) s0 =>
      pose (k1 := K1); pose (k2 := K2) end.
    match goal with |- ?l = ?r =>
      change l with (k1 tt (set_o_heap (upd (o_heap s0 ++ [ints x0]) (List.length (o_heap s0)) y)
        (set_o_x (List.length (o_heap s0)) (set_o_heap (o_heap s0 ++ [ints x0]) s0))));
      change r with (k2 tt (set_o_heap (upd (o_heap s0 ++ [y]) (List.length (o_heap s0)) (nudge C (nth (List.length (o_heap s0)) (o_heap s0 ++ [y]) [])))
        (set_o_x (List.length (o_heap s0)) (set_o_heap (o_heap s0 ++ [y]) s0)))) end.
    rewrite nth_last, Hn, !upd_last. reflexivity.
  Qed.
  Theorem minimize_int_moved : forall fuel ndim x0 sid h0 st,
    (ndim <= 1)%nat -> List.length x0 = List.length (c_lb C) -> List.length x0 = List.length (c_ub C) ->
    nudge C (ints (nudge_int x0)) = ints (nudge_int x0) ->
    minimize_int fuel ndim x0 sid h0 st = minimize E C fuel ndim (ints (nudge_int x0)) sid h0 st.
  Proof.
    intros fuel ndim x0 sid h0 st Hd L1 L2 Hn. unfold minimize_int, minimize.
    apply bind_same. now apply prepare_int_moved.
  Qed.

  (** *** The first evaluation *)
  Definition keeps {A} (m : M T A) : Prop := forall s r s', m s = (r, s') -> o_evals s' = o_evals s.
  Lemma keeps_bind {A B} (m : M T A) (f : A -> M T B) : keeps m -> (forall a, keeps (f a)) -> keeps (bind m f).
  Proof.
    intros Hm Hf s r s' H. unfold bind in H. destruct (m s) as [[a|e] s1] eqn:Em.
    - rewrite (Hf _ _ _ _ H). eapply Hm; eauto.
    - injection H as _ <-. eapply Hm; eauto.
  Qed.
  Lemma keeps_ret {A} (a : A) : keeps (ret a). Proof. intros s r s' H. injection H as _ <-. reflexivity. Qed.
  Lemma keeps_raise {A} e : keeps (@raise T A e). Proof. intros s r s' H. injection H as _ <-. reflexivity. Qed.
  Lemma keeps_get : keeps (@get T). Proof. intros s r s' H. injection H as _ <-. reflexivity. Qed.
  Lemma keeps_lift {A} (a : res A) : keeps (lift a).
  Proof. intros s r s' H. unfold lift in H. destruct a; injection H as _ <-; reflexivity. Qed.
  Lemma keeps_modify f : (forall s : opt T, o_evals (f s) = o_evals s) -> keeps (modify f).
  Proof. intros Hf s r s' H. injection H as _ <-. apply Hf. Qed.
  Lemma keeps_check_finite f g h : keeps (check_finite f g h : M T unit).
  Proof.
    unfold check_finite. repeat match goal with
      | |- keeps (if ?b then _ else _) => destruct b
      | |- keeps (match ?b with _ => _ end) => destruct b
      | |- keeps (bind _ _) => apply keeps_bind; [|intros ?]
      | |- keeps (modify _) => apply keeps_modify; reflexivity
      | |- keeps (raise _) => apply keeps_raise
      | |- keeps (ret _) => apply keeps_ret
      end.
  Qed.
  Lemma keeps_init_hess n h0 pf : keeps (init_hess n h0 pf : M T unit).
  Proof.
    intros s r s' H. rewrite init_hess_run in H. destruct pr_hess as [[a b]|e]; injection H as _ <-; reflexivity.
  Qed.
  Lemma keeps_track f : keeps (track_minimum f : M T unit).
  Proof.
    unfold track_minimum. apply keeps_modify. intros s. destruct (_ && _); reflexivity.
  Qed.
  Lemma keeps_reset sid : keeps (reset E C sid).
  Proof.
    unfold reset. apply keeps_bind; [intros s r s' H; injection H as _ <-; reflexivity|]. intros t.
    apply keeps_bind; [apply keeps_modify; reflexivity|]. intros _.
    apply keeps_bind; [|intros _; apply keeps_modify; reflexivity].
    destruct sid; [destruct String.eqb|]; apply keeps_modify; reflexivity.
  Qed.
  Lemma loop_extends : forall fuel f s r s', loop E C fuel f s = (r, s') -> exists more, o_evals s' = o_evals s ++ more.
  Proof.
    induction fuel as [|k IH]; intros f s r s' H.
    - injection H as _ <-. exists []. now rewrite app_nil_r.
    - cbn [loop] in H. unfold bind in H. destruct (check_continue E C s) as [[c|e] s1] eqn:Ec.
      + assert (H1 : o_evals s1 = o_evals s).
        { rewrite check_continue_run in Ec. destruct o_conv; [injection Ec as _ <-; reflexivity|].
          destruct (_ <=? _)%Z; [injection Ec as _ <-; reflexivity|]. cbv zeta in Ec.
          destruct out_of_time; [injection Ec as _ <-; reflexivity|]. destruct (_ <? _); injection Ec as _ <-; reflexivity. }
        destruct c; [|injection H as _ <-; exists []; rewrite app_nil_r; congruence].
        destruct (iteration E C f s1) as [[f'|e] s2] eqn:Ei; apply RunFrame.iteration_frame in Ei as [[(new & G & _) _ _] _].
        * destruct (IH _ _ _ _ H) as [more Hm]. exists (new ++ more). rewrite Hm, G, H1. now rewrite app_assoc.
        * injection H as _ <-. exists new. congruence.
      + assert (H1 : o_evals s1 = o_evals s).
        { rewrite check_continue_run in Ec. destruct o_conv; [discriminate|]. destruct (_ <=? _)%Z; [discriminate|].
          cbv zeta in Ec. destruct out_of_time; [discriminate|]. destruct (_ <? _); discriminate. }
        injection H as _ <-. exists []. rewrite app_nil_r; congruence.
  Qed.

  Lemma prepare_int_first ndim x0 sid h0 st r s :
    (ndim <= 1)%nat -> List.length x0 = List.length (c_lb C) -> List.length x0 = List.length (c_ub C) -> x0 <> [] ->
    prepare_int ndim x0 sid h0 st = (r, s) ->
    (in_bounds C (ints (nudge_int x0)) = false /\ r = Err ERuntime /\ o_flag s = EXCEEDED_BOUNDARY /\ o_evals s = o_evals st)
    \/ (in_bounds C (ints (nudge_int x0)) = true
        /\ o_evals s = o_evals st ++ [(ints (nudge_int x0), e_obj E (List.length (o_evals st)) (ints (nudge_int x0)))]).
  Proof.
    intros Hd L1 L2 Hne H. unfold prepare_int in H.
    apply bind_inv in H as [(u & s0 & H1 & H)|(e & H1 & _)].
    2:{ exfalso. unfold reset, bind, now, modify in H1. destruct sid; [destruct String.eqb|]; discriminate. }
    apply keeps_reset in H1.
    destruct (Nat.ltb_spec 1 ndim); [lia|].
    rewrite <- L1, <- L2, Nat.eqb_refl in H. cbn [andb negb orb] in H.
    destruct (Nat.eqb_spec (List.length x0) 0) as [Z0|Z0]; [destruct x0; [congruence|discriminate]|].
    set (y := ints (nudge_int x0)) in *.
    match type of H with bind _ (fun x => bind _ (fun _ => bind (store x _) ?K1)) s0 = _ => pose (k1 := K1) end.
    change (k1 tt (set_o_heap (upd (o_heap s0 ++ [ints x0]) (List.length (o_heap s0)) y)
        (set_o_x (List.length (o_heap s0)) (set_o_heap (o_heap s0 ++ [ints x0]) s0))) = (r, s)) in H.
    rewrite upd_last in H. set (s1 := set_o_heap _ _) in H.
    assert (Hx : deref s1 (o_x s1) = y) by apply nth_last.
    assert (He : o_evals s1 = o_evals st) by exact H1. clearbody s1.
    unfold k1 in H. clear k1. unfold get in H. unfold bind at 1 in H. rewrite Hx in H.
    unfold check_in_bounds in H. destruct (in_bounds C y).
    - right. split; [reflexivity|]. unfold ret in H. unfold bind at 1 in H. unfold evaluate in H. unfold bind at 1 in H. rewrite Hx, He in H.
      destruct fun_evaluate as [pf|e]; [|apply pair_equal_spec in H as [_ <-]; reflexivity].
      match type of H with ?m _ = _ => assert (Hk : keeps m) end; [|rewrite (Hk _ _ _ H); reflexivity].
      apply keeps_bind; [apply keeps_init_hess|]. intros _.
      apply keeps_bind; [apply keeps_lift|]. intros _.
      apply keeps_bind; [apply keeps_lift|]. intros f.
      apply keeps_bind; [apply keeps_modify; reflexivity|]. intros _.
      apply keeps_bind; [apply keeps_track|]. intros _.
      apply keeps_bind; [apply keeps_check_finite|]. intros _.
      apply keeps_bind; [apply keeps_modify; reflexivity|]. intros _. apply keeps_ret.
    - left. split; [reflexivity|]. unfold bind, modify, raise in H. apply pair_equal_spec in H as [<- <-]. auto.
  Qed.
  Lemma minimize_int_first fuel ndim x0 sid h0 st r s :
    (ndim <= 1)%nat -> List.length x0 = List.length (c_lb C) -> List.length x0 = List.length (c_ub C) -> x0 <> [] ->
    minimize_int fuel ndim x0 sid h0 st = (r, s) ->
    (in_bounds C (ints (nudge_int x0)) = false /\ r = Err ERuntime /\ o_flag s = EXCEEDED_BOUNDARY /\ o_evals s = o_evals st)
    \/ (in_bounds C (ints (nudge_int x0)) = true
        /\ exists more, o_evals s = o_evals st ++ (ints (nudge_int x0), e_obj E (List.length (o_evals st)) (ints (nudge_int x0))) :: more).
  Proof.
    intros Hd L1 L2 Hne H. unfold minimize_int in H.
    apply bind_inv in H as [(f & s1 & H1 & H)|(e & H1 & ->)].
    - destruct (prepare_int_first _ _ _ _ _ _ _ Hd L1 L2 Hne H1) as [(_ & A & _)|[A B]]; [discriminate A|].
      right. split; [exact A|].
      assert (Hg : exists more, o_evals s = o_evals s1 ++ more).
      { apply bind_inv in H as [(u & s2 & H2 & H)|(e & H2 & _)]; apply loop_extends in H2 as [m2 Hm]; [|eauto].
        assert (Hw : keeps (write_history C)).
        { unfold write_history. destruct op_history; [|apply keeps_ret]. apply keeps_bind; [apply keeps_get|]. intros s3.
          destruct existsb; [apply keeps_raise|apply keeps_modify; reflexivity]. }
        exists m2. rewrite <- Hm. revert H. apply keeps_bind; [exact Hw|]. intros _. apply keeps_bind; [apply keeps_get|].
        intros s3. apply keeps_ret. }
      destruct Hg as [more Hm]. exists more. rewrite Hm, B. now rewrite <- app_assoc.
    - destruct (prepare_int_first _ _ _ _ _ _ _ Hd L1 L2 Hne H1) as [(A & B & C1 & D)|[A B]].
      + left. injection B as ->. auto.
      + right. split; [exact A|]. exists []. exact B.
  Qed.
  End Cfg.
End IntStart.

(** * Exact arithmetic *)
Local Open Scope R_scope.

(** truncation toward zero *)
Definition er_trunc (e : ER) : Z := match e with Fin r => Ztrunc r | _ => 0%Z end.

(** the bound [u] is less than the margin above [z], the bound [l] less than the margin below *)
Definition near_upper (u : ER) (z : Z) : bool := er_ltb (er_sub u (Fin (IZR z))) (Fin margin).
Definition near_lower (l : ER) (z : Z) : bool := er_ltb (er_sub (Fin (IZR z)) l) (Fin margin).
(** where an integer coordinate goes: one unit toward zero, away from a bound it (almost) sits on, and only if
    that is toward zero; otherwise nowhere *)
Definition toward_zero (z : Z) (l u : ER) : Z :=
  if (0 <? z)%Z && near_upper u z then (z - 1)%Z
  else if (z <? 0)%Z && near_lower l z then (z + 1)%Z
  else z.

Lemma margin_small : 0 < margin < / 2.
Proof. unfold margin. lra. Qed.
Lemma trunc_down z m : 0 < m < / 2 -> (0 < z)%Z -> Ztrunc (IZR z - m) = (z - 1)%Z.
Proof.
  intros Hm Hz. assert (H1 : 1 <= IZR z) by (apply IZR_le; lia).
  rewrite Ztrunc_floor by lra. apply Zfloor_imp. rewrite !minus_IZR, plus_IZR, minus_IZR. lra.
Qed.
Lemma trunc_down_neg z m : 0 < m < / 2 -> (z <= 0)%Z -> Ztrunc (IZR z - m) = z.
Proof.
  intros Hm Hz. assert (H1 : IZR z <= 0) by (apply IZR_le; lia).
  rewrite Ztrunc_ceil by lra. apply Zceil_imp. rewrite !minus_IZR. lra.
Qed.
Lemma trunc_up z m : 0 < m < / 2 -> (0 <= z)%Z -> Ztrunc (IZR z + m) = z.
Proof.
  intros Hm Hz. assert (H1 : 0 <= IZR z) by (apply IZR_le; lia).
  rewrite Ztrunc_floor by lra. apply Zfloor_imp. rewrite !plus_IZR. lra.
Qed.
Lemma trunc_up_neg z m : 0 < m < / 2 -> (z < 0)%Z -> Ztrunc (IZR z + m) = (z + 1)%Z.
Proof.
  intros Hm Hz. assert (H1 : IZR z <= -1) by (apply IZR_le; lia).
  rewrite Ztrunc_ceil by lra. apply Zceil_imp. rewrite !minus_IZR, !plus_IZR. lra.
Qed.

Lemma nudge1_int_spec z l u : nudge1_int er_trunc z l u = toward_zero z l u.
Proof.
  unfold nudge1_int. rewrite eps_is_margin. cbv zeta.
  unfold toward_zero, near_upper, near_lower. cbn [nsub nadd nltb nofZ ERNum].
  pose proof margin_small as Hm. set (m := margin) in *. clearbody m.
  destruct (er_ltb (er_sub u (Fin (IZR z))) (Fin m)); destruct (er_ltb (er_sub (Fin (IZR z)) l) (Fin m));
    destruct (Z.ltb_spec 0 z); destruct (Z.ltb_spec z 0); try lia; cbn [andb];
    unfold er_sub, er_add, er_opp, er_trunc; fold (IZR z - m);
    rewrite ?(trunc_down z m), ?(trunc_down_neg z m), ?(trunc_up z m), ?(trunc_up_neg z m) by (auto; lia);
    try reflexivity; try (apply trunc_up; auto; lia).
Qed.

(** the bounds are left alone exactly when every coordinate is at least the margin away *)
Lemma nth_ints i z d : (i < length z)%nat -> nth i (ints z : list ER) d = Fin (IZR (nth i z 0%Z)).
Proof.
  intros H. unfold ints. rewrite (nth_indep _ d (nofZ 0%Z)) by now rewrite map_length. rewrite map_nth. reflexivity.
Qed.
Lemma ints_fv z : (ints z : list ER) = fv (map IZR z).
Proof. unfold ints, fv. rewrite map_map. reflexivity. Qed.
Lemma nth_map3_int {A B D F} (f : A -> B -> D -> F) : forall a b c i da db dc df, (i < length a)%nat -> length a = length b -> length a = length c ->
  nth i (map3 f a b c) df = f (nth i a da) (nth i b db) (nth i c dc).
Proof.
  induction a as [|x a IH]; intros [|y b] [|z c] i da db dc df Hi; simpl in *; try lia. intros. destruct i; auto. apply IH; lia.
Qed.

Theorem nudge_int_spec : forall (C : cfg ER) x0, in_box (c_lb C) (c_ub C) (ints x0) ->
  length (nudge_int er_trunc C x0) = length x0
  /\ forall i, (i < length x0)%nat ->
       nth i (nudge_int er_trunc C x0) 0%Z = toward_zero (nth i x0 0%Z) (nth i (c_lb C) NaN) (nth i (c_ub C) NaN).
Proof.
  intros C x0 Hb. pose proof Hb as (L1 & L2 & _). unfold ints in L1, L2. rewrite map_length in L1, L2.
  split; [now apply nudge_int_length|]. intros i Hi. unfold nudge_int.
  destruct orb eqn:Eg.
  - rewrite (nth_map3_int _ _ _ _ _ 0%Z NaN NaN) by auto. apply nudge1_int_spec.
  - apply orb_false_iff in Eg as [G1 G2].
    rewrite ints_fv in Hb, G1, G2.
    destruct (guard_off C (map IZR x0) Hb G1 G2 i) as [A B]; [now rewrite map_length|].
    rewrite map_nth in A, B.
    unfold toward_zero, near_upper, near_lower.
    assert (K : forall a b, er_leb a b = true -> er_ltb b a = false).
    { intros [a| | |] [b| | |]; cbn; auto; try discriminate. intros Hab. apply Rleb_true in Hab. destruct (Rltb_spec b a); auto; lra. }
    now rewrite (K _ _ A), (K _ _ B), !andb_false_r.
Qed.

(** ** C70 *)

(** A run started from an integer array inside the box first evaluates the objective where the rule
    [toward_zero] puts every coordinate; if that point is outside the box the run raises RuntimeError
    (EXCEEDED_BOUNDARY) without evaluating anything, although the start was inside. *)
Theorem C70_first_evaluated_point : forall (E : env ER) (C : cfg ER) fuel ndim x0 sid h0 st r s,
  (ndim <= 1)%nat -> x0 <> [] -> in_box (c_lb C) (c_ub C) (ints x0) ->
  minimize_int er_trunc E C fuel ndim x0 sid h0 st = (r, s) ->
  exists y, length y = length x0
    /\ (forall i, (i < length x0)%nat ->
          nth i y 0%Z = toward_zero (nth i x0 0%Z) (nth i (c_lb C) NaN) (nth i (c_ub C) NaN))
    /\ ((in_box (c_lb C) (c_ub C) (ints y)
          /\ exists more, o_evals s = o_evals st ++ (ints y, e_obj E (length (o_evals st)) (ints y)) :: more)
        \/ (~ in_box (c_lb C) (c_ub C) (ints y)
            /\ r = Err ERuntime /\ o_flag s = EXCEEDED_BOUNDARY /\ o_evals s = o_evals st)).
Proof.
  intros E C fuel ndim x0 sid h0 st r s Hd Hne Hb H.
  pose proof Hb as (L1 & L2 & _). unfold ints in L1, L2. rewrite map_length in L1, L2.
  destruct (nudge_int_spec C x0 Hb) as [Ly Hy].
  exists (nudge_int er_trunc C x0). split; [exact Ly|]. split; [exact Hy|].
  destruct (minimize_int_first er_trunc E C fuel ndim x0 sid h0 st r s Hd L1 L2 Hne H) as [(A & B)|(A & B)].
  - right. split; [|exact B]. intros K. apply Prop_Run.box_in_bounds in K; [congruence|].
    rewrite ints_fv. unfold vfinite, fv. rewrite map_map. apply forallb_forall. intros e He.
    apply in_map_iff in He as (z & <- & _). reflexivity.
  - left. split; [|exact B]. apply Prop_Run.in_bounds_box; auto; unfold ints; rewrite map_length; congruence.
Qed.

(** Every coordinate at least the margin away from its bounds: the integer array and the float array give the same
    run (same result, same final state, same evaluations) *)
Theorem C70_away_from_bounds : forall (E : env ER) (C : cfg ER) fuel ndim x0 sid h0 st,
  (ndim <= 1)%nat -> x0 <> [] -> in_box (c_lb C) (c_ub C) (ints x0) ->
  (forall i, (i < length x0)%nat ->
     near_upper (nth i (c_ub C) NaN) (nth i x0 0%Z) = false /\ near_lower (nth i (c_lb C) NaN) (nth i x0 0%Z) = false) ->
  minimize_int er_trunc E C fuel ndim x0 sid h0 st = minimize E C fuel ndim (ints x0) sid h0 st.
Proof.
  intros E C fuel ndim x0 sid h0 st Hd Hne Hb Ha.
  pose proof Hb as (L1 & L2 & Hbi). unfold ints in L1, L2. rewrite map_length in L1, L2.
  destruct (nudge_int_spec C x0 Hb) as [Ly Hy].
  assert (Ey : nudge_int er_trunc C x0 = x0).
  { apply nth_ext with (d := 0%Z) (d' := 0%Z); auto. intros i Hi. rewrite Ly in Hi. rewrite Hy by auto.
    destruct (Ha i Hi) as [A B]. unfold toward_zero. now rewrite A, B, !andb_false_r. }
  rewrite <- Ey at 2. apply minimize_int_moved; auto. rewrite Ey.
  rewrite ints_fv in *. destruct (C13_moved_inside C (map IZR x0) Hb) as (y & En & _ & Hm). rewrite En.
  assert (Lm : length y = length (map IZR x0)).
  { apply (f_equal (@length _)) in En. rewrite fv_length in En. rewrite <- En. rewrite nudge_length; rewrite fv_length; auto; rewrite map_length; auto. }
  f_equal. apply nth_ext with (d := 0) (d' := 0); auto. intros i Hi. rewrite Lm in Hi.
  destruct (Hm i Hi) as (_ & K & _). rewrite map_length in Hi. destruct (Ha i Hi) as [A B].
  specialize (Hbi i). rewrite fv_length, map_length in Hbi. specialize (Hbi Hi). rewrite nth_fv in Hbi by (rewrite map_length; auto).
  apply K; clear K; rewrite map_nth in *; unfold near_upper, near_lower in A, B; cbn [nleb ERNum] in Hbi; cbn [nnan ERNum] in Hbi.
  - destruct (nth i (c_ub C) NaN); cbn in *; try (destruct Hbi; discriminate); try reflexivity.
    destruct (Rltb_spec (r + - IZR (nth i x0 0%Z)) margin); [discriminate|]. destruct (Rleb_spec margin (r + - IZR (nth i x0 0%Z))); auto; lra.
  - destruct (nth i (c_lb C) NaN); cbn in *; try (destruct Hbi; discriminate); try reflexivity.
    destruct (Rltb_spec (IZR (nth i x0 0%Z) + - r) margin); [discriminate|]. destruct (Rleb_spec margin (IZR (nth i x0 0%Z) + - r)); auto; lra.
Qed.

(** A box with integer (or infinite) bounds, lower strictly below upper in every coordinate, never loses an integer
    start: the objective is evaluated, at a point of the box *)
Definition integer_or_infinite (e : ER) : Prop := e = PInf \/ e = NInf \/ exists k : Z, e = Fin (IZR k).
Theorem C70_integer_box_keeps_start : forall (E : env ER) (C : cfg ER) fuel ndim x0 sid h0 st r s,
  (ndim <= 1)%nat -> x0 <> [] -> in_box (c_lb C) (c_ub C) (ints x0) ->
  (forall i, (i < length x0)%nat ->
     integer_or_infinite (nth i (c_lb C) NaN) /\ integer_or_infinite (nth i (c_ub C) NaN)
     /\ er_ltb (nth i (c_lb C) NaN) (nth i (c_ub C) NaN) = true) ->
  minimize_int er_trunc E C fuel ndim x0 sid h0 st = (r, s) ->
  exists y r0 more, o_evals s = o_evals st ++ (y, r0) :: more /\ in_box (c_lb C) (c_ub C) y.
Proof.
  intros E C fuel ndim x0 sid h0 st r s Hd Hne Hb Hi H.
  destruct (C70_first_evaluated_point E C fuel ndim x0 sid h0 st r s Hd Hne Hb H) as (y & Ly & Hy & [(A & more & B)|(A & _)]).
  - exists (ints y), (e_obj E (length (o_evals st)) (ints y)), more. auto.
  - exfalso. apply A. destruct Hb as (L1 & L2 & Hb). unfold ints in L1, L2. rewrite map_length in L1, L2.
    split; [unfold ints; rewrite map_length; congruence|]. split; [unfold ints; rewrite map_length; congruence|].
    intros i Hl. unfold ints in Hl. rewrite map_length, Ly in Hl.
    specialize (Hb i). unfold ints in Hb at 1. rewrite map_length in Hb. specialize (Hb Hl).
    specialize (Hi i Hl). rewrite nth_ints in * by (auto; lia). rewrite (Hy i Hl).
    pose proof margin_small as Hm. set (m := margin) in *. cbn [nleb nnan ERNum] in *.
    set (z := nth i x0 0%Z) in *. unfold toward_zero, near_upper, near_lower. fold m. clearbody m z.
    destruct Hi as (Il & Iu & Hlt). destruct Hb as [B1 B2].
    assert (Z1 : forall a b, IZR a <= IZR b -> (a <= b)%Z) by (intros; now apply le_IZR).
    destruct Il as [El|[El|[k El]]], Iu as [Eu|[Eu|[k' Eu]]]; rewrite El, Eu in *; cbn in *; try discriminate;
      destruct (Z.ltb_spec 0 z); destruct (Z.ltb_spec z 0); try lia; cbn [andb]; auto;
      repeat match goal with H : Rleb _ _ = true |- _ => apply Rleb_true in H end;
      repeat match goal with H : Rltb ?a ?b = true |- _ => destruct (Rltb_spec a b); [clear H|discriminate] end;
      repeat match goal with |- context [Rltb ?a ?b] => destruct (Rltb_spec a b) end;
      (split; try reflexivity); cbn;
      repeat match goal with |- context [Rleb ?a ?b] => destruct (Rleb_spec a b); auto end; exfalso;
      repeat match goal with H : IZR _ <= IZR _ |- _ => apply le_IZR in H end;
      repeat match goal with H : IZR _ < IZR _ |- _ => apply lt_IZR in H end; try lia.
    all: rewrite <- ?opp_IZR, <- ?plus_IZR in *.
    all: repeat match goal with H : IZR ?a < ?mm |- _ => assert (a < 1)%Z by (apply lt_IZR; lra); clear H end;
      match goal with n : ~ IZR _ <= IZR _ |- _ => apply n, IZR_le; lia end.
Qed.

(** the hypotheses are met: the box [0, 5], integer starts 5 (moved to 4), 0 (left on the bound) and 3 (away from the bounds) *)
Definition ex70 : cfg ER := mkCfg WitnessER.er_opts [Fin 0] [Fin 5] 3 false.
Example C70_ex :
  (forall z, In z [0; 3; 5]%Z -> in_box (c_lb ex70) (c_ub ex70) (ints [z]))
  /\ toward_zero 5 (Fin 0) (Fin 5) = 4%Z /\ toward_zero 0 (Fin 0) (Fin 5) = 0%Z
  /\ near_upper (Fin 5) 3 = false /\ near_lower (Fin 0) 3 = false
  /\ integer_or_infinite (Fin 0) /\ integer_or_infinite (Fin 5) /\ er_ltb (Fin 0) (Fin 5) = true.
Proof.
  pose proof margin_small as Hm.
  split; [|split; [|split; [|split; [|split; [|split; [|split]]]]]].
  - intros z Hz. split; [reflexivity|]. split; [reflexivity|]. intros [|i] Hi; [|cbn in Hi; lia].
    cbn in Hz. cbn. destruct Hz as [<-|[<-|[<-|[]]]]; WitnessER.rdec; auto.
  - unfold toward_zero, near_upper. cbn. WitnessER.rdec. reflexivity.
  - unfold toward_zero, near_upper, near_lower. cbn. reflexivity.
  - unfold near_upper. cbn. WitnessER.rdec. reflexivity.
  - unfold near_lower. cbn. WitnessER.rdec. reflexivity.
  - right. right. now exists 0%Z.
  - right. right. now exists 5%Z.
  - cbn. WitnessER.rdec. reflexivity.
Qed.

(** ** Findings, in doubles: the same numbers given as integers and as floats are treated differently *)
Definition int_run (obj : nat -> list F64 -> retval F64) (p : cfg F64 * opt F64) (fuel : nat) (x0 : list Z) :=
  minimize_int (Btrunc : F64 -> Z) (world obj) (fst p) fuel 1 x0 None H0None (snd p).
Definition first_point (s : opt F64) : list F64 := match o_evals s with (p, _) :: _ => p | [] => [] end.

(** the box [-1, -1/2]: the float start -1 is optimized, the integer start -1 is rejected as out of bounds *)
Definition half_box := built (fzs [-1]%Z) [(- n1 / n2)%num : F64] [] None false.
Theorem C70_same_start_refuted :
  (exists fv x g h s, run_of sumsq half_box 60 (fzs [-1]%Z) = (Ok (fv, x, g, h), s) /\ o_conv s = true)
  /\ (exists e s, int_run sumsq half_box 60 [-1]%Z = (Err e, s)
       /\ match e with ERuntime => true | _ => false end && eqflag (o_flag s) EXCEEDED_BOUNDARY
          && Nat.eqb (List.length (o_evals s)) 0 = true).
Proof.
  split.
  - apply (ok_witness (fun _ _ _ _ s => o_conv s)). vm_compute. reflexivity.
  - apply (err_witness (fun e s => match e with ERuntime => true | _ => false end && eqflag (o_flag s) EXCEEDED_BOUNDARY
          && Nat.eqb (List.length (o_evals s)) 0)). vm_compute. reflexivity.
Qed.

(** the box [0, 5]: the integer start 5 is evaluated at 4, a whole unit away; the integer start 0 exactly on the bound *)
Definition box05 := built (fzs [0]%Z) (fzs [5]%Z) [] None false.
Theorem C70_first_points_refuted :
  first_point (snd (int_run sumsq box05 60 [5]%Z)) = fzs [4]%Z
  /\ first_point (snd (int_run sumsq box05 60 [0]%Z)) = fzs [0]%Z
  /\ veq (first_point (snd (run_of sumsq box05 60 (fzs [0]%Z)))) [nondeg_eps] = true.
Proof.
  split; [apply veq_eq; vm_compute; reflexivity|]. split; [apply veq_eq; vm_compute; reflexivity|]. vm_compute. reflexivity.
Qed.
