(** C21: using an Optimizer object more than once.
    A second call of minimize on the same object behaves like a call on a new object with the same
    configuration, created in the same outside world (files, clock, objective with its own state). *)
From Coq Require Import ZArith String List Bool Lia.
From Verif Require Import Num Constants Subproblem HessApprox Steps TrustRegion Minimize
  ER NumFacts MonadFacts MinFacts Spec.
Import ListNotations.
Local Open Scope list_scope.
Local Open Scope num_scope.

Section Reuse.
  Context {T : Type} {N : Num T} {L : NumLaws T}.
  Local Notation vec := (list T).
  Local Notation mat := (list (list T)).
  Local Notation opt := (opt T).
  Local Notation M := (M T).

  (** ** Vocabulary of the statement *)

  (** everything outside the optimizer object: arrays alive, history files, clock, identifiers,
      and the calls of the objective so far *)
  Definition same_world (s s' : opt) : Prop :=
    o_heap s = o_heap s' /\ o_files s = o_files s' /\ o_clk s = o_clk s' /\
    o_nid s = o_nid s' /\ o_evals s = o_evals s'.

  (** the configuration of a Hessian approximation: everything but the matrices it stores *)
  Definition scheme_config (h : happ T) : happ T :=
    let bare i := mkIhapp (ih_kind i) hb_empty in
    match h with
    | HIter i => HIter (bare i)
    | HFixed i _ k sw => HFixed (bare i) hb_empty k sw
    | HFraction i _ t sw => HFraction (bare i) hb_empty t sw
    | HFX i _ t => HFX (bare i) hb_empty t
    | HStruct sh => HStruct (mkShapp (sh_kind sh) (sh_phi sh) (sh_enforce sh) [] [] hb_empty)
    end.
  Definition same_scheme (s s' : opt) : Prop :=
    option_map scheme_config (o_happ s) = option_map scheme_config (o_happ s').

  (** all attributes of the object but tr_ratio *)
  Definition same_but_ratio (s s' : opt) : Prop :=
    s' = set_o_tr_ratio (o_tr_ratio s') s.

  (** ** Relational reasoning *)
  Definition outcome {A} (Q : A -> opt -> opt -> Prop) (p p' : res A * opt) : Prop :=
    match p, p' with
    | (Ok a, t), (Ok a', t') => a = a' /\ Q a t t'
    | (Err e, t), (Err e', t') => e = e' /\ same_world t t'
    | _, _ => False
    end.
  Definition rel {A} (R : opt -> opt -> Prop) (m m' : M A) (Q : A -> opt -> opt -> Prop) : Prop :=
    forall s s', R s s' -> outcome Q (m s) (m' s').

  Lemma rel_bind {A B} R (m m' : M A) P (f f' : A -> M B) Q :
    rel R m m' P -> (forall a, rel (P a) (f a) (f' a) Q) -> rel R (bind m f) (bind m' f') Q.
  Proof.
    intros Hm Hf s s' HR. specialize (Hm s s' HR). unfold bind.
    destruct (m s) as [[a|e] t], (m' s') as [[a'|e'] t']; simpl in Hm; try contradiction.
    - destruct Hm as [-> Hm]. apply Hf, Hm.
    - exact Hm.
  Qed.
  Lemma rel_get {B} (R : opt -> opt -> Prop) (f f' : opt -> M B) Q :
    (forall s0 s0', R s0 s0' -> rel (fun s s' => s = s0 /\ s' = s0') (f s0) (f' s0') Q) ->
    rel R (bind get f) (bind get f') Q.
  Proof. intros H s s' HR. unfold bind, get. apply (H s s' HR). auto. Qed.
  Lemma rel_modify (R : opt -> opt -> Prop) f f' (Q : unit -> opt -> opt -> Prop) :
    (forall s s', R s s' -> Q tt (f s) (f' s')) -> rel R (modify f) (modify f') Q.
  Proof. intros H s s' HR. split; auto. Qed.
  Lemma rel_ret {A} (R : opt -> opt -> Prop) (a : A) (Q : A -> opt -> opt -> Prop) :
    (forall s s', R s s' -> Q a s s') -> rel R (ret a) (ret a) Q.
  Proof. intros H s s' HR. split; auto. Qed.
  Lemma rel_raise {A} (R : opt -> opt -> Prop) e (Q : A -> opt -> opt -> Prop) :
    (forall s s', R s s' -> same_world s s') -> rel R (raise e) (raise e) Q.
  Proof. intros H s s' HR. split; auto. Qed.
  Lemma rel_lift {A} (R : opt -> opt -> Prop) (r : res A) (Q : A -> opt -> opt -> Prop) :
    (forall s s', R s s' -> same_world s s') ->
    (forall a s s', r = Ok a -> R s s' -> Q a s s') -> rel R (lift r) (lift r) Q.
  Proof. intros H1 H2 s s' HR. rewrite !lift_run. destruct r; simpl; eauto. Qed.
  Lemma rel_pre {A} (R R' : opt -> opt -> Prop) (m m' : M A) Q :
    (forall s s', R s s' -> R' s s') -> rel R' m m' Q -> rel R m m' Q.
  Proof. intros H H' s s' HR. apply H', H, HR. Qed.

  (** states that differ at most in the exit flag and in tr_ratio *)
  Definition pert (f : exit_flag) (t : T) (s : opt) : opt := set_o_flag f (set_o_tr_ratio t s).
  Definition almost (s s' : opt) : Prop :=
    s' = pert (o_flag s') (o_tr_ratio s') s.
  (** ... and in the flag only if the run has not converged *)
  Definition headrel (s s' : opt) : Prop :=
    almost s s' /\ (o_conv s = true -> o_flag s' = o_flag s) /\
    (0 <= o_iter s)%Z /\ ((0 < o_iter s)%Z -> o_tr_ratio s' = o_tr_ratio s).

  Lemma almost_ex s s' : (exists f t, s' = pert f t s) -> almost s s'.
  Proof. intros (f & t & ->). reflexivity. Qed.
  Lemma almost_world s s' : almost s s' -> same_world s s'.
  Proof. intros ->. repeat split. Qed.

  Section Run.
    Variable E : env T.
    Variable C : cfg T.

    Lemma rel_now (R : opt -> opt -> Prop) (Q : T -> opt -> opt -> Prop) :
      (forall s s', R s s' -> o_clk s = o_clk s' /\
          Q (e_clock E (o_clk s)) (set_o_clk (S (o_clk s)) s) (set_o_clk (S (o_clk s')) s')) ->
      rel R (now E) (now E) Q.
    Proof.
      intros H s s' HR. destruct (H s s' HR) as [H1 H2]. unfold now, outcome. rewrite <- H1 in *. auto.
    Qed.

    (** *** Before the loop *)
    Lemma h_init_config h h' n a :
      scheme_config h = scheme_config h' -> h_init h n a = h_init h' n a.
    Proof.
      assert (HB : forall i i' : ihapp T, mkIhapp (ih_kind i) hb_empty = mkIhapp (ih_kind i') hb_empty ->
        ih_init i n a = ih_init i' n a).
      { intros i i' H. unfold ih_init. injection H as ->. reflexivity. }
      destruct h, h'; simpl; try discriminate; intros H; injection H; intros; subst;
        try (rewrite (HB inner inner0) by congruence; reflexivity);
        try (rewrite (HB i i0) by congruence; reflexivity).
      unfold sh_init. destruct h as [k p e A d b], h0 as [k' p' e' A' d' b']. cbn in *. subst. reflexivity.
    Qed.

    (** what a call assigns before reading it *)
    Definition stage (s s' : opt) : Prop :=
      exists fv g h xm gm ha f t,
        s' = set_o_fval fv (set_o_grad g (set_o_hess h (set_o_xmin xm (set_o_grad_min gm
               (set_o_happ ha (pert f t s))))))
        /\ option_map scheme_config (o_happ s) = option_map scheme_config ha
        /\ o_fval_min s = ninf /\ o_iter s = 0%Z /\ o_conv s = false.
    Definition stage2 (s s' : opt) : Prop :=
      exists fv g xm gm f t,
        s' = set_o_fval fv (set_o_grad g (set_o_xmin xm (set_o_grad_min gm (pert f t s))))
        /\ o_fval_min s = ninf /\ o_iter s = 0%Z /\ o_conv s = false.
    Lemma stage_world s s' : stage s s' -> same_world s s'.
    Proof. intros (fv & g & h & xm & gm & ha & f & t & -> & _). repeat split. Qed.
    Lemma stage2_world s s' : stage2 s s' -> same_world s s'.
    Proof. intros (fv & g & xm & gm & f & t & -> & _). repeat split. Qed.

    (** as [stage], before self.x is assigned *)
    Definition stage0 (s s' : opt) : Prop :=
      exists x fv g h xm gm ha f t,
        s' = set_o_x x (set_o_fval fv (set_o_grad g (set_o_hess h (set_o_xmin xm (set_o_grad_min gm
               (set_o_happ ha (pert f t s)))))))
        /\ option_map scheme_config (o_happ s) = option_map scheme_config ha
        /\ o_fval_min s = ninf /\ o_iter s = 0%Z /\ o_conv s = false.

    Lemma opt_ext (s s' : opt) :
      o_heap s = o_heap s' ->
      o_x s = o_x s' ->
      o_fval s = o_fval s' ->
      o_grad s = o_grad s' ->
      o_hess s = o_hess s' ->
      o_xmin s = o_xmin s' ->
      o_fval_min s = o_fval_min s' ->
      o_grad_min s = o_grad_min s' ->
      o_delta s = o_delta s' ->
      o_delta_iter s = o_delta_iter s' ->
      o_tr_ratio s = o_tr_ratio s' ->
      o_happ s = o_happ s' ->
      o_since s = o_since s' ->
      o_ninter s = o_ninter s' ->
      o_starttime s = o_starttime s' ->
      o_iter s = o_iter s' ->
      o_conv s = o_conv s' ->
      o_flag s = o_flag s' ->
      o_hist s = o_hist s' ->
      o_start_id s = o_start_id s' ->
      o_files s = o_files s' ->
      o_clk s = o_clk s' ->
      o_nid s = o_nid s' ->
      o_evals s = o_evals s' -> s = s'.
    Proof. destruct s, s'. cbn. intros. subst. reflexivity. Qed.

    Lemma stage0_intro (s s' : opt) :
      o_heap s = o_heap s' -> o_fval_min s = o_fval_min s' -> o_delta s = o_delta s' ->
      o_delta_iter s = o_delta_iter s' -> o_since s = o_since s' -> o_ninter s = o_ninter s' ->
      o_starttime s = o_starttime s' -> o_iter s = o_iter s' -> o_conv s = o_conv s' ->
      o_hist s = o_hist s' -> o_start_id s = o_start_id s' -> o_files s = o_files s' ->
      o_clk s = o_clk s' -> o_nid s = o_nid s' -> o_evals s = o_evals s' ->
      s' = set_o_x (o_x s') (set_o_fval (o_fval s') (set_o_grad (o_grad s') (set_o_hess (o_hess s')
             (set_o_xmin (o_xmin s') (set_o_grad_min (o_grad_min s')
               (set_o_happ (o_happ s') (pert (o_flag s') (o_tr_ratio s') s))))))).
    Proof.
      intros. apply opt_ext; try reflexivity; symmetry; assumption.
    Qed.

    Lemma reset_rel sid :
      rel (fun s s' => same_world s s' /\ same_scheme s s') (reset E C sid) (reset E C sid)
        (fun _ => stage0).
    Proof.
      intros s s' [(H1 & H2 & H3 & H4 & H5) Hs]. rewrite !reset_run. split; [reflexivity|].
      set (t := pr_s0 E C sid s). set (t' := pr_s0 E C sid s').
      exists (o_x t'), (o_fval t'), (o_grad t'), (o_hess t'), (o_xmin t'), (o_grad_min t'), (o_happ t'),
        (o_flag t'), (o_tr_ratio t').
      subst t t'. unfold pr_s0.
      destruct (pr_id sid);
      (split; [apply stage0_intro; try reflexivity; try exact H1; try exact H2; try exact H4; try exact H5;
                 try exact (f_equal S H3); try exact (f_equal S H4); try exact (f_equal (e_uuid E) H4);
                 exact (f_equal (e_clock E) H3)
              |split; [exact Hs|repeat split]]).
    Qed.

    Ltac world_of H := apply almost_world, almost_ex; destruct H; eauto.

    Lemma check_in_bounds_rel (R Q : opt -> opt -> Prop) x x' :
      x = x' -> (forall s s', R s s' -> same_world s s' /\ Q s s') ->
      rel R (check_in_bounds C x) (check_in_bounds C x') (fun _ => Q).
    Proof.
      intros <- H s s' HR. destruct (H _ _ HR) as [Hw HQ]. unfold check_in_bounds.
      destruct (in_bounds C x); [split; auto|].
      unfold bind, modify, raise. split; [reflexivity|].
      unfold same_world in *. exact Hw.
    Qed.
    Lemma check_finite_rel (R Q : opt -> opt -> Prop) fv g h :
      (forall s s', R s s' -> same_world s s') ->
      (nisfin fv = true -> forall s s', R s s' -> Q s s') ->
      rel R (check_finite fv g h) (check_finite fv g h) (fun _ => Q).
    Proof.
      intros H HQ s s' HR. specialize (H _ _ HR). unfold check_finite.
      assert (F : outcome (fun _ : unit => Q) (bind (modify (set_o_flag NOT_FINITE)) (fun _ => raise ERuntime) s)
                    (bind (modify (set_o_flag NOT_FINITE)) (fun _ => raise ERuntime) s')).
      { unfold bind, modify, raise. split; [reflexivity|]. unfold same_world in *. exact H. }
      destruct (nisfin fv); [|exact F]. cbn [negb].
      destruct (vfinite g); [|exact F]. cbn [negb].
      destruct h as [h|]; [destruct (mfinite h); [|exact F]|]; (split; auto).
    Qed.
    Ltac oeq := apply opt_ext; reflexivity.

    Lemma prepare_rel ndim x0 sid h0 :
      rel (fun s s' => same_world s s' /\ same_scheme s s')
        (prepare E C ndim x0 sid h0) (prepare E C ndim x0 sid h0) (fun _ => headrel).
    Proof.
      unfold prepare. eapply rel_bind; [apply reset_rel|intros []].
      apply (rel_bind _ _ _ (fun _ => stage0)).
      { intros s s' (x & fv & g & h & xm & gm & ha & f & t & -> & Hs). split; [reflexivity|].
        exists x, fv, g, h, xm, gm, ha, f, t. split; [oeq|]. exact Hs. }
      intros x. apply (rel_bind _ _ _ (fun _ => stage)).
      { apply rel_modify. intros s s' (x' & fv & g & h & xm & gm & ha & f & t & -> & Hs).
        exists fv, g, h, xm, gm, ha, f, t. split; [oeq|]. exact Hs. }
      intros []. destruct (Nat.ltb 1 ndim); [apply rel_raise, stage_world|].
      destruct (_ || _)%bool; [apply rel_raise, stage_world|].
      apply (rel_bind _ _ _ (fun _ => stage)).
      { unfold make_non_degenerate. apply rel_get.
        intros s0 s0' HR. apply rel_modify. intros s s' [-> ->].
        destruct HR as (fv & g & h & xm & gm & ha & f & t & -> & Hs).
        exists fv, g, h, xm, gm, ha, f, t. split; [oeq|]. exact Hs. }
      intros []. apply rel_get. intros s0 s0' HR0.
      assert (Hx : deref s0 (o_x s0) = deref s0' (o_x s0') /\ o_x s0 = o_x s0').
      { destruct HR0 as (fv & g & h & xm & gm & ha & f & t & -> & Hs). split; reflexivity. }
      destruct Hx as [Hx1 Hx2].
      apply (rel_bind _ _ _ (fun _ => stage)).
      { apply check_in_bounds_rel; [exact Hx1|]. intros s s' [-> ->]. auto using stage_world. }
      intros []. apply (rel_bind _ _ _ (fun _ => stage)).
      { intros s s' HR. rewrite <- Hx2. unfold evaluate.
        destruct HR as (fv & g & h & xm & gm & ha & f & t & -> & Hs).
        match goal with |- outcome _ (?r, _) (?r', _) => change r' with r; destruct r end.
        - split; [reflexivity|]. exists fv, g, h, xm, gm, ha, f, t. split; [oeq|]. exact Hs.
        - split; [reflexivity|]. repeat split. }
      intros pf. apply (rel_bind _ _ _ (fun _ => stage2)).
      { unfold init_hess. apply rel_get. intros s1 s1' HR.
        destruct HR as (fv & g & h & xm & gm & ha & f & t & -> & Hs & Hr).
        set (s1' := set_o_fval _ _).
        assert (W : same_world s1 s1') by (repeat split).
        change (o_happ s1') with ha. revert Hs.
        destruct (o_happ s1) as [a|] eqn:Ea, ha as [a'|]; cbn [option_map]; try discriminate.
        - intros Hs. apply (rel_bind _ _ _ (fun _ s s' => s = s1 /\ s' = s1')).
          { apply rel_lift; [intros ? ? [-> ->]; exact W|auto]. }
          intros arg. rewrite (h_init_config a a') by congruence.
          apply (rel_bind _ _ _ (fun _ s s' => s = s1 /\ s' = s1')).
          { apply rel_lift; [intros ? ? [-> ->]; exact W|auto]. }
          intros h'. apply rel_modify. intros s s' [-> ->].
          exists fv, g, xm, gm, f, t. split; [oeq|]. exact Hr.
        - intros []. destruct (pf_hess pf); try (apply rel_raise; intros ? ? [-> ->]; exact W).
          apply rel_modify. intros s s' [-> ->].
          exists fv, g, xm, gm, f, t. split; [|exact Hr].
          subst s1'. apply opt_ext; try reflexivity. symmetry. exact Ea. }
      intros []. apply (rel_bind _ _ _ (fun _ => stage2)).
      { apply rel_lift; eauto using stage2_world. }
      intros []. rewrite <- Hx2. apply (rel_bind _ _ _ (fun _ => stage2)).
      { apply rel_lift; eauto using stage2_world. }
      intros fo. apply (rel_bind _ _ _ (fun _ s s' => (exists xm gm f t,
          s' = set_o_xmin xm (set_o_grad_min gm (pert f t s)))
          /\ o_fval_min s = ninf /\ o_iter s = 0%Z /\ o_conv s = false)).
      { apply rel_modify. intros s s' (fv & g & xm & gm & f & t & -> & Hs).
        split; [|exact Hs]. exists xm, gm, f, t. oeq. }
      intros []. apply (rel_bind _ _ _ (fun _ s s' => same_world s s' /\
          (nisfin (fo_fval fo) = true -> exists f t, s' = pert f t s)
          /\ o_iter s = 0%Z)).
      { unfold track_minimum. apply rel_modify. intros s s' ((xm & gm & f & t & ->) & Hf & Hi & Hc).
        change (o_fval_min (set_o_xmin xm (set_o_grad_min gm (pert f t s)))) with (o_fval_min s).
        rewrite Hf. destruct (nisfin (fo_fval fo)) eqn:Efin.
        - rewrite (fin_lt_inf _ Efin). cbn [andb]. split; [repeat split|].
          split; [|exact Hi]. intros []. exists f, t. oeq.
        - cbn [andb]. split; [repeat split|]. split; [discriminate|exact Hi]. }
      intros []. apply (rel_bind _ _ _ (fun _ s s' => (exists f t, s' = pert f t s) /\ o_iter s = 0%Z)).
      { apply check_finite_rel; [intros s s' [? _]; auto|].
        intros Hf s s' (_ & H & Hi). split; auto. }
      intros []. apply (rel_bind _ _ _ (fun _ => headrel)).
      { apply rel_modify. intros s s' [(f & t & ->) Hi]. split; [apply almost_ex; exists f, t; oeq|].
        split; [discriminate|]. change (o_iter (set_o_conv false s)) with (o_iter s). rewrite Hi. lia. }
      intros []. apply rel_ret. auto.
    Qed.

    (** *** The loop *)
    Definition al (s s' : opt) : Prop := (exists f t, s' = pert f t s) /\ (0 < o_iter s)%Z.
    Definition al2 (s s' : opt) : Prop := (exists f, s' = set_o_flag f s) /\ (0 < o_iter s)%Z.
    Definition al3 (s s' : opt) : Prop :=
      (exists f, s' = set_o_flag f s /\ (o_conv s = true -> f = o_flag s)) /\ (0 < o_iter s)%Z.
    Lemma al_world s s' : al s s' -> same_world s s'.
    Proof. intros [(f & t & ->) _]. repeat split. Qed.
    Lemma al2_world s s' : al2 s s' -> same_world s s'.
    Proof. intros [(f & ->) _]. repeat split. Qed.
    Lemma al3_world s s' : al3 s s' -> same_world s s'.
    Proof. intros [(f & -> & _) _]. repeat split. Qed.
    Lemma al3_head s s' : al3 s s' -> headrel s s'.
    Proof.
      intros [(f & -> & H) Hi]. split; [|split; [exact H|split; [lia|reflexivity]]].
      red. oeq.
    Qed.

    Ltac same_prog := match goal with |- rel _ ?m ?m' _ => change m' with m end.

    Lemma check_finite_self_rel : rel al check_finite_self check_finite_self (fun _ => al).
    Proof.
      unfold check_finite_self. apply rel_get. intros s0 s0' [(f & t & ->) Hi]. same_prog.
      apply check_finite_rel; [intros s s' [-> ->]; repeat split|].
      intros _ s s' [-> ->]. split; [eauto|exact Hi].
    Qed.

    Lemma evaluate_rel x : rel al (evaluate E C x) (evaluate E C x) (fun _ => al).
    Proof.
      intros s s' [(f & t & ->) Hi]. unfold evaluate.
      match goal with |- outcome _ (?r, _) (?r', _) => change r' with r; destruct r end.
      - split; [reflexivity|]. split; [exists f, t; oeq|exact Hi].
      - split; [reflexivity|]. repeat split.
    Qed.

    Lemma update_tr_radius_rel fo sp dv :
      rel al (update_tr_radius C fo sp dv) (update_tr_radius C fo sp dv) (fun _ => al2).
    Proof.
      unfold update_tr_radius. apply rel_get. intros s0 s0' [(f & t & ->) Hi].
      same_prog. eapply rel_bind.
      { apply (rel_modify _ _ _ (fun _ => al)). intros s s' [-> ->]. split; [exists f, t; oeq|exact Hi]. }
      intros []. destruct (negb _).
      { eapply rel_bind.
        - apply (rel_modify _ _ _ (fun _ => al2)). intros s s' [(f' & t' & ->) Hi'].
          split; [exists f'; oeq|exact Hi'].
        - intros []. apply rel_ret. auto. }
      eapply rel_bind.
      { apply (rel_modify _ _ _ (fun _ => al2)). intros s s' [(f' & t' & ->) Hi'].
        split; [exists f'; oeq|exact Hi']. }
      intros []. apply (rel_bind _ _ _ (fun _ => al2)).
      - repeat match goal with |- rel _ (if ?c then _ else _) _ _ => destruct c end;
          try (apply rel_ret; auto);
          (apply rel_modify; intros s s' [(f' & ->) Hi']; split; [exists f'; oeq|exact Hi']).
      - intros []. apply rel_ret. auto.
    Qed.

    Lemma check_convergence_rel sp fo :
      rel al2 (check_convergence C sp fo) (check_convergence C sp fo) (fun _ => al3).
    Proof.
      unfold check_convergence. apply rel_modify. intros s s' [(f & ->) Hi].
      change (o_tr_ratio (set_o_flag f s)) with (o_tr_ratio s).
      change (o_fval (set_o_flag f s)) with (o_fval s).
      change (o_iter (set_o_flag f s)) with (o_iter s). cbv zeta.
      repeat match goal with |- al3 (if ?c then _ else _) _ => destruct c end;
        try (split; [eexists; split; [oeq|reflexivity]|exact Hi]).
      split; [|exact Hi]. exists f. split; [oeq|discriminate].
    Qed.

    Lemma track_minimum_rel fo : rel al3 (track_minimum fo) (track_minimum fo) (fun _ => al3).
    Proof.
      unfold track_minimum. apply rel_modify. intros s s' [(f & -> & Hf) Hi].
      change (o_fval_min (set_o_flag f s)) with (o_fval_min s).
      match goal with |- al3 (if ?c then _ else _) _ => destruct c end;
        (split; [exists f; split; [oeq|exact Hf]|exact Hi]).
    Qed.

    Lemma update_rel sp fnew fold : rel al3 (update C sp fnew fold) (update C sp fnew fold) (fun _ => al3).
    Proof.
      unfold update. apply rel_get. intros s0 s0' [(f & -> & Hf) Hi]. same_prog.
      assert (W : same_world s0 (set_o_flag f s0)) by repeat split.
      apply (rel_bind _ _ _ (fun _ => al3)).
      { destruct (o_happ s0) as [h|].
        - eapply rel_bind.
          + apply (rel_lift _ _ (fun _ s s' => s = s0 /\ s' = set_o_flag f s0)); auto.
            intros s s' [-> ->]; exact W.
          + intros h'. apply rel_modify. intros s s' [-> ->].
            split; [exists f; split; [oeq|exact Hf]|exact Hi].
        - destruct (fo_hess fnew).
          + apply rel_modify. intros s s' [-> ->].
            split; [exists f; split; [oeq|exact Hf]|exact Hi].
          + apply rel_raise. intros s s' [-> ->]; exact W. }
      intros []. apply (rel_bind _ _ _ (fun _ => al3)).
      { apply check_in_bounds_rel; [reflexivity|]. auto using al3_world. }
      intros []. apply (rel_bind _ _ _ (fun _ => al3)).
      { apply rel_modify. intros s s' [(f' & -> & Hf') Hi'].
        split; [exists f'; split; [oeq|exact Hf']|exact Hi']. }
      intros []. unfold make_non_degenerate. apply rel_get. intros s1 s1' [(f' & -> & Hf') Hi'].
      apply rel_modify. intros s s' [-> ->].
      split; [exists f'; split; [oeq|exact Hf']|exact Hi'].
    Qed.

    Lemma track_history_rel acc sp fo :
      rel al3 (track_history E acc sp fo) (track_history E acc sp fo) (fun _ => al3).
    Proof.
      unfold track_history. apply rel_get. intros s0 s0' [(f & -> & Hf) Hi]. same_prog.
      assert (W : same_world s0 (set_o_flag f s0)) by repeat split.
      do 5 (eapply rel_bind;
        [apply (rel_lift _ _ (fun _ s s' => s = s0 /\ s' = set_o_flag f s0)); auto;
         intros s s' [-> ->]; exact W|intros ?]).
      apply rel_modify. intros s s' [-> ->].
      split; [exists f; split; [oeq|exact Hf]|exact Hi].
    Qed.

    Lemma rel_when b R (m m' : M unit) Q : rel R m m' Q -> (forall s s', R s s' -> Q tt s s') ->
      rel R (when b m) (when b m') Q.
    Proof. destruct b; simpl; auto. intros _ H. apply rel_ret. auto. Qed.

    Lemma iteration_rel fo : rel headrel (iteration E C fo) (iteration E C fo) (fun _ => headrel).
    Proof.
      unfold iteration. apply (rel_bind _ _ _ (fun _ => al)).
      { apply rel_modify. intros s s' (Ha & _ & Hi & _). red in Ha. rewrite Ha.
        split; [exists (o_flag s'), (o_tr_ratio s'); oeq|].
        change (o_iter (set_o_iter (o_iter s + 1) s)) with (o_iter s + 1)%Z. lia. }
      intros []. apply (rel_bind _ _ _ (fun _ => al)).
      { apply rel_modify. intros s s' [(f & t & ->) Hi]. split; [exists f, t; oeq|exact Hi]. }
      intros []. apply rel_get. intros s0 s0' HR.
      apply (rel_pre _ al); [intros s s' [-> ->]; exact HR|].
      destruct HR as [(f & t & ->) _]. same_prog.
      eapply rel_bind; [apply check_finite_self_rel|intros []].
      eapply rel_bind; [apply (rel_lift _ _ (fun _ => al)); auto using al_world|intros sp].
      apply (rel_bind _ _ _ (fun _ => al)).
      { intros s s' [(f' & t' & ->) Hi']. split; [reflexivity|]. split; [exists f', t'; oeq|exact Hi']. }
      intros xn. eapply rel_bind; [apply evaluate_rel|intros pf].
      eapply rel_bind; [apply (rel_lift _ _ (fun _ => al)); auto using al_world|intros fnew].
      apply (rel_bind _ _ _ (fun _ => al)).
      { apply rel_when; auto. unfold check_finite_fo. apply check_finite_rel; auto using al_world. }
      intros []. eapply rel_bind; [apply update_tr_radius_rel|intros acc].
      eapply rel_bind; [apply check_convergence_rel|intros []].
      eapply rel_bind; [apply track_minimum_rel|intros []].
      apply (rel_bind _ _ _ (fun _ => al3)); [apply rel_when; [apply update_rel|auto]|intros []].
      apply (rel_bind _ _ _ (fun _ => al3)); [apply rel_when; [apply track_history_rel|auto]|intros []].
      apply rel_ret. auto using al3_head.
    Qed.

    (** the loop ends with equal flags *)
    Definition endrel (s s' : opt) : Prop :=
      (exists t, s' = set_o_tr_ratio t s) /\ ((0 < o_iter s)%Z -> o_tr_ratio s' = o_tr_ratio s).

    Lemma check_continue_rel :
      rel headrel (check_continue E C) (check_continue E C)
        (fun b => if b then headrel else endrel).
    Proof.
      intros s s' (Ha & Hc & Hi & Ht). red in Ha.
      assert (He : exists f t, s' = pert f t s) by eauto. clear Ha.
      destruct He as (f & t & ->). rewrite !check_continue_run.
      change (o_conv (pert f t s)) with (o_conv s). change (o_iter (pert f t s)) with (o_iter s).
      change (o_delta (pert f t s)) with (o_delta s).
      change (out_of_time E C (pert f t s)) with (out_of_time E C s).
      destruct (o_conv s) eqn:Ec.
      { split; [reflexivity|]. change (o_flag (pert f t s)) with f in Hc.
        specialize (Hc eq_refl). subst f.
        split; [exists t; apply opt_ext; reflexivity|exact Ht]. }
      destruct (op_maxiter (c_opts C) <=? o_iter s)%Z.
      { split; [reflexivity|]. split; [exists t; oeq|exact Ht]. }
      cbv zeta. destruct (out_of_time E C s).
      { split; [reflexivity|]. split; [exists t; oeq|exact Ht]. }
      destruct (o_delta s <? spacing1).
      { split; [reflexivity|]. split; [exists t; oeq|exact Ht]. }
      split; [reflexivity|]. split; [apply almost_ex; exists f, t; oeq|].
      split; [|split; [exact Hi|exact Ht]].
      change (o_conv (set_o_clk (S (o_clk s)) s)) with (o_conv s). rewrite Ec. discriminate.
    Qed.

    Lemma loop_rel fuel : forall fo, rel headrel (loop E C fuel fo) (loop E C fuel fo) (fun _ => endrel).
    Proof.
      induction fuel as [|k IH]; intros fo; cbn [loop].
      - apply rel_raise. intros s s' [H _]. apply almost_world, H.
      - eapply rel_bind; [apply check_continue_rel|]. intros [|].
        + eapply rel_bind; [apply iteration_rel|]. intros f'. apply IH.
        + apply rel_ret. auto.
    Qed.

    Lemma minimize_rel fuel ndim x0 sid h0 :
      rel (fun s s' => same_world s s' /\ same_scheme s s')
        (minimize E C fuel ndim x0 sid h0) (minimize E C fuel ndim x0 sid h0) (fun _ => endrel).
    Proof.
      unfold minimize. eapply rel_bind; [apply prepare_rel|intros fo].
      eapply rel_bind; [apply loop_rel|intros []].
      apply (rel_bind _ _ _ (fun _ => endrel)).
      { unfold write_history. destruct (op_history (c_opts C)) as [file|]; [|apply rel_ret; auto].
        apply rel_get. intros s0 s0' [(t & ->) Ht]. same_prog.
        match goal with |- rel _ (if ?c then _ else _) _ _ => destruct c end.
        - apply rel_raise. intros s s' [-> ->]. repeat split.
        - apply rel_modify. intros s s' [-> ->]. split; [exists t; oeq|exact Ht]. }
      intros []. apply rel_get. intros s0 s0' [(t & ->) Ht]. same_prog.
      apply rel_ret. intros s s' [-> ->]. split; [exists t; reflexivity|exact Ht].
    Qed.

    (** ** C21 *)
    (** Two optimizers with the same configuration, whatever was done with them before, in the same
        world: a call of minimize with the same arguments has the same outcome (the same returned
        tuple or the same exception), the same effect on the world (evaluations, history files),
        and, if it returns, leaves the same attributes (tr_ratio only if there was an iteration) *)
    Theorem C21_reuse fuel ndim x0 sid h0 s s' r t r' t' :
      same_world s s' -> same_scheme s s' ->
      minimize E C fuel ndim x0 sid h0 s = (r, t) ->
      minimize E C fuel ndim x0 sid h0 s' = (r', t') ->
      r' = r /\ same_world t t' /\
      (forall v, r = Ok v -> same_but_ratio t t' /\ ((0 < o_iter t)%Z -> t' = t)).
    Proof.
      intros Hw Hs H H'. pose proof (minimize_rel fuel ndim x0 sid h0 s s' (conj Hw Hs)) as R.
      rewrite H, H' in R. unfold outcome in R.
      destruct r as [v|e], r' as [v'|e']; try contradiction.
      - destruct R as [-> [(q & Hq) Hr]]. subst t'. split; [reflexivity|].
        split; [repeat split|]. intros v0 _. split; [red; oeq|].
        intros Hi. specialize (Hr Hi). apply opt_ext; try reflexivity. exact Hr.
      - destruct R as [-> Hq]. split; [reflexivity|]. split; [exact Hq|]. discriminate.
    Qed.

    (** *** What a call does to the configuration of the Hessian approximation *)
    Definition unswitched (h : happ T) : happ T :=
      match scheme_config h with
      | HFixed i b k _ => HFixed i b k false
      | HFraction i b t _ => HFraction i b t false
      | h' => h'
      end.
    Definition keeps_scheme (s s' : opt) : Prop :=
      option_map unswitched (o_happ s) = option_map unswitched (o_happ s').
    Lemma ks_refl s : keeps_scheme s s.
    Proof. reflexivity. Qed.
    Lemma ks_trans a b c : keeps_scheme a b -> keeps_scheme b c -> keeps_scheme a c.
    Proof. unfold keeps_scheme. congruence. Qed.

    Lemma h_init_keeps h n a h' : h_init h n a = Ok h' -> unswitched h' = unswitched h.
    Proof.
      assert (HB : forall i i' : ihapp T, ih_init i n a = Ok i' -> ih_kind i' = ih_kind i).
      { intros i i' H. unfold ih_init in H. destruct (hb_init n a); [|discriminate].
        injection H as <-. reflexivity. }
      assert (HH : forall inner (k : ihapp T -> hbase T -> happ T),
        match ih_init inner n a with
        | Ok i => match hb_init n a with Ok b => Ok (k i b) | Err e => Err e end
        | Err e => Err e end = Ok h' -> exists i b, h' = k i b /\ ih_kind i = ih_kind inner).
      { intros inner k H. destruct (ih_init inner n a) eqn:E1; [|discriminate].
        destruct (hb_init n a); [|discriminate]. injection H as <-. eauto. }
      destruct h; simpl; intros H.
      - destruct (ih_init i n a) as [i'|] eqn:E1; [|discriminate]. injection H as <-.
        unfold unswitched. simpl. rewrite (HB _ _ E1). reflexivity.
      - apply HH in H as (i & b & -> & Hk). unfold unswitched. simpl. rewrite Hk. reflexivity.
      - apply HH in H as (i & b & -> & Hk). unfold unswitched. simpl. rewrite Hk. reflexivity.
      - apply HH in H as (i & b & -> & Hk). unfold unswitched. simpl. rewrite Hk. reflexivity.
      - unfold sh_init in H. destruct (hb_init n a); [|discriminate]. injection H as <-. reflexivity.
    Qed.
    Lemma ih_update_kind (i : ihapp T) a b : ih_kind (ih_update i a b) = ih_kind i.
    Proof. unfold ih_update. destruct (ih_kind i) eqn:Ei; simpl; auto. Qed.
    Lemma happ_update_keeps h a g p q k fn fo h' :
      happ_update h a g p q k fn fo = Ok h' -> unswitched h' = unswitched h.
    Proof.
      unfold happ_update. destruct h; cbv zeta.
      - intros H. injection H as <-. unfold unswitched. simpl. rewrite ih_update_kind. reflexivity.
      - destruct (fo_hess fn); [|discriminate]. intros H. injection H as <-.
        unfold fixed_update, switched_update, unswitched. simpl. rewrite ih_update_kind. reflexivity.
      - destruct (fo_hess fn); [|discriminate]. intros H. injection H as <-.
        unfold fraction_update, switched_update, unswitched. simpl. rewrite ih_update_kind. reflexivity.
      - destruct (fo_hess fn); [|discriminate]. unfold fx_update.
        match goal with |- context [if ?c then _ else _] => destruct c end.
        + unfold ih_set_mat. destruct (hb_set_mat _ _); [|discriminate].
          intros H. injection H as <-. reflexivity.
        + intros H. injection H as <-. unfold unswitched. simpl. rewrite ih_update_kind. reflexivity.
      - destruct (fo_hess fn); [|discriminate]. intros H. injection H as <-.
        unfold sh_update, unswitched. destruct h; simpl.
        destruct sh_kind; simpl; try reflexivity.
        match goal with |- context [if ?c then _ else _] => destruct c end; reflexivity.
    Qed.

    Lemma now_keeps : pres keeps_scheme (now E).
    Proof. intros s r s' H. injection H as <- <-. reflexivity. Qed.
    Ltac ks := repeat first [apply now_keeps|apply pres_bind; [exact ks_trans| |intros ?]
        |apply pres_modify; intros ?; reflexivity
        |apply pres_get; exact ks_refl|apply pres_lift; exact ks_refl|apply pres_raise; exact ks_refl
        |apply pres_when; [exact ks_refl|]
        |apply pres_ret; exact ks_refl|apply pres_if
        |match goal with |- pres _ (match ?x with _ => _ end) => destruct x end].
    Lemma alloc_keeps v : pres keeps_scheme (alloc v).
    Proof. intros s r s' H. injection H as <- <-. reflexivity. Qed.
    Lemma evaluate_keeps x : pres keeps_scheme (evaluate E C x).
    Proof. intros s r s' H. injection H as <- <-. reflexivity. Qed.
    Lemma nondeg_keeps : pres keeps_scheme (make_non_degenerate C).
    Proof. intros s r s' H. injection H as <- <-. reflexivity. Qed.
    Lemma in_bounds_keeps x : pres keeps_scheme (check_in_bounds C x).
    Proof. unfold check_in_bounds. ks. Qed.
    Lemma finite_keeps f g h : pres keeps_scheme (check_finite (T := T) f g h).
    Proof. unfold check_finite. ks. Qed.
    Lemma track_min_keeps f : pres keeps_scheme (track_minimum (T := T) f).
    Proof.
      unfold track_minimum. apply pres_modify. intros s.
      match goal with |- context [if ?c then _ else _] => destruct c end; reflexivity.
    Qed.
    Lemma reset_keeps sid : pres keeps_scheme (reset E C sid).
    Proof. intros s r s' H. rewrite reset_run in H. injection H as <- <-. unfold pr_s0. destruct (pr_id sid); reflexivity. Qed.
    Lemma init_hess_keeps n h0 pf : pres keeps_scheme (init_hess n h0 pf).
    Proof.
      intros s r s' H. rewrite init_hess_run in H. unfold pr_hess in H. red.
      destruct (o_happ s) as [h|] eqn:Eh.
      - destruct (pr_hess0 h0 pf) as [arg|]; [|injection H as <- <-; rewrite Eh; reflexivity].
        destruct (h_init h n arg) as [h'|] eqn:Ei; injection H as <- <-.
        + change (o_happ (set_o_hess (h_mat h') (set_o_happ (Some h') s))) with (Some h').
          simpl. rewrite (h_init_keeps _ _ _ _ Ei). reflexivity.
        + rewrite Eh. reflexivity.
      - destruct (pf_hess pf); injection H as <- <-; try (rewrite Eh; reflexivity). reflexivity.
    Qed.
    Lemma update_keeps sp fn fo : pres keeps_scheme (update C sp fn fo).
    Proof.
      intros s r s' H. rewrite update_run in H. unfold new_hess in H. red.
      destruct (o_happ s) as [h|] eqn:Eh.
      - match type of H with context [happ_update ?a ?b ?c ?d ?e ?f ?g ?i] =>
          destruct (happ_update a b c d e f g i) as [h'|] eqn:Eu end.
        + cbv zeta in H. apply happ_update_keeps in Eu.
          destruct (in_bounds C _); apply (f_equal snd) in H; cbn [snd] in H; rewrite <- H.
          * transitivity (option_map unswitched (Some h')); [simpl; rewrite Eu; reflexivity|reflexivity].
          * transitivity (option_map unswitched (Some h')); [simpl; rewrite Eu; reflexivity|reflexivity].
        + apply (f_equal snd) in H; cbn [snd] in H; rewrite <- H, Eh. reflexivity.
      - destruct (fo_hess fn).
        + cbv zeta in H. destruct (in_bounds C _); apply (f_equal snd) in H; cbn [snd] in H; rewrite <- H; reflexivity.
        + apply (f_equal snd) in H; cbn [snd] in H; rewrite <- H, Eh. reflexivity.
    Qed.
    Lemma track_history_keeps a sp f : pres keeps_scheme (track_history E a sp f).
    Proof. unfold track_history. ks. Qed.
    Lemma tr_radius_keeps f sp dv : pres keeps_scheme (update_tr_radius C f sp dv).
    Proof. intros s r s' H. rewrite update_tr_radius_run in H. apply (f_equal snd) in H. cbn [snd] in H. rewrite <- H. reflexivity. Qed.
    Lemma convergence_keeps sp f : pres keeps_scheme (check_convergence C sp f).
    Proof.
      unfold check_convergence. apply pres_modify. intros s. cbv zeta.
      repeat match goal with |- keeps_scheme _ (if ?c then _ else _) => destruct c end; reflexivity.
    Qed.
    Lemma continue_keeps : pres keeps_scheme (check_continue E C).
    Proof. unfold check_continue. ks. Qed.

    Lemma iteration_keeps fo : pres keeps_scheme (iteration E C fo).
    Proof.
      unfold iteration, check_finite_self, check_finite_fo.
      repeat first [apply alloc_keeps|apply evaluate_keeps|apply finite_keeps|apply tr_radius_keeps
        |apply convergence_keeps|apply track_min_keeps|apply update_keeps|apply track_history_keeps
        |apply pres_bind; [exact ks_trans| |intros ?]
        |apply pres_modify; intros ?; reflexivity
        |apply pres_get; exact ks_refl|apply pres_lift; exact ks_refl|apply pres_when; [exact ks_refl|]
        |apply pres_ret; exact ks_refl].
    Qed.
    Lemma loop_keeps fuel : forall fo, pres keeps_scheme (loop E C fuel fo).
    Proof.
      induction fuel as [|k IH]; intros fo; cbn [loop]; [apply pres_raise; exact ks_refl|].
      apply pres_bind; [exact ks_trans|apply continue_keeps|intros [|]].
      - apply pres_bind; [exact ks_trans|apply iteration_keeps|auto].
      - apply pres_ret; exact ks_refl.
    Qed.
    Lemma prepare_keeps ndim x0 sid h0 : pres keeps_scheme (prepare E C ndim x0 sid h0).
    Proof.
      unfold prepare, check_finite_fo.
      repeat first [apply reset_keeps|apply alloc_keeps|apply evaluate_keeps|apply finite_keeps
        |apply track_min_keeps|apply init_hess_keeps|apply nondeg_keeps|apply in_bounds_keeps
        |apply pres_bind; [exact ks_trans| |intros ?]
        |apply pres_modify; intros ?; reflexivity
        |apply pres_get; exact ks_refl|apply pres_lift; exact ks_refl|apply pres_raise; exact ks_refl
        |apply pres_ret; exact ks_refl|apply pres_if].
    Qed.
    Lemma minimize_keeps fuel ndim x0 sid h0 : pres keeps_scheme (minimize E C fuel ndim x0 sid h0).
    Proof.
      unfold minimize, write_history.
      apply pres_bind; [exact ks_trans|apply prepare_keeps|intros f].
      apply pres_bind; [exact ks_trans|apply loop_keeps|intros []].
      apply pres_bind; [exact ks_trans| |intros []].
      - ks.
      - ks.
    Qed.

    (** [in_world w s]: the object of state [s] in the world of state [w] *)
    Definition in_world (w s : opt) : opt :=
      set_o_heap (o_heap w) (set_o_files (o_files w) (set_o_clk (o_clk w) (set_o_nid (o_nid w)
        (set_o_evals (o_evals w) s)))).

    (** an optimizer object after any number of calls of minimize (with any arguments and outcomes),
        the world having changed in any way between the calls *)
    Inductive used (s0 : opt) : opt -> Prop :=
    | used_new : used s0 s0
    | used_call s fuel ndim x0 sid h0 r s' :
        used s0 s -> minimize E C fuel ndim x0 sid h0 s = (r, s') -> used s0 s'
    | used_elsewhere s w : used s0 s -> used s0 (in_world w s).

    Lemma used_keeps s0 s : used s0 s -> keeps_scheme s0 s.
    Proof.
      induction 1 as [|s fuel ndim x0 sid h0 r s' Hu IH Hm|s w Hu IH].
      - reflexivity.
      - eapply ks_trans; [exact IH|]. eapply minimize_keeps, Hm.
      - exact IH.
    Qed.

    Definition no_switch (h : option (happ T)) : Prop :=
      match h with
      | Some (HFixed _ _ _ _) | Some (HFraction _ _ _ _) => False
      | _ => True
      end.

    Lemma keeps_same s s' : no_switch (o_happ s) -> keeps_scheme s s' -> same_scheme s s'.
    Proof.
      unfold keeps_scheme, same_scheme. destruct (o_happ s) as [h|], (o_happ s') as [h'|]; auto;
        try discriminate. simpl. intros Hn H. injection H. intros H'. f_equal.
      unfold unswitched in H'. destruct h, h'; simpl in *; try contradiction; try discriminate; auto.
    Qed.
  End Run.

  (** A call on a used optimizer has the outcome of the same call on a newly constructed one in the
      same world, unless the Hessian approximation is HybridFixed or HybridFraction *)
  Theorem C21_like_new {NI : NumInt T} E parses lb ub d happ0 resfun files C s0 s
      fuel ndim x0 sid h0 r t r' t' :
    optimizer_init parses lb ub d happ0 resfun files = Ok (C, s0) ->
    no_switch happ0 ->
    used E C s0 s ->
    minimize E C fuel ndim x0 sid h0 s = (r, t) ->
    minimize E C fuel ndim x0 sid h0 (in_world s s0) = (r', t') ->
    r' = r /\ same_world t t' /\
    (forall v, r = Ok v -> same_but_ratio t t' /\ ((0 < o_iter t)%Z -> t' = t)).
  Proof.
    intros Hi Hn Hu. apply C21_reuse; [repeat split|].
    assert (Ho : o_happ s0 = happ0).
    { clear - Hi. revert Hi. unfold optimizer_init.
      match goal with |- context [rbind ?m ?f] => destruct m end; cbn [rbind]; [|discriminate].
      destruct (validate_options parses d); cbn [rbind]; [|discriminate].
      destruct (opts_of d) as [o|]; cbn [rbind]; [|discriminate].
      match goal with |- context [if ?c then _ else _] => destruct c end; [discriminate|].
      intros Hi. injection Hi as _ <-. reflexivity. }
    apply used_keeps in Hu. unfold same_scheme.
    change (o_happ (in_world s s0)) with (o_happ s0). symmetry.
    apply keeps_same; [rewrite Ho; exact Hn|exact Hu].
  Qed.
End Reuse.

(** ** Concrete cases in double precision *)
From Verif Require Import F64 Witness.

(** an optimizer built by the constructor, run from [x0], and then called again from [x1], compared
    with a new optimizer called from [x1] *)
Definition two_calls (obj : nat -> list F64 -> retval F64) lb ub d h fuel x0 x1
    (P : cfg F64 -> res (F64 * nat * list F64 * list (list F64)) -> opt F64 ->
         res (F64 * nat * list F64 * list (list F64)) -> opt F64 -> bool) : bool :=
  match optimizer_init (fun _ => false) lb ub d h false [] with
  | Ok (C, s0) =>
      let s := snd (minimize (world obj) C fuel 1 x0 None H0None s0) in
      let p := minimize (world obj) C fuel 1 x1 None H0None s in
      let p' := minimize (world obj) C fuel 1 x1 None H0None (in_world s s0) in
      P C (fst p) (snd p) (fst p') (snd p')
  | Err _ => false
  end.
Lemma two_calls_witness obj lb ub d h fuel x0 x1 P :
  two_calls obj lb ub d h fuel x0 x1 P = true ->
  exists C s0 s r t r' t',
    optimizer_init (fun _ => false) lb ub d h false [] = Ok (C, s0)
    /\ used (world obj) C s0 s
    /\ minimize (world obj) C fuel 1 x1 None H0None s = (r, t)
    /\ minimize (world obj) C fuel 1 x1 None H0None (in_world s s0) = (r', t')
    /\ P C r t r' t' = true.
Proof.
  unfold two_calls. destruct optimizer_init as [[C s0]|e]; [|discriminate]. cbv zeta.
  intros H. eexists C, s0, _, _, _, _, _. split; [reflexivity|].
  split; [|split; [apply surjective_pairing|split; [apply surjective_pairing|exact H]]].
  eapply used_call; [apply used_new|]. apply surjective_pairing.
Qed.

(** f(x) = sum x_i^4 *)
Definition quartic (_ : nat) (x : list F64) : retval F64 :=
  let sq := vmul x x in
  RTuple [PScal (dot sq sq); PVec (vscale (fofZ 4) (vmul sq x));
          PMat (List.length x) (mapi (fun i r => map2 nmul r (vscale (fofZ 12) sq)) (eye (List.length x)))].
(** the same without the Hessian *)
Definition quartic2 (k : nat) (x : list F64) : retval F64 :=
  let sq := vmul x x in RTuple [PScal (dot sq sq); PVec (vscale (fofZ 4) (vmul sq x))].

(** the hypotheses of C21_like_new are met by an optimizer with BFGS run from 3 and then from 2:
    the second call takes several passes and stops with GTOL *)
Example C21_ex :
  exists C s0 s r t r' t',
    optimizer_init (fun _ => false) (fzs [-10]%Z) (fzs [10]%Z) [] (Some (HIter (mkIhapp (BFGS false) hb_empty))) false []
      = Ok (C, s0)
    /\ used (world quartic2) C s0 s
    /\ minimize (world quartic2) C 1001 1 (fzs [2]%Z) None H0None s = (r, t)
    /\ minimize (world quartic2) C 1001 1 (fzs [2]%Z) None H0None (in_world s s0) = (r', t')
    /\ match r with Ok _ => true | _ => false end && (5 <? o_iter t)%Z && o_conv t = true.
Proof.
  apply (two_calls_witness quartic2 _ _ _ _ _ (fzs [3]%Z) _
    (fun C r t r' t' => match r with Ok _ => true | _ => false end && (5 <? o_iter t)%Z && o_conv t)).
  vm_compute. reflexivity.
Qed.

(** Finding: HybridFixed keeps the switch of an earlier run.  The second call returns another Hessian
    than a new optimizer with the same configuration (and a different number of iterations) *)
Theorem C21_hybrid_refuted :
  exists C s0 s r t r' t',
    optimizer_init (fun _ => false) (fzs [-10]%Z) (fzs [10]%Z) []
      (Some (HFixed (mkIhapp (BFGS false) hb_empty) hb_empty 0 false)) false [] = Ok (C, s0)
    /\ used (world quartic) C s0 s
    /\ minimize (world quartic) C 1001 1 (fzs [2]%Z) None H0None s = (r, t)
    /\ minimize (world quartic) C 1001 1 (fzs [2]%Z) None H0None (in_world s s0) = (r', t')
    /\ r <> r' /\ o_iter t <> o_iter t'.
Proof.
  assert (H : two_calls quartic (fzs [-10]%Z) (fzs [10]%Z) []
      (Some (HFixed (mkIhapp (BFGS false) hb_empty) hb_empty 0 false)) 1001 (fzs [3]%Z) (fzs [2]%Z)
      (fun C r t r' t' => match r, r' with
         | Ok (fv, x, g, h), Ok (fv', x', g', h') => negb (veq (nth 0 h []) (nth 0 h' []))
         | _, _ => false end && negb (o_iter t =? o_iter t')%Z) = true) by (vm_compute; reflexivity).
  apply two_calls_witness in H as (C & s0 & s & r & t & r' & t' & H0 & H1 & H2 & H3 & H4).
  exists C, s0, s, r, t, r', t'. do 4 (split; [assumption|]).
  apply andb_true_iff in H4 as [H4 H5]. split.
  - intros <-. destruct r as [[[[fv x] g] h]|e]; [|discriminate].
    assert (Hv : forall v, veq v v = true).
    { clear. intros v. induction v as [|a v IH]; [reflexivity|]. simpl. rewrite IH, andb_true_r.
      unfold feq. destruct (BinarySingleNaN.B2SF a); rewrite ?Bool.eqb_reflx, ?Pos.eqb_refl, ?Z.eqb_refl; reflexivity. }
    rewrite Hv in H4. discriminate.
  - apply negb_true_iff, Z.eqb_neq in H5. exact H5.
Qed.

(** Finding: a call that raises ValueError before the loop leaves the exit flag of the earlier call;
    on a new optimizer the flag says that nothing was run *)
Theorem C21_error_flag_refuted :
  exists C s0 s r t r' t',
    optimizer_init (fun _ => false) (fzs [-10; -10]%Z) (fzs [10; 10]%Z) [] None false [] = Ok (C, s0)
    /\ used (world sumsq) C s0 s
    /\ minimize (world sumsq) C 1001 1 (fzs [2]%Z) None H0None s = (r, t)
    /\ minimize (world sumsq) C 1001 1 (fzs [2]%Z) None H0None (in_world s s0) = (r', t')
    /\ r = Err EValue /\ o_flag t = GTOL /\ o_flag t' = DID_NOT_RUN.
Proof.
  assert (H : two_calls sumsq (fzs [-10; -10]%Z) (fzs [10; 10]%Z) [] None 1001 (fzs [3; 4]%Z) (fzs [2]%Z)
      (fun C r t r' t' => match r with Err EValue => true | _ => false end
         && eqflag (o_flag t) GTOL && eqflag (o_flag t') DID_NOT_RUN) = true) by (vm_compute; reflexivity).
  apply two_calls_witness in H as (C & s0 & s & r & t & r' & t' & H0 & H1 & H2 & H3 & H4).
  exists C, s0, s, r, t, r', t'. do 4 (split; [assumption|]).
  apply andb_true_iff in H4 as [H4 H6]. apply andb_true_iff in H4 as [H4 H5].
  split; [destruct r as [|[]]; try discriminate; reflexivity|].
  unfold eqflag in *. destruct (o_flag t), (o_flag t'); try discriminate; auto.
Qed.
