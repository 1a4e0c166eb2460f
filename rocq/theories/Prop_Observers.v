(** C57: the clock, the identifiers and the recording of the history only observe the optimization.
    A run with a time limit and a history file is compared with the bare run (no time limit, no history file). *)
From Coq Require Import String ZArith List Bool Lia.
From Verif Require Import Num Constants Subproblem HessApprox Steps TrustRegion Minimize
  ER NumFacts MonadFacts MinFacts Spec Run RunInv RunFrame F64 Witness.
Import ListNotations.
Local Open Scope list_scope.
Local Open Scope num_scope.

Section Observers.
  Context {T : Type} {N : Num T} {L : NumLaws T}.
  Local Notation vec := (list T).
  Local Notation mat := (list (list T)).
  Local Notation opt := (opt T).
  Local Notation M := (M T).

  (** ** Vocabulary of the statement *)

  (** two optimizer objects agree on everything the optimization is about; clock, start time, run identifier,
      recorded history and files may differ *)
  Record same_optimization (s s' : opt) : Prop := mkSame {
    sm_heap : o_heap s' = o_heap s;
    sm_x : o_x s' = o_x s;
    sm_fval : o_fval s' = o_fval s;
    sm_grad : o_grad s' = o_grad s;
    sm_hess : o_hess s' = o_hess s;
    sm_xmin : o_xmin s' = o_xmin s;
    sm_fval_min : o_fval_min s' = o_fval_min s;
    sm_grad_min : o_grad_min s' = o_grad_min s;
    sm_delta : o_delta s' = o_delta s;
    sm_delta_iter : o_delta_iter s' = o_delta_iter s;
    sm_ratio : o_tr_ratio s' = o_tr_ratio s;
    sm_happ : o_happ s' = o_happ s;
    sm_since : o_since s' = o_since s;
    sm_ninter : o_ninter s' = o_ninter s;
    sm_iter : o_iter s' = o_iter s;
    sm_conv : o_conv s' = o_conv s;
    sm_flag : o_flag s' = o_flag s;
    sm_evals : o_evals s' = o_evals s
  }.

  (** the same options, with a history file (or none) and a time limit *)
  Definition observing (history : option string) (maxtime : T) (C : cfg T) : cfg T :=
    let o := c_opts C in
    mkCfg (mkOpts (op_maxiter o) maxtime (op_fatol o) (op_frtol o) (op_xtol o) (op_gatol o) (op_grtol o) (op_subspace_dim o) (op_stepback o)
             (op_theta_max o) (op_delta_init o) (op_mu o) (op_eta o) (op_gamma1 o) (op_gamma2 o) history)
          (c_lb C) (c_ub C) (c_nargout C) (c_resfun C).

  Definition prefix {A} (a b : list A) : Prop := exists more, b = a ++ more.

  (** ** Proof *)
  Record watch := mkWatch { w_clk : nat; w_start : T; w_id : string; w_nid : nat; w_hist : history T; w_files : list (h5group T) }.
  Definition obs (w : watch) (s : opt) : opt :=
    set_o_clk (w_clk w) (set_o_starttime (w_start w) (set_o_start_id (w_id w) (set_o_nid (w_nid w)
      (set_o_hist (w_hist w) (set_o_files (w_files w) s))))).
  Definition watch_of (s : opt) : watch := mkWatch (o_clk s) (o_starttime s) (o_start_id s) (o_nid s) (o_hist s) (o_files s).

  Lemma same_obs s s' : same_optimization s s' <-> s' = obs (watch_of s') s.
  Proof.
    split.
    - intros []. destruct s, s'. cbn in *. subst. reflexivity.
    - intros ->. constructor; reflexivity.
  Qed.
  Lemma obs_same w s : same_optimization s (obs w s).
  Proof. constructor; reflexivity. Qed.

  Definition blind {A} (m : M A) : Prop := forall w s, m (obs w s) = (fst (m s), obs w (snd (m s))).
  Lemma blind_ret {A} (a : A) : blind (ret a).
  Proof. intros w s. reflexivity. Qed.
  Lemma blind_raise {A} e : blind (raise (A := A) e).
  Proof. intros w s. reflexivity. Qed.
  Lemma blind_lift {A} (r : res A) : blind (lift r).
  Proof. intros w s. rewrite !lift_run. reflexivity. Qed.
  Lemma blind_modify f : (forall w s, f (obs w s) = obs w (f s)) -> blind (modify f).
  Proof. intros H w s. unfold modify. cbn. now rewrite H. Qed.
  Lemma blind_bind {A B} (m : M A) (f : A -> M B) : blind m -> (forall a, blind (f a)) -> blind (bind m f).
  Proof.
    intros Hm Hf w s. unfold bind. rewrite Hm. destruct (m s) as [[a|e] s1]; cbn [fst snd]; [apply Hf|reflexivity].
  Qed.
  Lemma blind_get {B} (f : opt -> M B) :
    (forall s0, blind (f s0)) -> (forall w s0 s, f (obs w s0) s = f s0 s) -> blind (bind get f).
  Proof. intros H1 H2 w s. unfold bind, get. rewrite H2. apply H1. Qed.
  Lemma blind_when b (m : M unit) : blind m -> blind (when b m).
  Proof. intros H. destruct b; [exact H|apply blind_ret]. Qed.

  Section Pieces.
    Variable E : env T.
    Variable C : cfg T.
    Local Notation O := (c_opts C).

    Lemma blind_alloc v : blind (alloc v).
    Proof. intros w s. reflexivity. Qed.
    Lemma blind_store k v : blind (store k v).
    Proof. intros w s. reflexivity. Qed.
    Lemma blind_evaluate x : blind (evaluate E C x).
    Proof. intros w s. reflexivity. Qed.
    Lemma blind_nondeg : blind (make_non_degenerate C).
    Proof. intros w s. reflexivity. Qed.
    Lemma blind_in_bounds x : blind (check_in_bounds C x).
    Proof. intros w s. unfold check_in_bounds. destruct in_bounds; reflexivity. Qed.
    Lemma blind_finite fv g h : blind (check_finite fv g h).
    Proof.
      intros w s. unfold check_finite. destruct (nisfin fv); [|reflexivity]. destruct (vfinite g); [|reflexivity].
      destruct h as [h|]; [destruct (mfinite h)|]; reflexivity.
    Qed.
    Lemma blind_finite_self : blind check_finite_self.
    Proof. unfold check_finite_self. apply blind_get; [intros; apply blind_finite|reflexivity]. Qed.
    Lemma blind_minimum f : blind (track_minimum f).
    Proof.
      apply blind_modify. intros w s. change (o_fval_min (obs w s)) with (o_fval_min s). destruct (_ && _); reflexivity.
    Qed.
    Lemma blind_radius f sp dv : blind (update_tr_radius C f sp dv).
    Proof.
      unfold update_tr_radius. apply blind_get; [|reflexivity]. intros s0. cbv zeta.
      apply blind_bind; [apply blind_modify; reflexivity|intros _].
      destruct (negb _).
      { apply blind_bind; [apply blind_modify; reflexivity|intros _; apply blind_ret]. }
      apply blind_bind; [apply blind_modify; reflexivity|intros _].
      apply blind_bind; [|intros _; apply blind_ret].
      repeat match goal with |- blind (if ?b then _ else _) => destruct b end;
        try (apply blind_modify; reflexivity); apply blind_ret.
    Qed.
    Lemma blind_convergence sp f : blind (check_convergence C sp f).
    Proof.
      apply blind_modify. intros w s. cbv zeta. change (o_tr_ratio (obs w s)) with (o_tr_ratio s).
      change (o_fval (obs w s)) with (o_fval s). change (o_iter (obs w s)) with (o_iter s).
      repeat match goal with |- (if ?b then _ else _) = _ => destruct b end; reflexivity.
    Qed.
    Lemma blind_update sp fn fo : blind (update C sp fn fo).
    Proof.
      unfold update. apply blind_get; [|reflexivity]. intros s0. apply blind_bind.
      - destruct (o_happ s0) as [h|].
        + apply blind_bind; [apply blind_lift|intros h']. apply blind_modify. reflexivity.
        + destruct (fo_hess fn); [apply blind_modify; reflexivity|apply blind_raise].
      - intros _. apply blind_bind; [apply blind_in_bounds|intros _]. apply blind_bind; [apply blind_modify; reflexivity|intros _].
        apply blind_nondeg.
    Qed.

    (** the iteration up to the recording of the history *)
    Definition core (funout : fout T) : M (bool * step T * fout T) :=
      bind (modify (fun st => set_o_iter (o_iter st + 1)%Z st)) (fun _ =>
      bind (modify (fun st => set_o_delta_iter (o_delta st) st)) (fun _ =>
      bind get (fun st =>
      let x := deref st (o_x st) in
      let vdv := affine_scaling x (o_grad st) (c_lb C) (c_ub C) in
      let v := map fst vdv in
      let dv := map snd vdv in
      let scaling := map (fun a => nsqrt (nabs a)) v in
      let theta := pymax (op_theta_max O) (n1 - norm_inf (vmul v (o_grad st))) in
      bind check_finite_self (fun _ =>
      bind (lift (sp <-- trust_region (e_la E) x (o_grad st) (o_hess st) scaling (o_delta_iter st) dv
                         theta (c_lb C) (c_ub C) (op_subspace_dim O) (op_stepback O) ;;
                check_shape x sp)%res) (fun sp =>
      bind (alloc (vadd (vadd x (st_s sp)) (st_s0 sp))) (fun xn =>
      bind (evaluate E C xn) (fun pf =>
      bind (lift (typed_fout (List.length x) pf xn)) (fun fnew =>
      bind (when (nisfin (fo_fval fnew)) (check_finite_fo fnew)) (fun _ =>
      bind (update_tr_radius C fnew sp dv) (fun accepted =>
      bind (check_convergence C sp fnew) (fun _ =>
      bind (track_minimum fnew) (fun _ =>
      bind (when accepted (update C sp fnew funout)) (fun _ =>
      ret (accepted, sp, fnew)))))))))))))).
    Lemma bind_assoc {A B D} (m : M A) (f : A -> M B) (g : B -> M D) s :
      bind (bind m f) g s = bind m (fun a => bind (f a) g) s.
    Proof. unfold bind. destruct (m s) as [[a|e] s1]; reflexivity. Qed.
    Lemma bind_ext {A B} (m : M A) (k1 k2 : A -> M B) : (forall a s, k1 a s = k2 a s) -> forall s, bind m k1 s = bind m k2 s.
    Proof. intros H s. unfold bind. destruct (m s) as [[a|e] s1]; auto. Qed.
    Lemma iteration_core f s : iteration E C f s =
      bind (core f) (fun r => let '(a, sp, fn) := r in
        bind (when (has_history C) (track_history E a sp fn)) (fun _ => ret (if a then fn else f))) s.
    Proof.
      unfold iteration, core. cbv zeta.
      repeat (rewrite bind_assoc; apply bind_ext; intros ? ?). reflexivity.
    Qed.
    Lemma blind_core f : blind (core f).
    Proof.
      unfold core. cbv zeta.
      apply blind_bind; [apply blind_modify; reflexivity|intros _].
      apply blind_bind; [apply blind_modify; reflexivity|intros _].
      apply blind_get; [|reflexivity]. intros s0.
      apply blind_bind; [apply blind_finite_self|intros _].
      apply blind_bind; [apply blind_lift|intros sp].
      apply blind_bind; [apply blind_alloc|intros xn].
      apply blind_bind; [apply blind_evaluate|intros pf].
      apply blind_bind; [apply blind_lift|intros fn].
      apply blind_bind; [apply blind_when, blind_finite|intros _].
      apply blind_bind; [apply blind_radius|intros a].
      apply blind_bind; [apply blind_convergence|intros _].
      apply blind_bind; [apply blind_minimum|intros _].
      apply blind_bind; [apply blind_when, blind_update|intros _].
      apply blind_ret.
    Qed.

    (** recording changes the history only, or fails *)
    Lemma track_history_obs a sp f s : exists w,
      track_history E a sp f s = (Ok tt, obs w s) \/ track_history E a sp f s = (Err EExternal, obs w s).
    Proof.
      exists (watch_of (snd (track_history E a sp f s))).
      unfold track_history. cbv zeta. unfold bind at 1, get. unfold bind. rewrite !lift_run.
      assert (Z : forall s : opt, s = obs (watch_of s) s) by (intros []; reflexivity).
      assert (X : forall e, of_option EExternal e = Err EExternal \/ exists v : T * T, of_option EExternal e = Ok v).
      { intros [v|]; cbn; eauto. }
      assert (X1 : forall e, of_option EExternal e = Err EExternal \/ exists v : T, of_option EExternal e = Ok v).
      { intros [v|]; cbn; eauto. }
      destruct (X (e_minmax E (o_hess s))) as [->|(v & ->)]; [right; cbn [fst snd]; now rewrite <- Z|].
      cbv beta iota; rewrite ?lift_run; cbv beta iota.
      match goal with |- context [match ?r with Ok _ => _ | Err _ => _ end] =>
        assert (Y : r = Err EExternal \/ exists v, r = Ok v); [|destruct Y as [->|(v1 & ->)]; [right; cbn [fst snd]; now rewrite <- Z|]] end.
      { destruct (o_happ s); [destruct a; [apply X|]|]; eauto. }
      cbv beta iota; rewrite ?lift_run; cbv beta iota.
      match goal with |- context [match ?r with Ok _ => _ | Err _ => _ end] =>
        assert (Y : r = Err EExternal \/ exists v, r = Ok v); [|destruct Y as [->|(v2 & ->)]; [right; cbn [fst snd]; now rewrite <- Z|]] end.
      { destruct (o_happ s) as [[]|]; try (destruct a; [apply X|]); eauto. }
      cbv beta iota; rewrite ?lift_run; cbv beta iota.
      destruct (X1 (e_cond E (o_hess s))) as [->|(v3 & ->)]; [right; cbn [fst snd]; now rewrite <- Z|].
      cbv beta iota; rewrite ?lift_run; cbv beta iota.
      destruct (X1 (e_cond E (st_shess sp))) as [->|(v4 & ->)]; [right; cbn [fst snd]; now rewrite <- Z|].
      left. unfold modify. cbn [fst snd]. f_equal.
    Qed.

    (** everything before the loop, after the reset *)
    Definition ready (ndim : nat) (x0 : vec) (hess0 : hess0_arg T) : M (fout T) :=
      bind (alloc x0) (fun x =>
      bind (modify (set_o_x x)) (fun _ =>
      if Nat.ltb 1 ndim then raise EValue
      else if negb (Nat.eqb (List.length x0) (List.length (c_ub C))
                    && Nat.eqb (List.length x0) (List.length (c_lb C)))
              || Nat.eqb (List.length x0) 0
      then raise EValue
      else
      bind (make_non_degenerate C) (fun _ =>
      bind get (fun st =>
      bind (check_in_bounds C (deref st (o_x st))) (fun _ =>
      bind (evaluate E C (o_x st)) (fun pf =>
      bind (init_hess (List.length x0) hess0 pf) (fun _ =>
      bind (lift (checkdims (List.length x0) pf)) (fun _ =>
      bind (lift (typed_fout (List.length x0) pf (o_x st))) (fun f =>
      bind (modify (fun st => set_o_fval (fo_fval f) (set_o_grad (fo_grad f) st))) (fun _ =>
      bind (track_minimum f) (fun _ =>
      bind (check_finite_fo f) (fun _ =>
      bind (modify (set_o_conv false)) (fun _ =>
      ret f))))))))))))).
    Lemma prepare_ready ndim x0 sid h0 : prepare E C ndim x0 sid h0 = bind (reset E C sid) (fun _ => ready ndim x0 h0).
    Proof. reflexivity. Qed.
    Lemma blind_init n h0 pf : blind (init_hess n h0 pf).
    Proof.
      unfold init_hess. apply blind_get; [|reflexivity]. intros s0. destruct (o_happ s0) as [h|].
      - apply blind_bind; [apply blind_lift|intros arg]. apply blind_bind; [apply blind_lift|intros h'].
        apply blind_modify; reflexivity.
      - destruct (pf_hess pf); try apply blind_raise. apply blind_modify; reflexivity.
    Qed.
    Lemma blind_ready ndim x0 h0 : blind (ready ndim x0 h0).
    Proof.
      unfold ready.
      apply blind_bind; [apply blind_alloc|intros x].
      apply blind_bind; [apply blind_modify; reflexivity|intros _].
      destruct (Nat.ltb 1 ndim); [apply blind_raise|]. destruct (_ || _)%bool; [apply blind_raise|].
      apply blind_bind; [apply blind_nondeg|intros _].
      apply blind_get; [|reflexivity]. intros s0.
      apply blind_bind; [apply blind_in_bounds|intros _].
      apply blind_bind; [apply blind_evaluate|intros pf].
      apply blind_bind; [apply blind_init|intros _].
      apply blind_bind; [apply blind_lift|intros _].
      apply blind_bind; [apply blind_lift|intros f].
      apply blind_bind; [apply blind_modify; reflexivity|intros _].
      apply blind_bind; [apply blind_minimum|intros _].
      apply blind_bind; [apply blind_finite|intros _].
      apply blind_bind; [apply blind_modify; reflexivity|intros _].
      apply blind_ret.
    Qed.

    Lemma check_continue_cases s : check_continue E C s =
      if o_conv s then (Ok false, s)
      else if (op_maxiter O <=? o_iter s)%Z then (Ok false, set_o_flag XF_MAXITER s)
      else if op_maxtime O - (e_clock E (o_clk s) - o_starttime s)
                <? (e_clock E (o_clk s) - o_starttime s) / nofZ (o_iter s + (if (o_iter s =? 0)%Z then 1 else 0))
      then (Ok false, set_o_flag XF_MAXTIME (set_o_clk (S (o_clk s)) s))
      else if o_delta s <? spacing1 then (Ok false, set_o_flag DELTA_TOO_SMALL (set_o_clk (S (o_clk s)) s))
      else (Ok true, set_o_clk (S (o_clk s)) s).
    Proof.
      unfold check_continue, bind at 1, get. destruct (o_conv s); [reflexivity|]. destruct (_ <=? _)%Z; [reflexivity|].
      unfold bind at 1, now. cbv zeta. destruct (_ <? _); [reflexivity|]. destruct (_ <? _); reflexivity.
    Qed.
    Lemma loop_grows n : forall f s, prefix (o_evals s) (o_evals (snd (loop E C n f s))).
    Proof.
      induction n as [|n IH]; intros f s; [exists []; now rewrite app_nil_r|]. cbn [loop].
      destruct (check_continue E C s) as [[[]|e] s1] eqn:Ec; unfold bind at 1; rewrite Ec.
      - apply check_continue_true in Ec as (-> & _). unfold bind.
        match goal with |- context [iteration E C f ?t] => destruct (iteration E C f t) as [[f'|e] s2] eqn:Ei end.
        + destruct (IH f' s2) as (m2 & ->). apply iteration_frame in Ei as [[(new & G1 & _) _ _] _]. rewrite G1.
          exists (new ++ m2). cbn. now rewrite <- app_assoc.
        + apply iteration_frame in Ei as [[(new & G1 & _) _ _] _]. exists new. exact G1.
      - apply check_continue_false in Ec as (fl & k & ->). exists []. now rewrite app_nil_r.
      - exfalso. revert Ec. rewrite check_continue_cases. repeat match goal with |- (if ?b then _ else _) = _ -> _ => destruct b end; discriminate.
    Qed.
  End Pieces.

  Lemma never_late (a b : T) : (ninf - a <? b) = false.
  Proof.
    rewrite emb_ltb, emb_sub, emb_inf. destruct (emb a); cbn [er_sub er_add er_opp]; rewrite ?rnd_pinf, ?rnd_nan; destruct (emb b); reflexivity.
  Qed.

  Section Compare.
    Variables E E' : env T.
    Variable C : cfg T.
    Variables (history : option string) (maxtime : T).
    Local Notation C' := (observing history maxtime C).
    Hypothesis Hmt : op_maxtime (c_opts C) = ninf.
    Hypothesis Hnh : op_history (c_opts C) = None.
    Hypothesis Hobj : e_obj E' = e_obj E.
    Hypothesis Hla : e_la E' = e_la E.

    Lemma core_same f s : core E' C' f s = core E C f s.
    Proof using Hobj Hla. destruct E, E'. cbn in Hobj, Hla. subst. reflexivity. Qed.
    Lemma ready_same ndim x0 h0 s : ready E' C' ndim x0 h0 s = ready E C ndim x0 h0 s.
    Proof using Hobj Hla. destruct E, E'. cbn in Hobj, Hla. subst. reflexivity. Qed.

    Lemma iteration_compare f w s :
      (exists w', iteration E' C' f (obs w s) = (fst (iteration E C f s), obs w' (snd (iteration E C f s))))
      \/ (history <> None /\ exists w' f', iteration E C f s = (Ok f', snd (iteration E C f s))
            /\ iteration E' C' f (obs w s) = (Err EExternal, obs w' (snd (iteration E C f s)))).
    Proof using Hobj Hla Hnh.
      rewrite !iteration_core. unfold bind. rewrite core_same, blind_core.
      destruct (core E C f s) as [[[[a sp] fn]|e] s1]; cbn [fst snd]; [|left; exists w; reflexivity].
      replace (has_history C) with false by (unfold has_history; now rewrite Hnh).
      unfold has_history. cbn [observing c_opts op_history]. destruct history as [file|].
      2:{ left. exists w. reflexivity. }
      cbn [when]. destruct (track_history_obs E' a sp fn (obs w s1)) as (w' & [Ht|Ht]); rewrite Ht.
      - left. exists w'. reflexivity.
      - right. split; [discriminate|]. exists w', (if a then fn else f). split; reflexivity.
    Qed.

    Definition late : Prop := exists elapsed avg : T, maxtime - elapsed <? avg = true.

    Lemma loop_compare n : forall f w s, let p := loop E C n f s in let p' := loop E' C' n f (obs w s) in
      (exists w', p' = (fst p, obs w' (snd p)))
      \/ (history <> None /\ fst p' = Err EExternal /\ prefix (o_evals (snd p')) (o_evals (snd p)))
      \/ (late /\ fst p' = Ok tt /\ o_flag (snd p') = XF_MAXTIME /\ prefix (o_evals (snd p')) (o_evals (snd p))).
    Proof using L Hobj Hla Hnh Hmt.
      induction n as [|n IH]; intros f w s p p'.
      { left. exists w. reflexivity. }
      subst p p'.
      pose proof (loop_grows E C (S n) f s) as G. cbn [loop] in *. revert G. unfold bind.
      rewrite !check_continue_cases. rewrite Hmt, never_late. cbv iota.
      change (o_conv (obs w s)) with (o_conv s). change (o_iter (obs w s)) with (o_iter s). change (o_delta (obs w s)) with (o_delta s).
      change (op_maxiter (c_opts C')) with (op_maxiter (c_opts C)). change (op_maxtime (c_opts C')) with maxtime.
      destruct (o_conv s); [intros _; left; exists w; reflexivity|].
      destruct (_ <=? _)%Z; [intros _; left; exists w; reflexivity|].
      match goal with |- context [if ?b then (Ok false, set_o_flag XF_MAXTIME _) else _] => destruct b eqn:El end.
      { intros G. right. right. split; [eexists; eexists; exact El|]. cbn [fst snd ret]. split; [reflexivity|]. split; [reflexivity|].
        exact G. }
      destruct (o_delta s <? spacing1).
      { intros _. left. exists (watch_of (set_o_clk (S (o_clk (obs w s))) (obs w s))). reflexivity. }
      intros _. set (s2 := set_o_clk (S (o_clk s)) s).
      set (w2 := watch_of (set_o_clk (S (o_clk (obs w s))) (obs w s))).
      change (set_o_clk (S (o_clk (obs w s))) (obs w s)) with (obs w2 s2).
      destruct (iteration_compare f w2 s2) as [(w' & Hi)|(Hh & w' & f' & H1 & H2)].
      - rewrite Hi. destruct (iteration E C f s2) as [[f'|e] s3]; cbn [fst snd].
        + apply IH.
        + left. exists w'. reflexivity.
      - rewrite H2. rewrite H1. right. left. split; [exact Hh|]. cbn [fst snd]. split; [reflexivity|].
        change (o_evals (obs w' (snd (iteration E C f s2)))) with (o_evals (snd (iteration E C f s2))). apply loop_grows.
    Qed.

    Lemma write_compare s :
      (exists w, write_history C' s = (Ok tt, obs w s)) \/ (history <> None /\ write_history C' s = (Err EExternal, s)).
    Proof.
      unfold write_history. cbn [observing c_opts op_history]. destruct history as [file|].
      - unfold bind, get. destruct (existsb _ _).
        + right. split; [discriminate|reflexivity].
        + left. exists (watch_of (snd (modify (fun st => set_o_files (o_files st ++ [((file, o_start_id st), o_hist st)]) st) s))). reflexivity.
      - left. exists (watch_of s). destruct s. reflexivity.
    Qed.
    Lemma same_trans a b c : same_optimization a b -> same_optimization b c -> same_optimization a c.
    Proof. intros [] []. constructor; congruence. Qed.

    Lemma reset_compare sid sid' w s : exists w' s1,
      reset E C sid s = (Ok tt, s1) /\ reset E' C' sid' (obs w s) = (Ok tt, obs w' s1).
    Proof.
      rewrite !reset_run. exists (watch_of (pr_s0 E' C' sid' (obs w s))). eexists. split; [reflexivity|]. f_equal.
      apply same_obs. unfold pr_s0. destruct (pr_id sid), (pr_id sid'); constructor; reflexivity.
    Qed.

    Theorem C57_observers fuel ndim x0 sid sid' h0 st st' : same_optimization st st' ->
      let p := minimize E C fuel ndim x0 sid h0 st in
      let p' := minimize E' C' fuel ndim x0 sid' h0 st' in
      (fst p' = fst p /\ same_optimization (snd p) (snd p'))
      \/ (history <> None /\ fst p' = Err EExternal /\ prefix (o_evals (snd p')) (o_evals (snd p)))
      \/ ((exists elapsed avg : T, maxtime - elapsed <? avg = true)
          /\ (exists r, fst p' = Ok r) /\ o_flag (snd p') = XF_MAXTIME /\ prefix (o_evals (snd p')) (o_evals (snd p))).
    Proof using L Hobj Hla Hnh Hmt.
      intros HS p p'. subst p p'. apply same_obs in HS. rewrite HS. generalize (watch_of st'). clear st' HS. intros w.
      unfold minimize. rewrite !prepare_ready. unfold bind.
      destruct (reset_compare sid sid' w st) as (w1 & s1 & -> & ->).
      rewrite !ready_same. rewrite (blind_ready E C ndim x0 h0 w1 s1).
      destruct (ready E C ndim x0 h0 s1) as [[f|e] s2]; cbn [fst snd].
      2:{ left. split; [reflexivity|apply obs_same]. }
      assert (HC : write_history C = ret tt) by (unfold write_history; now rewrite Hnh).
      rewrite HC. pose proof (loop_compare fuel f w1 s2) as LC. cbv zeta in LC.
      destruct (loop E C fuel f s2) as [[[]|e] s3]; destruct (loop E' C' fuel f (obs w1 s2)) as [[[]|e'] s3']; cbn [fst snd] in LC |- *.
      - destruct LC as [(w' & H)|[(_ & H & _)|(Hl & _ & Hf & Hp)]]; [|discriminate H|].
        + apply pair_equal_spec in H as [_ ->].
          destruct (write_compare (obs w' s3)) as [(w2 & ->)|(Hh & ->)]; cbn [fst snd ret get].
          * left. split; [reflexivity|]. apply (same_trans _ (obs w' s3)); apply obs_same.
          * right. left. split; [exact Hh|]. split; [reflexivity|]. exists []. now rewrite app_nil_r.
        + destruct (write_compare s3') as [(w2 & ->)|(Hh & ->)]; cbn [fst snd ret get].
          * right. right. split; [exact Hl|]. split; [eexists; reflexivity|]. split; [exact Hf|exact Hp].
          * right. left. split; [exact Hh|]. split; [reflexivity|exact Hp].
      - destruct LC as [(w' & H)|[(Hh & H & Hp)|(Hl & H & Hf & Hp)]]; [discriminate H| |discriminate H].
        right. left. split; [exact Hh|]. split; [congruence|exact Hp].
      - destruct LC as [(w' & H)|[(Hh & H & Hp)|(Hl & H & Hf & Hp)]]; [discriminate H|discriminate H|].
        destruct (write_compare s3') as [(w2 & ->)|(Hh & ->)]; cbn [fst snd ret get].
        + right. right. split; [exact Hl|]. split; [eexists; reflexivity|]. split; [exact Hf|exact Hp].
        + right. left. split; [exact Hh|]. split; [reflexivity|exact Hp].
      - destruct LC as [(w' & H)|[(Hh & H & Hp)|(Hl & H & Hf & Hp)]]; [| |discriminate H].
        + apply pair_equal_spec in H as [H ->]. left. split; [congruence|apply obs_same].
        + right. left. split; [exact Hh|]. split; [congruence|exact Hp].
    Qed.
  End Compare.

  (** without a time limit and without a history file: nothing but the problem decides the run *)
  Corollary C57_clock_and_names_do_not_matter E E' C fuel ndim x0 sid sid' h0 st st' :
    op_maxtime (c_opts C) = ninf -> op_history (c_opts C) = None ->
    e_obj E' = e_obj E -> e_la E' = e_la E -> same_optimization st st' ->
    fst (minimize E' C fuel ndim x0 sid' h0 st') = fst (minimize E C fuel ndim x0 sid h0 st)
    /\ same_optimization (snd (minimize E C fuel ndim x0 sid h0 st)) (snd (minimize E' C fuel ndim x0 sid' h0 st')).
  Proof.
    intros Hmt Hnh Ho Hl Hs.
    destruct (C57_observers E E' C None ninf Hmt Hnh Ho Hl fuel ndim x0 sid sid' h0 st st' Hs) as [H|[(H & _)|((e & a & H) & _)]].
    - replace (observing None ninf C) with C in H; [exact H|]. destruct C as [[] lb ub no rf]. cbn in *. subst. reflexivity.
    - now contradict H.
    - now rewrite never_late in H.
  Qed.

  (** a history file on top: the same result, unless recording or writing raises *)
  Corollary C57_history_file E E' C file fuel ndim x0 sid sid' h0 st st' :
    op_maxtime (c_opts C) = ninf -> op_history (c_opts C) = None ->
    e_obj E' = e_obj E -> e_la E' = e_la E -> same_optimization st st' ->
    let p := minimize E C fuel ndim x0 sid h0 st in
    let p' := minimize E' (observing (Some file) ninf C) fuel ndim x0 sid' h0 st' in
    (fst p' = fst p /\ same_optimization (snd p) (snd p')) \/ fst p' = Err EExternal.
  Proof.
    intros Hmt Hnh Ho Hl Hs.
    destruct (C57_observers E E' C (Some file) ninf Hmt Hnh Ho Hl fuel ndim x0 sid sid' h0 st st' Hs) as [H|[(_ & H & _)|((e & a & H) & _)]].
    - left. exact H.
    - right. exact H.
    - now rewrite never_late in H.
  Qed.
End Observers.

(** non-vacuity, in doubles: the default options have no time limit and no history file; a run from (30, 40) makes several evaluations;
    the same run with a history file returns too and writes one group; with a time limit of 3 ticks of the clock it stops early with
    flag MAXTIME; and all three possibilities of C57_observers occur (a group that exists already makes the run raise) *)
Definition observed (history : option string) (maxtime : F64) (st : opt F64) :=
  minimize (world sumsq) (observing history maxtime (fst (free 2 []))) 20 1 [fz 30; fz 40] None H0None st.
Example C57_ex : let p := free 2 [] in
  op_maxtime (c_opts (fst p)) = ninf /\ op_history (c_opts (fst p)) = None
  /\ (exists fv x g h s, run_of sumsq p 20 [fz 30; fz 40] = (Ok (fv, x, g, h), s)
        /\ Nat.ltb 5 (List.length (o_evals s)) && Nat.eqb (List.length (o_files s)) 0 = true)
  /\ (exists fv x g h s, observed (Some "h.h5"%string) ninf (snd p) = (Ok (fv, x, g, h), s)
        /\ Nat.ltb 5 (List.length (o_evals s)) && Nat.eqb (List.length (o_files s)) 1 = true)
  /\ (exists e s, observed (Some "h.h5"%string) ninf (set_o_files [(("h.h5"%string, "id"%string), [])] (snd p)) = (Err e, s)
        /\ match e with EExternal => true | _ => false end = true)
  /\ (exists fv x g h s, observed None (fz 4) (snd p) = (Ok (fv, x, g, h), s)
        /\ Nat.eqb (List.length (o_evals s)) 3 && eqflag (o_flag s) XF_MAXTIME = true).
Proof.
  cbv zeta. split; [reflexivity|]. split; [reflexivity|].
  split; [apply (ok_witness (fun _ _ _ _ s => Nat.ltb 5 (List.length (o_evals s)) && Nat.eqb (List.length (o_files s)) 0)); vm_compute; reflexivity|].
  split; [apply (ok_witness (fun _ _ _ _ s => Nat.ltb 5 (List.length (o_evals s)) && Nat.eqb (List.length (o_files s)) 1)); vm_compute; reflexivity|].
  split; [apply (err_witness (fun e s => match e with EExternal => true | _ => false end)); vm_compute; reflexivity|].
  apply (ok_witness (fun _ _ _ _ s => Nat.eqb (List.length (o_evals s)) 3 && eqflag (o_flag s) XF_MAXTIME)); vm_compute; reflexivity.
Qed.
