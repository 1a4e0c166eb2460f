(** C64: the stopping criteria only decide when to stop.
    Two optimizers that differ in maxiter, maxtime and the tolerances walk along the same trajectory; tighter criteria continue it. *)
From Coq Require Import String ZArith List Bool Lia Reals Lra.
From Verif Require Import Num Constants Subproblem HessApprox Steps TrustRegion Minimize
  ER NumFacts MonadFacts MinFacts Spec Run RunInv RunFrame Prop_Run Prop_Observers F64 Witness.
Import ListNotations.
Local Open Scope list_scope.
Local Open Scope num_scope.

Local Lemma rleb a b : (a <= b)%R -> Rleb a b = true.
Proof. intros H. destruct (Rleb_spec a b); [reflexivity|contradiction]. Qed.

Section Stopping.
  Context {T : Type} {N : Num T} {L : NumLaws T}.
  Local Notation vec := (list T).
  Local Notation mat := (list (list T)).
  Local Notation opt := (opt T).
  Local Notation M := (M T).

  (** ** Vocabulary of the statement *)
  (** the options that say when to stop *)
  Record criteria := mkCriteria {
    k_maxiter : Z; k_maxtime : T; k_fatol : T; k_frtol : T; k_xtol : T; k_gatol : T; k_grtol : T
  }.
  Definition criteria_of (C : cfg T) : criteria :=
    let o := c_opts C in
    mkCriteria (op_maxiter o) (op_maxtime o) (op_fatol o) (op_frtol o) (op_xtol o) (op_gatol o) (op_grtol o).
  (** the same optimizer with other stopping criteria *)
  Definition stopping_at (k : criteria) (C : cfg T) : cfg T :=
    let o := c_opts C in
    mkCfg (mkOpts (k_maxiter k) (k_maxtime k) (k_fatol k) (k_frtol k) (k_xtol k) (k_gatol k) (k_grtol k)
             (op_subspace_dim o) (op_stepback o) (op_theta_max o) (op_delta_init o) (op_mu o) (op_eta o)
             (op_gamma1 o) (op_gamma2 o) (op_history o))
          (c_lb C) (c_ub C) (c_nargout C) (c_resfun C).
  (** [k'] never asks to stop earlier than [k] *)
  Record tighter (k k' : criteria) : Prop := mkTighter {
    tg_maxiter : (k_maxiter k <= k_maxiter k')%Z;
    tg_maxtime : k_maxtime k <=? k_maxtime k' = true;
    tg_fatol : k_fatol k' <=? k_fatol k = true;
    tg_frtol : k_frtol k' <=? k_frtol k = true;
    tg_xtol : k_xtol k' <=? k_xtol k = true;
    tg_gatol : k_gatol k' <=? k_gatol k = true;
    tg_grtol : k_grtol k' <=? k_grtol k = true;
    tg_fin : nisfin (k_fatol k) = true /\ nisfin (k_fatol k') = true /\ nisfin (k_frtol k) = true /\ nisfin (k_frtol k') = true
             /\ nisfin (k_grtol k) = true /\ nisfin (k_grtol k') = true
  }.
  (** two optimizer objects differ at most in the attributes converged and exitflag *)
  Definition same_but_exit (s s' : opt) : Prop := s' = set_o_conv (o_conv s') (set_o_flag (o_flag s') s).

  (** ** Proof *)
  Definition sgn (c : bool) (fl : exit_flag) (s : opt) : opt := set_o_conv c (set_o_flag fl s).
  Lemma sgn_same c fl s : same_but_exit s (sgn c fl s).
  Proof. reflexivity. Qed.
  Lemma same_sgn s s' : same_but_exit s s' -> s' = sgn (o_conv s') (o_flag s') s.
  Proof. exact (fun H => H). Qed.

  (** neither reads converged and exitflag nor writes converged *)
  Definition alike {A} (m : M A) : Prop :=
    forall s, o_conv (snd (m s)) = o_conv s
      /\ forall c fl, exists fl', m (sgn c fl s) = (fst (m s), sgn c fl' (snd (m s))).
  Lemma alike_ret {A} (a : A) : alike (ret a).
  Proof. intros s. split; [reflexivity|]. intros c fl. exists fl. reflexivity. Qed.
  Lemma alike_raise {A} e : alike (raise (A := A) e).
  Proof. intros s. split; [reflexivity|]. intros c fl. exists fl. reflexivity. Qed.
  Lemma alike_lift {A} (r : res A) : alike (lift r).
  Proof. intros s. rewrite lift_run. split; [reflexivity|]. intros c fl. exists fl. rewrite lift_run. reflexivity. Qed.
  Lemma alike_modify f : (forall s, o_conv (f s) = o_conv s) -> (forall c fl s, f (sgn c fl s) = sgn c fl (f s)) -> alike (modify f).
  Proof. intros H1 H2 s. split; [apply H1|]. intros c fl. exists fl. unfold modify. cbn. now rewrite H2. Qed.
  Lemma alike_bind {A B} (m : M A) (f : A -> M B) : alike m -> (forall a, alike (f a)) -> alike (bind m f).
  Proof.
    intros Hm Hf s. unfold bind. destruct (Hm s) as (H1 & H2). destruct (m s) as [[a|e] s1] eqn:Em; cbn [fst snd] in *.
    - destruct (Hf a s1) as (H3 & H4). split; [congruence|]. intros c fl. destruct (H2 c fl) as (fl1 & ->).
      destruct (H4 c fl1) as (fl2 & ->). exists fl2. reflexivity.
    - split; [exact H1|]. intros c fl. destruct (H2 c fl) as (fl1 & ->). exists fl1. reflexivity.
  Qed.
  Lemma alike_get {B} (f : opt -> M B) :
    (forall s0, alike (f s0)) -> (forall c fl s0 s, f (sgn c fl s0) s = f s0 s) -> alike (bind get f).
  Proof.
    intros H1 H2 s. unfold bind, get. destruct (H1 s s) as (H3 & H4). split; [exact H3|].
    intros c fl. rewrite H2. apply H4.
  Qed.
  Lemma alike_when b (m : M unit) : alike m -> alike (when b m).
  Proof. intros H. destruct b; [exact H|apply alike_ret]. Qed.

  Section Pieces.
    Variable E : env T.
    Variable C : cfg T.
    Local Notation O := (c_opts C).

    Lemma alike_alloc v : alike (alloc v).
    Proof. intros s. split; [reflexivity|]. intros c fl. exists fl. reflexivity. Qed.
    Lemma alike_evaluate x : alike (evaluate E C x).
    Proof. intros s. split; [reflexivity|]. intros c fl. exists fl. reflexivity. Qed.
    Lemma alike_nondeg : alike (make_non_degenerate C).
    Proof. intros s. split; [reflexivity|]. intros c fl. exists fl. reflexivity. Qed.
    Lemma alike_in_bounds x : alike (check_in_bounds C x).
    Proof.
      intros s. unfold check_in_bounds. destruct in_bounds; (split; [reflexivity|]); intros c fl; eexists; reflexivity.
    Qed.
    Lemma alike_finite fv g h : alike (check_finite fv g h).
    Proof.
      intros s. rewrite check_finite_run. destruct all_finite eqn:Ea; (split; [reflexivity|]); intros c fl; eexists; rewrite check_finite_run, Ea; reflexivity.
    Qed.
    Lemma alike_finite_self : alike check_finite_self.
    Proof. unfold check_finite_self. apply alike_get; [intros; apply alike_finite|reflexivity]. Qed.
    Lemma alike_minimum f : alike (track_minimum f).
    Proof.
      apply alike_modify.
      - intros s. destruct (_ && _); reflexivity.
      - intros c fl s. change (o_fval_min (sgn c fl s)) with (o_fval_min s). destruct (_ && _); reflexivity.
    Qed.
    Lemma alike_radius f sp dv : alike (update_tr_radius C f sp dv).
    Proof.
      unfold update_tr_radius. apply alike_get; [|reflexivity]. intros s0. cbv zeta.
      apply alike_bind; [apply alike_modify; reflexivity|intros _].
      destruct (negb _).
      { apply alike_bind; [apply alike_modify; reflexivity|intros _; apply alike_ret]. }
      apply alike_bind; [apply alike_modify; reflexivity|intros _].
      apply alike_bind; [|intros _; apply alike_ret].
      repeat match goal with |- alike (if ?b then _ else _) => destruct b end;
        try (apply alike_modify; reflexivity); apply alike_ret.
    Qed.
    Lemma alike_update sp fn fo : alike (update C sp fn fo).
    Proof.
      unfold update. apply alike_get; [|reflexivity]. intros s0. apply alike_bind.
      - destruct (o_happ s0) as [h|].
        + apply alike_bind; [apply alike_lift|intros h']. apply alike_modify; reflexivity.
        + destruct (fo_hess fn); [apply alike_modify; reflexivity|apply alike_raise].
      - intros _. apply alike_bind; [apply alike_in_bounds|intros _]. apply alike_bind; [apply alike_modify; reflexivity|intros _].
        apply alike_nondeg.
    Qed.
    Lemma alike_track a sp f : alike (track_history E a sp f).
    Proof.
      unfold track_history. apply alike_get; [|reflexivity]. intros s0. cbv zeta.
      repeat (apply alike_bind; [apply alike_lift|intros ?]).
      apply alike_modify; reflexivity.
    Qed.

    (** an iteration up to the test for convergence, and after it *)
    Definition before (funout : fout T) : M (bool * step T * fout T) :=
      bind (modify (fun st => set_o_iter (o_iter st + 1)%Z st)) (fun _ =>
      bind (modify (fun st => set_o_delta_iter (o_delta st) st)) (fun _ =>
      bind get (fun st =>
      let x := deref st (o_x st) in
      let vdv := affine_scaling x (o_grad st) (c_lb C) (c_ub C) in
      let v := map fst vdv in
      let dv := map snd vdv in
      let scaling := map (fun a => nsqrt (nabs a)) v in
      let theta := pymax (op_theta_max O) (n1 - norm_inf (vmul v (o_grad st))) in
      bind check_finite_self (fun _ =>
      bind (lift (sp <-- trust_region (e_la E) x (o_grad st) (o_hess st) scaling (o_delta_iter st) dv
                         theta (c_lb C) (c_ub C) (op_subspace_dim O) (op_stepback O) ;;
                check_shape x sp)%res) (fun sp =>
      bind (alloc (vadd (vadd x (st_s sp)) (st_s0 sp))) (fun xn =>
      bind (evaluate E C xn) (fun pf =>
      bind (lift (typed_fout (List.length x) pf xn)) (fun fnew =>
      bind (when (nisfin (fo_fval fnew)) (check_finite_fo fnew)) (fun _ =>
      bind (update_tr_radius C fnew sp dv) (fun accepted =>
      ret (accepted, sp, fnew))))))))))).
    Definition after (funout : fout T) (r : bool * step T * fout T) : M (fout T) :=
      let '(a, sp, fn) := r in
      bind (track_minimum fn) (fun _ =>
      bind (when a (update C sp fn funout)) (fun _ =>
      bind (when (has_history C) (track_history E a sp fn)) (fun _ =>
      ret (if a then fn else funout)))).
    Lemma iteration_split f s : iteration E C f s =
      bind (before f) (fun r => bind (check_convergence C (snd (fst r)) (snd r)) (fun _ => after f r)) s.
    Proof.
      unfold iteration, before. cbv zeta.
      repeat (rewrite bind_assoc; apply bind_ext; intros ? ?). reflexivity.
    Qed.
    Lemma alike_before f : alike (before f).
    Proof.
      unfold before. cbv zeta.
      apply alike_bind; [apply alike_modify; reflexivity|intros _].
      apply alike_bind; [apply alike_modify; reflexivity|intros _].
      apply alike_get; [|reflexivity]. intros s0.
      apply alike_bind; [apply alike_finite_self|intros _].
      apply alike_bind; [apply alike_lift|intros sp].
      apply alike_bind; [apply alike_alloc|intros xn].
      apply alike_bind; [apply alike_evaluate|intros pf].
      apply alike_bind; [apply alike_lift|intros fn].
      apply alike_bind; [apply alike_when, alike_finite|intros _].
      apply alike_bind; [apply alike_radius|intros a].
      apply alike_ret.
    Qed.
    Lemma alike_after f r : alike (after f r).
    Proof.
      destruct r as [[a sp] fn]. unfold after.
      apply alike_bind; [apply alike_minimum|intros _].
      apply alike_bind; [apply alike_when, alike_update|intros _].
      apply alike_bind; [apply alike_when, alike_track|intros _].
      apply alike_ret.
    Qed.
    (** the value of the current point stays until the update *)
    Definition holds_fval {A} (m : M A) : Prop := forall s, o_fval (snd (m s)) = o_fval s.
    Lemma hf_bind {A B} (m : M A) (f : A -> M B) : holds_fval m -> (forall a, holds_fval (f a)) -> holds_fval (bind m f).
    Proof.
      intros Hm Hf s. unfold bind. pose proof (Hm s) as H. destruct (m s) as [[a|e] s1]; cbn [fst snd] in *; [|exact H].
      rewrite Hf. exact H.
    Qed.
    Lemma hf_get {B} (f : opt -> M B) : (forall s0, holds_fval (f s0)) -> holds_fval (bind get f).
    Proof. intros H s. unfold bind, get. apply H. Qed.
    Lemma hf_lift {A} (r : res A) : holds_fval (lift r).
    Proof. intros s. now rewrite lift_run. Qed.
    Lemma hf_finite fv g h : holds_fval (check_finite fv g h).
    Proof. intros s. rewrite check_finite_run. destruct all_finite; reflexivity. Qed.
    Lemma hf_before f : holds_fval (before f).
    Proof.
      unfold before. cbv zeta.
      apply hf_bind; [intros s; reflexivity|intros _]. apply hf_bind; [intros s; reflexivity|intros _].
      apply hf_get. intros s0. apply hf_bind; [unfold check_finite_self; apply hf_get; intros; apply hf_finite|intros _].
      apply hf_bind; [apply hf_lift|intros sp]. apply hf_bind; [intros s; reflexivity|intros xn].
      apply hf_bind; [intros s; reflexivity|intros pf]. apply hf_bind; [apply hf_lift|intros fn].
      apply hf_bind; [|intros _].
      { destruct (nisfin (fo_fval fn)); [apply hf_finite|intros s; reflexivity]. }
      apply hf_bind; [|intros a s; reflexivity]. intros s. rewrite update_tr_radius_run. reflexivity.
    Qed.
  End Pieces.

  (** *** the criteria are monotone *)
  Lemma er_lt_mono a b c : er_ltb a b = true -> er_leb b c = true -> er_ltb a c = true.
  Proof. apply er_lt_le_trans. Qed.
  Lemma er_mul_mono a b y : er_leb a b = true -> er_isfin a = true -> er_isfin b = true -> er_isfin y = true ->
    er_leb (er_mul a (er_abs y)) (er_mul b (er_abs y)) = true.
  Proof.
    destruct a, b, y; simpl; try discriminate. intros H _ _ _. apply rleb. destruct (Rleb_spec r r0); [|discriminate].
    apply Rmult_le_compat_r; [apply Rabs_pos|lra].
  Qed.
  Lemma er_add_mono a b p q : er_leb a b = true -> er_isfin a = true -> er_isfin b = true -> er_leb p q = true ->
    er_leb (er_add a p) (er_add b q) = true.
  Proof.
    destruct a, b, p, q; simpl; try discriminate; try reflexivity. intros H _ _ H2.
    destruct (Rleb_spec r r0); [|discriminate]. destruct (Rleb_spec r1 r2); [|discriminate]. apply rleb. lra.
  Qed.
  Lemma rel_mono (a b y : T) : a <=? b = true -> nisfin a = true -> nisfin b = true -> nisfin y = true ->
    a * nabs y <=? b * nabs y = true.
  Proof.
    rewrite !emb_leb, !emb_isfin, !emb_mul, !emb_abs. intros H1 H2 H3 H4. apply rnd_mono. now apply er_mul_mono.
  Qed.
  Lemma sum_mono (a b p q : T) : a <=? b = true -> nisfin a = true -> nisfin b = true -> p <=? q = true ->
    a + p <=? b + q = true.
  Proof. rewrite !emb_leb, !emb_isfin, !emb_add. intros H1 H2 H3 H4. apply rnd_mono. now apply er_add_mono. Qed.
  Lemma late_mono (m m' e a : T) : m <=? m' = true -> m' - e <? a = true -> m - e <? a = true.
  Proof.
    rewrite emb_leb, !emb_ltb, !emb_sub. intros H1 H2.
    destruct (er_isnan (er_sub (emb m') (emb e))) eqn:En'.
    { destruct (er_sub (emb m') (emb e)); try discriminate. rewrite rnd_nan in H2. discriminate. }
    destruct (er_isnan (er_sub (emb m) (emb e))) eqn:En.
    - exfalso. revert H1 H2 En En'. destruct (emb m), (emb m'), (emb e); cbn; try discriminate;
        rewrite ?rnd_pinf, ?rnd_nan; destruct (emb a); cbn; discriminate.
    - apply (er_le_lt_trans _ (rnd (er_sub (emb m') (emb e)))); [|exact H2]. apply rnd_mono.
      revert H1 En En'. destruct (emb m), (emb m'), (emb e); cbn; try discriminate; try reflexivity.
      intros H _ _. destruct (Rleb_spec r r0); [|discriminate]. apply rleb. lra.
  Qed.

  Section Compare.
    Variable E : env T.
    Variable C : cfg T.
    Variable k : criteria.
    Local Notation C' := (stopping_at k C).

    Lemma before_same f : before E C' f = before E C f.
    Proof. reflexivity. Qed.
    Lemma after_same f r : after E C' f r = after E C f r.
    Proof. reflexivity. Qed.
    Lemma ready_same' : ready E C' = ready E C.
    Proof. reflexivity. Qed.
    Lemma reset_same sid : reset E C' sid = reset E C sid.
    Proof. reflexivity. Qed.
    Lemma prepare_same ndim x0 sid h0 : prepare E C' ndim x0 sid h0 = prepare E C ndim x0 sid h0.
    Proof. rewrite !prepare_ready, reset_same, ready_same'. reflexivity. Qed.
    Lemma write_same : write_history C' = write_history C.
    Proof. reflexivity. Qed.

    Lemma conv_mono s c fl sp f : tighter (criteria_of C) k -> nisfin (o_fval s) = true ->
      osome (conv_result C' (sgn c fl s) sp f) = true -> osome (conv_result C s sp f) = true.
    Proof using L.
      intros [_ _ H1 H2 H3 H4 H5 (F1 & F2 & F3 & F4 & F5 & F6)] Hf. cbn [criteria_of k_fatol k_frtol k_xtol k_gatol k_grtol] in *.
      unfold conv_result.
      change (o_tr_ratio (sgn c fl s)) with (o_tr_ratio s). change (o_fval (sgn c fl s)) with (o_fval s).
      change (o_iter (sgn c fl s)) with (o_iter s).
      cbn [stopping_at c_opts op_mu op_fatol op_frtol op_xtol op_gatol op_grtol].
      destruct (op_mu (c_opts C) <? o_tr_ratio s); cbn [andb].
      - destruct (nabs (fo_fval f - o_fval s) <? op_fatol (c_opts C) + op_frtol (c_opts C) * nabs (o_fval s)) eqn:Ea; [reflexivity|].
        destruct (nabs (fo_fval f - o_fval s) <? k_fatol k + k_frtol k * nabs (o_fval s)) eqn:Eb.
        { rewrite (lt_le_trans _ _ _ Eb) in Ea; [discriminate|]. apply sum_mono; auto. apply rel_mono; auto. }
        destruct (1 <? o_iter s)%Z; cbn [andb].
        + destruct (norm (vadd (st_ss sp) (st_ss0 sp)) <? op_xtol (c_opts C)) eqn:Ex; [reflexivity|].
          destruct (norm (vadd (st_ss sp) (st_ss0 sp)) <? k_xtol k) eqn:Ex'.
          { rewrite (lt_le_trans _ _ _ Ex' H3) in Ex. discriminate. }
          destruct (norm (fo_grad f) <=? op_gatol (c_opts C)) eqn:Eg; [reflexivity|].
          destruct (norm (fo_grad f) <=? k_gatol k) eqn:Eg'.
          { rewrite (le_trans _ _ _ Eg' H4) in Eg. discriminate. }
          destruct (norm (fo_grad f) <=? op_grtol (c_opts C) * nabs (o_fval s)) eqn:Er; [reflexivity|].
          destruct (norm (fo_grad f) <=? k_grtol k * nabs (o_fval s)) eqn:Er'; [|discriminate].
          rewrite (le_trans _ _ _ Er' (rel_mono _ _ _ H5 F6 F5 Hf)) in Er. discriminate.
        + destruct (norm (fo_grad f) <=? op_gatol (c_opts C)) eqn:Eg; [reflexivity|].
          destruct (norm (fo_grad f) <=? k_gatol k) eqn:Eg'.
          { rewrite (le_trans _ _ _ Eg' H4) in Eg. discriminate. }
          destruct (norm (fo_grad f) <=? op_grtol (c_opts C) * nabs (o_fval s)) eqn:Er; [reflexivity|].
          destruct (norm (fo_grad f) <=? k_grtol k * nabs (o_fval s)) eqn:Er'; [|discriminate].
          rewrite (le_trans _ _ _ Er' (rel_mono _ _ _ H5 F6 F5 Hf)) in Er. discriminate.
      - destruct (1 <? o_iter s)%Z; cbn [andb].
        + destruct (norm (vadd (st_ss sp) (st_ss0 sp)) <? op_xtol (c_opts C)) eqn:Ex; [reflexivity|].
          destruct (norm (vadd (st_ss sp) (st_ss0 sp)) <? k_xtol k) eqn:Ex'.
          { rewrite (lt_le_trans _ _ _ Ex' H3) in Ex. discriminate. }
          destruct (norm (fo_grad f) <=? op_gatol (c_opts C)) eqn:Eg; [reflexivity|].
          destruct (norm (fo_grad f) <=? k_gatol k) eqn:Eg'.
          { rewrite (le_trans _ _ _ Eg' H4) in Eg. discriminate. }
          destruct (norm (fo_grad f) <=? op_grtol (c_opts C) * nabs (o_fval s)) eqn:Er; [reflexivity|].
          destruct (norm (fo_grad f) <=? k_grtol k * nabs (o_fval s)) eqn:Er'; [|discriminate].
          rewrite (le_trans _ _ _ Er' (rel_mono _ _ _ H5 F6 F5 Hf)) in Er. discriminate.
        + destruct (norm (fo_grad f) <=? op_gatol (c_opts C)) eqn:Eg; [reflexivity|].
          destruct (norm (fo_grad f) <=? k_gatol k) eqn:Eg'.
          { rewrite (le_trans _ _ _ Eg' H4) in Eg. discriminate. }
          destruct (norm (fo_grad f) <=? op_grtol (c_opts C) * nabs (o_fval s)) eqn:Er; [reflexivity|].
          destruct (norm (fo_grad f) <=? k_grtol k * nabs (o_fval s)) eqn:Er'; [|discriminate].
          rewrite (le_trans _ _ _ Er' (rel_mono _ _ _ H5 F6 F5 Hf)) in Er. discriminate.
    Qed.

    Lemma iteration_compare' f c fl s : exists c' fl',
      iteration E C' f (sgn c fl s) = (fst (iteration E C f s), sgn c' fl' (snd (iteration E C f s)))
      /\ (tighter (criteria_of C) k -> nisfin (o_fval s) = true ->
          forall g, fst (iteration E C f s) = Ok g -> c' = true -> o_conv (snd (iteration E C f s)) = true).
    Proof using L.
      rewrite !iteration_split. unfold bind. rewrite before_same.
      pose proof (alike_before E C f s) as (B1 & B2). pose proof (hf_before E C f s) as B3.
      destruct (B2 c fl) as (fl1 & E1).
      destruct (before E C f s) as [[r|e] s1]; cbn [fst snd] in *; rewrite E1.
      2:{ exists c, fl1. split; [reflexivity|]. intros _ _ g H. cbn in H. discriminate. }
      rewrite !check_convergence_run.
      set (s2 := set_o_conv _ (set_o_flag _ s1)).
      pose proof (alike_after E C f r s2) as (A1 & A2).
      match goal with |- context [after E C' f r ?t] => set (t2 := t) end.
      assert (Et : t2 = sgn (o_conv t2) (o_flag t2) s2) by reflexivity.
      rewrite after_same, Et. destruct (A2 (o_conv t2) (o_flag t2)) as (fl3 & ->).
      exists (o_conv t2), fl3. split; [reflexivity|].
      intros Ht Hf g Hg Hc. rewrite A1. apply (conv_mono s1 c fl1 (snd (fst r)) (snd r) Ht); [congruence|].
      exact Hc.
    Qed.

    Section Heads.
      Variables (ndim : nat) (x0 : vec) (sid : option string) (h0 : hess0_arg T) (st : opt).
      Local Notation head := (loop_head E C ndim x0 sid h0 st).
      Local Notation head' := (loop_head E C' ndim x0 sid h0 st).

      Lemma continue_sgn c fl s s1 t1 : check_continue E C s = (Ok true, s1) -> check_continue E C' (sgn c fl s) = (Ok true, t1) ->
        t1 = sgn c fl s1.
      Proof using.
        intros H1 H2. apply check_continue_true in H1 as (-> & _). apply check_continue_true in H2 as (-> & _). reflexivity.
      Qed.
      Lemma iteration_counts C0 f s f' s' : iteration E C0 f s = (Ok f', s') -> o_iter s' = (o_iter s + 1)%Z.
      Proof using. intros H. apply iteration_ok in H as (sp & fn & K). apply (ik_iter _ _ _ _ _ _ _ _ K). Qed.
      Lemma head_first C0 f s : loop_head E C0 ndim x0 sid h0 st f s ->
        (prepare E C0 ndim x0 sid h0 st = (Ok f, s) /\ o_iter s = 0%Z) \/
        (exists f1 s1 s2, loop_head E C0 ndim x0 sid h0 st f1 s1 /\ check_continue E C0 s1 = (Ok true, s2)
            /\ iteration E C0 f1 s2 = (Ok f, s) /\ o_iter s = (o_iter s1 + 1)%Z /\ (0 <= o_iter s1)%Z).
      Proof using L.
        intros H. destruct H as [f s H|f s s1 f' s' H1 H2 H3].
        - left. split; [exact H|]. pose proof (loop_head_Inv E C0 _ _ _ _ _ _ _ (lh_start _ _ _ _ _ _ _ _ _ H)) as I.
          destruct (iv_iter _ _ _ _ _ _ _ I) as (J1 & _).
          apply prepare_frame in H as [_ H]. exact H.
        - right. exists f, s, s1. split; [exact H1|]. split; [exact H2|]. split; [exact H3|].
          apply iteration_counts in H3. apply check_continue_true in H2 as (-> & _). split; [exact H3|].
          apply (iv_iter _ _ _ _ _ _ _ (loop_head_Inv E C0 _ _ _ _ _ _ _ H1)).
      Qed.

      Theorem C64_same_trajectory f s : head f s -> forall f' s', head' f' s' -> o_iter s' = o_iter s -> f' = f /\ same_but_exit s s'.
      Proof using L.
        induction 1 as [f s H|f s s1 f1 s2 H1 IH H2 H3]; intros f' s' H' Hi.
        - assert (Hz : o_iter s = 0%Z).
          { destruct (head_first C f s (lh_start _ _ _ _ _ _ _ _ _ H)) as [(_ & Z)|(? & ? & ? & _ & _ & _ & _ & _)]; [exact Z|].
            apply prepare_frame in H as [_ H]. exact H. }
          destruct (head_first C' f' s' H') as [(P & _)|(? & ? & ? & _ & _ & _ & Q & Q2)]; [|lia].
          rewrite prepare_same, H in P. apply pair_equal_spec in P as [P1 <-]. injection P1 as <-. split; [reflexivity|].
          unfold same_but_exit. destruct s. reflexivity.
        - pose proof (iteration_counts _ _ _ _ _ H3) as K.
          pose proof (check_continue_true _ _ _ _ H2) as (Es1 & _).
          assert (Hp : (0 <= o_iter s)%Z) by apply (iv_iter _ _ _ _ _ _ _ (loop_head_Inv E C _ _ _ _ _ _ _ H1)).
          assert (Ki : o_iter s1 = o_iter s) by (rewrite Es1; reflexivity).
          destruct (head_first C' f' s' H') as [(_ & Q)|(fa & sa & sb & Ha & Hb & Hc & Q & _)]; [lia|].
          destruct (IH fa sa Ha ltac:(lia)) as (-> & Hsame). rewrite Hsame in Hb.
          pose proof (continue_sgn _ _ _ _ _ H2 Hb) as ->.
          destruct (iteration_compare' f (o_conv sa) (o_flag sa) s1) as (c' & fl' & Hit & _).
          rewrite Hc, H3 in Hit. cbn [fst snd] in Hit. apply pair_equal_spec in Hit as [Hit ->]. injection Hit as ->.
          split; [reflexivity|apply sgn_same].
      Qed.

      Lemma loop_descends C0 n : forall f s t, loop_head E C0 ndim x0 sid h0 st f s -> loop E C0 n f s = (Ok tt, t) ->
        o_fval t <=? o_fval s = true.
      Proof using L.
        induction n as [|n IH]; intros f s t Hh H; [discriminate H|]. cbn [loop] in H.
        pose proof (loop_head_Inv E C0 _ _ _ _ _ _ _ Hh) as I.
        assert (Hn : nisnan (o_fval s) = false) by (apply fin_nan; apply (iv_fin _ _ _ _ _ _ _ I)).
        apply bind_ok_inv in H as (b & s1 & H1 & H2). destruct b.
        - apply bind_ok_inv in H2 as (f2 & s2 & H2 & H3).
          pose proof (IH _ _ _ (lh_next _ _ _ _ _ _ _ _ _ _ _ _ Hh H1 H2) H3) as H4.
          destruct (C08_step_decreases E C0 ndim x0 sid h0 st f s s1 f2 s2 Hh H1 H2) as [(_ & _ & H5)|H5].
          + rewrite <- H5. exact H4.
          + apply (le_trans _ _ _ H4). now apply lt_le.
        - apply check_continue_false in H1 as (fl & kk & ->). apply pair_equal_spec in H2 as [_ <-].
          change (o_fval (set_o_flag fl (set_o_clk kk s))) with (o_fval s). now apply le_refl.
      Qed.

      Lemma loop_tighter : tighter (criteria_of C) k -> forall n n' f s c fl, (n <= n')%nat ->
        head f s -> head' f (sgn c fl s) -> (c = true -> o_conv s = true) ->
        let p := loop E C n f s in let p' := loop E C' n' f (sgn c fl s) in
        prefix (o_evals (snd p)) (o_evals (snd p'))
        /\ (forall e, fst p = Err e -> e <> EDiverge -> fst p' = Err e /\ same_but_exit (snd p) (snd p'))
        /\ (fst p = Ok tt -> fst p' = Ok tt -> o_fval (snd p') <=? o_fval (snd p) = true).
      Proof using L.
        intros Ht. induction n as [|n IH]; intros n' f s c fl Hn Hh Hh' Hc p p'.
        { subst p p'. pose proof (loop_grows E C' n' f (sgn c fl s)) as G. cbn [loop fst snd raise]. split; [exact G|]. split.
          - intros e He1 He2. injection He1 as <-. now contradict He2.
          - discriminate. }
        destruct n' as [|n']; [lia|].
        pose proof (loop_grows E C' (S n') f (sgn c fl s)) as G. fold p' in G.
        pose proof (loop_descends C' (S n') f (sgn c fl s) (snd p') Hh') as D.
        assert (Hfin : nisfin (o_fval s) = true) by apply (iv_fin _ _ _ _ _ _ _ (loop_head_Inv E C _ _ _ _ _ _ _ Hh)).
        destruct (check_continue E C s) as [[[]|e] s1] eqn:Ec.
        - (* the first run goes on *)
          pose proof (check_continue_true _ _ _ _ Ec) as (Es1 & Hcv & Hmi & Hde).
          assert (Ec' : check_continue E C' (sgn c fl s) = (Ok true, sgn c fl s1)).
          { rewrite check_continue_cases in Ec |- *.
            change (o_conv (sgn c fl s)) with c. change (o_iter (sgn c fl s)) with (o_iter s). change (o_clk (sgn c fl s)) with (o_clk s).
            change (o_starttime (sgn c fl s)) with (o_starttime s). change (o_delta (sgn c fl s)) with (o_delta s).
            destruct c; [specialize (Hc eq_refl); congruence|].
            rewrite Hcv, Hde in Ec. rewrite Hde.
            change (op_maxiter (c_opts C')) with (k_maxiter k). change (op_maxtime (c_opts C')) with (k_maxtime k).
            pose proof (tg_maxiter _ _ Ht) as M1. change (k_maxiter (criteria_of C)) with (op_maxiter (c_opts C)) in M1.
            destruct (Z.leb_spec (k_maxiter k) (o_iter s)); [lia|].
            destruct (Z.leb_spec (op_maxiter (c_opts C)) (o_iter s)); [lia|].
            match goal with |- context [if ?b then (Ok false, set_o_flag XF_MAXTIME _) else _] => destruct b eqn:El end.
            { apply (late_mono (op_maxtime (c_opts C))) in El; [|apply (tg_maxtime _ _ Ht)]. rewrite El in Ec. discriminate. }
            rewrite Es1. reflexivity. }
          destruct (iteration_compare' f c fl s1) as (c2 & fl2 & Hit & Hcv2).
          assert (Hfin1 : nisfin (o_fval s1) = true) by (rewrite Es1; exact Hfin).
          destruct (iteration E C f s1) as [[f2|e] s2] eqn:Ei; cbn [fst snd] in Hit, Hcv2.
          + assert (Ep : p = loop E C n f2 s2).
            { unfold p. cbn [loop]. unfold bind. rewrite Ec, Ei. reflexivity. }
            assert (Ep' : p' = loop E C' n' f2 (sgn c2 fl2 s2)).
            { unfold p'. cbn [loop]. unfold bind. rewrite Ec', Hit. reflexivity. }
            rewrite Ep, Ep'. apply IH; [lia| | |].
            * exact (lh_next _ _ _ _ _ _ _ _ _ _ _ _ Hh Ec Ei).
            * exact (lh_next _ _ _ _ _ _ _ _ _ _ _ _ Hh' Ec' Hit).
            * exact (Hcv2 Ht Hfin1 f2 eq_refl).
          + assert (Ep : p = (Err e, s2)).
            { unfold p. cbn [loop]. unfold bind. rewrite Ec, Ei. reflexivity. }
            assert (Ep' : p' = (Err e, sgn c2 fl2 s2)).
            { unfold p'. cbn [loop]. unfold bind. rewrite Ec', Hit. reflexivity. }
            rewrite Ep, Ep'. cbn [fst snd]. split; [exists []; now rewrite app_nil_r|]. split; [|discriminate].
            intros e0 H _. split; [exact H|apply sgn_same].
        - (* it stops here *)
          apply check_continue_false in Ec as Ec2. destruct Ec2 as (fl2 & k2 & Es1).
          assert (Ep : p = (Ok tt, s1)).
          { unfold p. cbn [loop]. unfold bind. rewrite Ec. reflexivity. }
          rewrite Ep. cbn [fst snd]. split; [|split].
          + rewrite Es1. exact G.
          + intros e H. discriminate H.
          + intros _ H. rewrite Es1. apply D. fold p'. destruct p' as [r' t']. cbn [fst snd] in *. congruence.
        - exfalso. revert Ec. rewrite check_continue_cases. repeat match goal with |- (if ?b then _ else _) = _ -> _ => destruct b end; discriminate.
      Qed.

      (** tighter criteria continue the same run: the evaluations are a prefix, exceptions are the same, the returned value is at least as good *)
      Theorem C64_tighter_continues fuel fuel' : tighter (criteria_of C) k -> (fuel <= fuel')%nat ->
        let p := minimize E C fuel ndim x0 sid h0 st in
        let p' := minimize E C' fuel' ndim x0 sid h0 st in
        prefix (o_evals (snd p)) (o_evals (snd p'))
        /\ (forall e, fst p = Err e -> e <> EDiverge -> e <> EExternal -> fst p' = Err e /\ same_but_exit (snd p) (snd p'))
        /\ (forall fv x g h fv' x' g' h', fst p = Ok (fv, x, g, h) -> fst p' = Ok (fv', x', g', h') -> fv' <=? fv = true).
      Proof using L.
        intros Ht Hf. cbv zeta. unfold minimize. rewrite !prepare_same, write_same. unfold bind.
        destruct (prepare E C ndim x0 sid h0 st) as [[f|e] s] eqn:Ep.
        2:{ cbn [fst snd]. split; [exists []; now rewrite app_nil_r|]. split; [|discriminate].
            intros e0 H _ _. split; [exact H|]. unfold same_but_exit. destruct s. reflexivity. }
        pose proof (lh_start E C ndim x0 sid h0 st f s Ep) as Hh.
        assert (Ep' : prepare E C' ndim x0 sid h0 st = (Ok f, s)) by (rewrite prepare_same; exact Ep).
        pose proof (lh_start E C' ndim x0 sid h0 st f s Ep') as Hh'.
        assert (Es : s = sgn (o_conv s) (o_flag s) s) by (destruct s; reflexivity).
        pose proof (loop_tighter Ht fuel fuel' f s (o_conv s) (o_flag s) Hf Hh) as LT. rewrite <- Es in LT.
        specialize (LT Hh' (fun H => H)). cbv zeta in LT. destruct LT as (L1 & L2 & L3).
        assert (W : forall t, (exists files, write_history C t = (Ok tt, set_o_files files t)) \/ write_history C t = (Err EExternal, t)).
        { intros t. unfold write_history. destruct (op_history (c_opts C)) as [file|].
          - unfold bind, get. destruct (existsb _ _); [right; reflexivity|left; eexists; reflexivity].
          - left. exists (o_files t). destruct t. reflexivity. }
        destruct (loop E C fuel f s) as [[[]|e] s3]; destruct (loop E C' fuel' f s) as [[[]|e'] s3']; cbn [fst snd] in *.
        - destruct (W s3) as [(f1 & ->)| ->]; destruct (W s3') as [(f2 & ->)| ->]; cbn [fst snd ret get].
          + split; [exact L1|]. split; [discriminate|]. intros ? ? ? ? ? ? ? ? H H'. injection H as <- _ _ _. injection H' as <- _ _ _.
            exact (L3 eq_refl eq_refl).
          + split; [exact L1|]. split; [discriminate|]. intros ? ? ? ? ? ? ? ? H H'. discriminate H'.
          + split; [exact L1|]. split; [|discriminate]. intros e He _ Hx. injection He as <-. now contradict Hx.
          + split; [exact L1|]. split; [|discriminate]. intros e He _ Hx. injection He as <-. now contradict Hx.
        - destruct (W s3) as [(f1 & ->)| ->]; cbn [fst snd ret get].
          + split; [exact L1|]. split; [discriminate|]. intros ? ? ? ? ? ? ? ? H H'. discriminate H'.
          + split; [exact L1|]. split; [|discriminate]. intros e He _ Hx. injection He as <-. now contradict Hx.
        - split.
          + destruct (W s3') as [(f2 & ->)| ->]; exact L1.
          + split; [|discriminate]. intros e0 He Hd _. injection He as <-. destruct (L2 e eq_refl Hd) as (Z & _). discriminate Z.
        - split; [exact L1|]. split; [|discriminate]. intros e0 He Hd _. injection He as <-. destruct (L2 e eq_refl Hd) as (Z1 & Z2).
          injection Z1 as ->. split; [reflexivity|exact Z2].
      Qed.
    End Heads.
  End Compare.

  (** only the iteration budget differs: a run that it did not stop is the very same run *)
  Definition with_maxiter (m : Z) (C : cfg T) : cfg T :=
    stopping_at (let k := criteria_of C in mkCriteria m (k_maxtime k) (k_fatol k) (k_frtol k) (k_xtol k) (k_gatol k) (k_grtol k)) C.
  Lemma loop_budget E C m : (op_maxiter (c_opts C) <= m)%Z -> forall n f s,
    loop E (with_maxiter m C) n f s = loop E C n f s
    \/ (o_flag (snd (loop E C n f s)) = XF_MAXITER /\ (op_maxiter (c_opts C) <= o_iter (snd (loop E C n f s)))%Z
        /\ fst (loop E C n f s) = Ok tt).
  Proof using.
    intros Hm. induction n as [|n IH]; intros f s; [left; reflexivity|]. cbn [loop]. unfold bind. rewrite !check_continue_cases.
    change (op_maxiter (c_opts (with_maxiter m C))) with m. change (op_maxtime (c_opts (with_maxiter m C))) with (op_maxtime (c_opts C)).
    destruct (o_conv s); [left; reflexivity|].
    destruct (Z.leb_spec (op_maxiter (c_opts C)) (o_iter s)) as [Hi|Hi].
    { right. cbn [fst snd ret]. split; [reflexivity|]. split; [exact Hi|reflexivity]. }
    destruct (Z.leb_spec m (o_iter s)); [lia|].
    match goal with |- context [if ?b then (Ok false, set_o_flag XF_MAXTIME _) else _] => destruct b end; [left; reflexivity|].
    destruct (_ <? _); [left; reflexivity|].
    change (iteration E (with_maxiter m C)) with (iteration E C).
    match goal with |- context [iteration E C f ?t] => destruct (iteration E C f t) as [[f'|e] s2] end; [apply IH|left; reflexivity].
  Qed.
  Theorem C64_iteration_budget E C m fuel ndim x0 sid h0 st : (op_maxiter (c_opts C) <= m)%Z ->
    let p := minimize E C fuel ndim x0 sid h0 st in
    minimize E (with_maxiter m C) fuel ndim x0 sid h0 st = p
    \/ (o_flag (snd p) = XF_MAXITER /\ (op_maxiter (c_opts C) <= o_iter (snd p))%Z /\ (fst p = Err EExternal \/ exists r, fst p = Ok r)).
  Proof using.
    intros Hm. cbv zeta. unfold minimize. unfold with_maxiter. rewrite prepare_same, write_same. fold (with_maxiter m C). unfold bind.
    destruct (prepare E C ndim x0 sid h0 st) as [[f|e] s]; [|left; reflexivity].
    destruct (loop_budget E C m Hm fuel f s) as [->|(H1 & H2 & H3)]; [left; reflexivity|].
    right. destruct (loop E C fuel f s) as [[[]|e] s3]; [|discriminate H3]. cbn [fst snd] in *.
    unfold write_history. destruct (op_history (c_opts C)) as [file|].
    - unfold bind, get. destruct (existsb _ _); cbn [fst snd ret modify].
      + split; [exact H1|]. split; [exact H2|]. left. reflexivity.
      + split; [exact H1|]. split; [exact H2|]. right. eexists. reflexivity.
    - cbn [fst snd ret get]. split; [exact H1|]. split; [exact H2|]. right. eexists. reflexivity.
  Qed.
End Stopping.

(** non-vacuity, in doubles: a gradient tolerance of 50 stops a run from (30, 40) after six evaluations; the strict criteria continue it to the minimum (seven);
    a budget of 3 iterations stops it with flag MAXITER; the budgets 100 and 1000 give the same run *)
Definition loose : criteria (T := F64) := mkCriteria 100 ninf n1 n0 n1 (fz 50) n0.
Definition strict : criteria (T := F64) := mkCriteria 1000 ninf (nfrac 1 1000000) n0 n0 (nfrac 1 1000000) n0.
Definition stopped (k : criteria) :=
  minimize (world sumsq) (stopping_at k (fst (free 2 []))) 60 1 [fz 30; fz 40] None H0None (snd (free 2 [])).
Example C64_ex :
  tighter loose strict
  /\ (exists fv x g h s, stopped loose = (Ok (fv, x, g, h), s)
        /\ Nat.eqb (List.length (o_evals s)) 6 && eqflag (o_flag s) GTOL = true)
  /\ (exists fv x g h s, stopped strict = (Ok (fv, x, g, h), s) /\ Nat.eqb (List.length (o_evals s)) 7 && eqflag (o_flag s) GTOL = true)
  /\ (exists fv x g h s, run_of sumsq (free 2 [(KStr "maxiter", VInt 3)]) 20 [fz 30; fz 40] = (Ok (fv, x, g, h), s)
        /\ eqflag (o_flag s) XF_MAXITER && Nat.eqb (List.length (o_evals s)) 4 = true)
  /\ (exists fv x g h s, run_of sumsq (free 2 [(KStr "maxiter", VInt 100)]) 20 [fz 30; fz 40] = (Ok (fv, x, g, h), s)
        /\ negb (eqflag (o_flag s) XF_MAXITER) = true).
Proof.
  split; [constructor; try (vm_compute; reflexivity); [cbn; lia|repeat split; vm_compute; reflexivity]|].
  split; [apply (ok_witness (fun _ _ _ _ s => Nat.eqb (List.length (o_evals s)) 6 && eqflag (o_flag s) GTOL)); vm_compute; reflexivity|].
  split; [apply (ok_witness (fun _ _ _ _ s => Nat.eqb (List.length (o_evals s)) 7 && eqflag (o_flag s) GTOL)); vm_compute; reflexivity|].
  split; [apply (ok_witness (fun _ _ _ _ s => eqflag (o_flag s) XF_MAXITER && Nat.eqb (List.length (o_evals s)) 4)); vm_compute; reflexivity|].
  apply (ok_witness (fun _ _ _ _ s => negb (eqflag (o_flag s) XF_MAXITER))); vm_compute; reflexivity.
Qed.
