(** C20, continued: the contents of every series of the history. *)
From Coq Require Import String ZArith List Bool Lia.
From Verif Require Import Num Constants Subproblem HessApprox Steps TrustRegion Minimize
  ER NumFacts MonadFacts MinFacts Spec Run RunInv RunFrame Prop_Run Prop_Run2 Prop_Observers F64 Witness.
Import ListNotations.
Local Open Scope list_scope.
Local Open Scope num_scope.

Section History.
  Context {T : Type} {N : Num T} {L : NumLaws T}.
  Local Notation opt := (opt T).
  Variable E : env T.
  Variable C : cfg T.

  (** smallest and largest eigenvalue of the change of the Hessian approximation: NaN without one, zero after a rejected step *)
  Definition update_range (accepted : bool) (h : option (happ T)) (r : T * T) : Prop :=
    match h with
    | None => r = (nnan, nnan)
    | Some h => if accepted then e_minmax E (h_diff h) = Some r else r = (n0, n0)
    end.
  (** the same for the structured part, NaN for schemes without one *)
  Definition structured_range (accepted : bool) (h : option (happ T)) (r : T * T) : Prop :=
    match h with
    | Some (HStruct sh) => if accepted then e_minmax E (sh_sdiff sh) = Some r else r = (n0, n0)
    | _ => r = (nnan, nnan)
    end.
  Definition flagged (b : option bool) : bool := match b with Some b => b | None => false end.

  Lemma core_ok f s a sp fn s2 k : core E C f (set_o_clk k s) = (Ok (a, sp, fn), s2) ->
    proposes E C s sp
    /\ value_of C (e_obj E (List.length (o_evals s)) (trial_point s sp)) = Some (fo_fval fn)
    /\ gradient_of C (e_obj E (List.length (o_evals s)) (trial_point s sp)) = Some (fo_grad fn)
    /\ a = accepts C s sp (fo_fval fn) (fo_grad fn)
    /\ o_hist s2 = o_hist s.
  Proof using L.
    intros H.
    assert (Hh : o_hist s2 = o_hist s).
    { pose proof (blind_core E C f (watch_of (set_o_clk k s)) (set_o_clk k s)) as B.
      replace (obs (watch_of (set_o_clk k s)) (set_o_clk k s)) with (set_o_clk k s) in B by (destruct s; reflexivity).
      rewrite H in B. cbn [fst snd] in B. apply pair_equal_spec in B as [_ B]. rewrite B. destruct s2, s. reflexivity. }
    unfold core in H. cbv zeta in H.
    apply bind_ok_inv in H as ([] & s3 & H1 & H). unfold modify in H1. apply pair_equal_spec in H1 as [_ <-].
    apply bind_ok_inv in H as ([] & s3 & H1 & H). unfold modify in H1. apply pair_equal_spec in H1 as [_ <-].
    apply bind_ok_inv in H as (s4 & s3 & H1 & H). unfold get in H1. apply pair_equal_spec in H1 as [H1 <-].
    injection H1 as <-.
    change (set_o_delta_iter (o_delta (set_o_iter (o_iter (set_o_clk k s) + 1)%Z (set_o_clk k s))) (set_o_iter (o_iter (set_o_clk k s) + 1)%Z (set_o_clk k s)))
      with (it_s1 (set_o_clk k s)) in H.
    apply bind_ok_inv in H as ([] & s3 & H1 & H).
    assert (E3 : s3 = it_s1 (set_o_clk k s)).
    { unfold check_finite_self, bind, get in H1. rewrite check_finite_run in H1. destruct all_finite; [|discriminate H1].
      now apply pair_equal_spec in H1 as [_ <-]. }
    subst s3. clear H1.
    apply bind_ok_inv in H as (sp' & s3 & H1 & H). apply lift_ok_inv in H1 as [Htr ->].
    change (it_tr E C (set_o_clk k s) = Ok sp') in Htr.
    apply bind_ok_inv in H as (xn & s3 & H1 & H). unfold alloc in H1. cbn [bind get modify] in H1.
    apply bind_ok_inv in H as (pf & s5 & H2 & H).
    apply bind_ok_inv in H as (fn' & s6 & H3 & H). apply lift_ok_inv in H3 as [Hty ->].
    apply bind_ok_inv in H as ([] & s7 & H4 & H).
    apply bind_ok_inv in H as (a' & s8 & H5 & H).
    apply bind_ok_inv in H as ([] & s9 & _ & H). apply bind_ok_inv in H as ([] & s10 & _ & H).
    apply bind_ok_inv in H as ([] & s11 & _ & H). unfold ret in H. apply pair_equal_spec in H as [H _].
    injection H as -> -> ->.
    assert (X : xn = List.length (o_heap s) /\ s3 = set_o_heap (o_heap s ++ [trial_point s sp]) (it_s1 (set_o_clk k s))).
    { revert H1. intros H1. apply pair_equal_spec in H1 as [H1 H1']. injection H1 as <-. rewrite <- H1'. split; reflexivity. }
    destruct X as (-> & ->).
    assert (Y : fun_evaluate (c_nargout C) (c_resfun C) (e_obj E (List.length (o_evals s)) (trial_point s sp)) = Ok pf
                /\ s5 = it_s2 E (set_o_clk k s) sp).
    { revert H2. unfold evaluate. cbv zeta.
      assert (Dr : deref (set_o_heap (o_heap s ++ [trial_point s sp]) (it_s1 (set_o_clk k s))) (List.length (o_heap s)) = trial_point s sp).
      { unfold deref. change (o_heap (set_o_heap (o_heap s ++ [trial_point s sp]) (it_s1 (set_o_clk k s)))) with (o_heap s ++ [trial_point s sp]).
        apply nth_middle. }
      rewrite Dr. intros H2. apply pair_equal_spec in H2 as [H2 <-]. split; [exact H2|reflexivity]. }
    destruct Y as (Hpf & ->).
    destruct (value_typed C _ _ _ _ _ Hpf Hty) as [Hv Hg].
    split; [|split; [exact Hv|split; [exact Hg|split; [|exact Hh]]]].
    - apply proposes_it_tr in Htr. exact Htr.
    - assert (E7 : s7 = it_s2 E (set_o_clk k s) sp).
      { destruct (nisfin (fo_fval fn)); cbn [when] in H4.
        - unfold check_finite_fo in H4. rewrite check_finite_run in H4. destruct all_finite; [|discriminate H4].
          now apply pair_equal_spec in H4 as [_ <-].
        - unfold ret in H4. now apply pair_equal_spec in H4 as [_ <-]. }
      subst s7. rewrite update_tr_radius_run in H5. apply pair_equal_spec in H5 as [H5 _]. injection H5 as <-.
      exact (it_acc_accepts E C s sp fn k).
  Qed.

  Theorem C20_every_series ndim x0 sid h0 st f s s1 f' s' :
    op_history (c_opts C) <> None ->
    loop_head E C ndim x0 sid h0 st f s -> check_continue E C s = (Ok true, s1) -> iteration E C f s1 = (Ok f', s') ->
    exists sp v g ev up sup ch cs,
      proposes E C s sp
      /\ value_of C (e_obj E (List.length (o_evals s)) (trial_point s sp)) = Some v
      /\ gradient_of C (e_obj E (List.length (o_evals s)) (trial_point s sp)) = Some g
      /\ let accepted := accepts C s sp v g in
         e_minmax E (o_hess s') = Some ev /\ e_cond E (o_hess s') = Some ch /\ e_cond E (st_shess sp) = Some cs
         /\ update_range accepted (o_happ s') up /\ structured_range accepted (o_happ s') sup
         /\ forall k a, In (k, a)
              [ ("fval", HNum v); ("tr_ratio", HNum (o_tr_ratio s')); ("tr_radius", HNum (o_delta s));
                ("normgrad", HNum (norm (o_grad s'))); ("normstep", HNum (norm (vadd (st_s sp) (st_s0 sp))));
                ("theta", HNum (st_theta sp)); ("alpha", HNum (st_alpha sp));
                ("reflections", HInt (Z.of_nat (reflection_count sp))); ("truncations", HInt (Z.of_nat (truncation_count sp)));
                ("accept", HBool accepted); ("hess_min_ev", HNum (fst ev)); ("hess_max_ev", HNum (snd ev));
                ("hess_update_min_ev", HNum (fst up)); ("hess_update_max_ev", HNum (snd up));
                ("hess_struct_update_min_ev", HNum (fst sup)); ("hess_struct_update_max_ev", HNum (snd sup));
                ("iterations_since_tr_update", HInt (o_since s')); ("step_type", HStr (st_type sp));
                ("subspace_dim", HInt (Z.of_nat (List.length (st_subspace sp))));
                ("posdef", HBool (flagged (st_posdef sp))); ("newton", HBool (flagged (st_newton sp)));
                ("cond_hess", HNum ch); ("cond_shess", HNum cs) ]%string ->
              series (o_hist s') k = series (o_hist s) k ++ [a].
  Proof using L.
    intros Hhf Hl Hc Hi. pose proof (C14_radius_rule E C ndim x0 sid h0 st f s s1 f' s' Hl Hc Hi) as R.
    assert (Hdi : o_delta_iter s' = o_delta s).
    { apply check_continue_true in Hc as (-> & _). apply iteration_ok in Hi as (sp & fn & K). apply (ik_delta_iter _ _ _ _ _ _ _ _ K). }
    apply check_continue_true in Hc as (-> & _).
    rewrite iteration_core in Hi. unfold bind in Hi.
    destruct (core E C f (set_o_clk (S (o_clk s)) s)) as [[[[a sp] fn]|e] s2] eqn:Ec; [|discriminate Hi].
    destruct (core_ok _ _ _ _ _ _ _ Ec) as (P1 & P2 & P3 & P4 & P5).
    replace (has_history C) with true in Hi by (unfold has_history; destruct (op_history (c_opts C)); [reflexivity|now contradict Hhf]).
    cbn [when] in Hi.
    destruct (track_history E a sp fn s2) as [[[]|e] s3] eqn:Et; [|discriminate Hi].
    unfold ret in Hi. apply pair_equal_spec in Hi as [_ <-].
    unfold track_history in Et.
    apply bind_ok_inv in Et as (s4 & s5 & H1 & H). unfold get in H1. apply pair_equal_spec in H1 as [H1 <-]. injection H1 as <-.
    apply bind_ok_inv in H as (ev & s5 & H1 & H). apply lift_ok_inv in H1 as [V1 ->].
    apply bind_ok_inv in H as (up & s5 & H1 & H). apply lift_ok_inv in H1 as [V2 ->].
    apply bind_ok_inv in H as (sup & s5 & H1 & H). apply lift_ok_inv in H1 as [V3 ->].
    apply bind_ok_inv in H as (ch & s5 & H1 & H). apply lift_ok_inv in H1 as [V4 ->].
    apply bind_ok_inv in H as (cs & s5 & H1 & H). apply lift_ok_inv in H1 as [V5 ->].
    unfold modify in H. apply pair_equal_spec in H as [_ H].
    match type of H with set_o_hist ?hh s2 = s3 => assert (E3 : o_hist s3 = hh) by (rewrite <- H; reflexivity) end.
    assert (F : forall (A : Type) (g : opt -> A), (forall h t, g (set_o_hist h t) = g t) -> g s3 = g s2) by (intros A g G; rewrite <- H; apply G).
    exists sp, (fo_fval fn), (fo_grad fn), ev, up, sup, ch, cs.
    split; [exact P1|]. split; [exact P2|]. split; [exact P3|]. cbv zeta. rewrite <- P4.
    assert (OO : forall (A : Type) (o : option A) v, of_option EExternal o = Ok v -> o = Some v).
    { intros A [w|] v; cbn; intros Hx; [injection Hx as ->; reflexivity|discriminate Hx]. }
    rewrite (F _ (@o_hess T)) by reflexivity. rewrite (F _ (@o_happ T)) by reflexivity.
    rewrite (F _ (@o_tr_ratio T)) by reflexivity. rewrite (F _ (@o_grad T)) by reflexivity. rewrite (F _ (@o_since T)) by reflexivity.
    rewrite (F _ (@o_delta_iter T)) in Hdi by reflexivity.
    split; [apply OO, V1|]. split; [apply OO, V4|]. split; [apply OO, V5|].
    split.
    { unfold update_range. destruct (o_happ s2) as [h|]; [destruct a; [apply OO, V2|]|]; injection V2 as <-; reflexivity. }
    split.
    { unfold structured_range. destruct (o_happ s2) as [[]|]; try (destruct a; [apply OO, V3|]); injection V3 as <-; reflexivity. }
    intros k0 a0 Hin. rewrite E3, P5. rewrite <- Hdi in Hin. apply series_append_all_in; [exact documented_keys_nodup|exact Hin].
  Qed.
End History.

(** non-vacuity, in doubles: a run from (30, 40) with a history file; the radii used are 1, 2, 4, ... and all steps are accepted *)
Definition doubling (h : history F64) : bool :=
  match series h "tr_radius", series h "accept", series h "step_type" with
  | HNum a :: HNum b :: HNum c :: _, HBool p :: HBool q :: _, HStr t :: _ =>
      feq a (fz 1) && feq b (fz 2) && feq c (fz 4) && p && q && String.eqb t "2d"
  | _, _, _ => false
  end.
Example C20_series_ex : exists fv x g h s, observed (Some "h.h5"%string) ninf (snd (free 2 [])) = (Ok (fv, x, g, h), s)
  /\ doubling (o_hist s) = true.
Proof. apply (ok_witness (fun _ _ _ _ s => doubling (o_hist s))); vm_compute; reflexivity. Qed.
