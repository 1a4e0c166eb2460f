(** Explicit effects of the pieces of the main loop (proof library) *)
From Coq Require Import ZArith List Bool String Lia.
From Verif Require Import Num Constants Subproblem HessApprox Steps TrustRegion Minimize MonadFacts.
Import ListNotations.
Local Open Scope num_scope.

Section MinFacts.
  Context {T : Type} {N : Num T}.
  Local Notation vec := (list T).
  Local Notation mat := (list (list T)).
  Local Notation opt := (opt T).
  Local Notation M := (M T).
  Variable E : env T.
  Variable C : cfg T.
  Local Notation O := (c_opts C).

  (** update_tr_radius never raises; what it computes, attribute by attribute *)
  Definition tru_shrunk (st : opt) (sp : step T) : T :=
    nanmin2 (o_delta st * op_gamma1 O) (norm (vadd (st_ss sp) (st_ss0 sp)) / nofZ 4).
  Definition tru_ratio (st : opt) (f : fout T) (sp : step T) (dv : vec) : T :=
    let stepsx := vadd (st_ss sp) (st_ss0 sp) in
    if negb (nisfin (fo_fval f)) then n0
    else if (- (st_qpval sp)) <=? n0 then n0
    else (o_fval st - fo_fval f - nhalf * dot stepsx (vmul (vmul dv (vabs (fo_grad f))) stepsx))
         / (- (st_qpval sp)).
  Inductive tru_case := TGrow | TShrink | TInter | TKeep.
  Definition tru_which (st : opt) (f : fout T) (sp : step T) (dv : vec) : tru_case :=
    let r := tru_ratio st f sp dv in
    if negb (nisfin (fo_fval f)) then TShrink
    else if (op_eta O <=? r)
            && negb (norm (vadd (st_ss sp) (st_ss0 sp)) <? o_delta_iter st * nfrac 9 10) then TGrow
    else if r <=? op_mu O then TShrink
    else if (op_mu O <? r) && (r <? op_eta O) then TInter
    else TKeep.
  Definition tru_delta st f sp dv : T :=
    match tru_which st f sp dv with
    | TGrow => op_gamma2 O * o_delta st
    | TShrink => tru_shrunk st sp
    | _ => o_delta st
    end.
  Definition tru_since (st : opt) f sp dv : Z :=
    match tru_which st f sp dv with TGrow | TShrink => 0%Z | _ => (o_since st + 1)%Z end.
  Definition tru_ninter (st : opt) f sp dv : Z :=
    match tru_which st f sp dv with TInter => (o_ninter st + 1)%Z | _ => o_ninter st end.
  Definition tru_acc (st : opt) f sp dv : bool :=
    nisfin (fo_fval f) && (n0 <? tru_ratio st f sp dv).

  Lemma update_tr_radius_run f sp dv st :
    update_tr_radius C f sp dv st =
    (Ok (tru_acc st f sp dv),
     set_o_tr_ratio (tru_ratio st f sp dv)
       (set_o_delta (tru_delta st f sp dv)
         (set_o_since (tru_since st f sp dv)
           (set_o_ninter (tru_ninter st f sp dv) st)))).
  Proof.
    unfold tru_delta, tru_since, tru_ninter, tru_acc, tru_which, tru_ratio, tru_shrunk.
    unfold update_tr_radius, bind, get, modify, ret. destruct st.
    cbn -[norm vadd dot nfrac nanmin2 nofZ nhalf vmul vabs n0].
    destruct (nisfin (fo_fval f)); cbn -[norm vadd dot nfrac nanmin2 nofZ nhalf vmul vabs n0]; [|reflexivity].
    destruct ((_ <=? _) && negb _); [reflexivity|].
    match goal with |- context [if ?a <=? op_mu _ then _ else _] => destruct (a <=? op_mu O) end; [reflexivity|].
    match goal with |- context [(op_mu _ <? ?a) && ?b] => destruct ((op_mu O <? a) && b) end; reflexivity.
  Qed.

  (** check_convergence *)
  Definition conv_result (st : opt) (sp : step T) (f : fout T) : option exit_flag :=
    if (op_mu O <? o_tr_ratio st)
       && (nabs (fo_fval f - o_fval st) <? op_fatol O + op_frtol O * nabs (o_fval st))
    then Some FTOL
    else if (1 <? o_iter st)%Z && (norm (vadd (st_ss sp) (st_ss0 sp)) <? op_xtol O)
    then Some XF_XTOL
    else if norm (fo_grad f) <=? op_gatol O then Some GTOL
    else if norm (fo_grad f) <=? op_grtol O * nabs (o_fval st) then Some GTOL
    else None.
  Definition oflag (d : exit_flag) (o : option exit_flag) : exit_flag :=
    match o with Some f => f | None => d end.
  Definition osome {A} (o : option A) : bool := match o with Some _ => true | None => false end.

  Lemma check_convergence_run sp f st :
    check_convergence C sp f st =
    (Ok tt, set_o_conv (osome (conv_result st sp f))
              (set_o_flag (oflag (o_flag st) (conv_result st sp f)) st)).
  Proof.
    unfold check_convergence, modify, conv_result. destruct st.
    cbn -[norm vadd].
    destruct (_ && _); [reflexivity|].
    destruct ((1 <? _)%Z && _); [reflexivity|].
    destruct (_ <=? _); [reflexivity|].
    destruct (_ <=? _); reflexivity.
  Qed.

  (** track_minimum *)
  Definition better (st : opt) (f : fout T) : bool :=
    nisfin (fo_fval f) && (fo_fval f <? o_fval_min st).
  Lemma track_minimum_run f st :
    track_minimum f st =
    (Ok tt, if better st f
            then set_o_xmin (fo_x f) (set_o_fval_min (fo_fval f) (set_o_grad_min (fo_grad f) st))
            else st).
  Proof. reflexivity. Qed.

  (** check_finite *)
  Definition all_finite (f : T) (g : vec) (h : option mat) : bool :=
    nisfin f && vfinite g && match h with None => true | Some h => mfinite h end.
  Lemma check_finite_run f g h st :
    check_finite f g h st =
    if all_finite f g h then (Ok tt, st) else (Err ERuntime, set_o_flag NOT_FINITE st).
  Proof.
    unfold check_finite, all_finite.
    destruct (nisfin f), (vfinite g); simpl; try reflexivity.
    destruct h as [h|]; [destruct (mfinite h)|]; reflexivity.
  Qed.

  Lemma check_in_bounds_run x st :
    check_in_bounds C x st =
    if in_bounds C x then (Ok tt, st) else (Err ERuntime, set_o_flag EXCEEDED_BOUNDARY st).
  Proof. unfold check_in_bounds. destruct in_bounds; reflexivity. Qed.

  (** check_continue *)
  Definition elapsed (st : opt) : T := e_clock E (o_clk st) - o_starttime st.
  Definition out_of_time (st : opt) : bool :=
    (op_maxtime O - elapsed st)
      <? (elapsed st / nofZ (o_iter st + (if (o_iter st =? 0)%Z then 1 else 0))).
  Lemma check_continue_run st :
    check_continue E C st =
    if o_conv st then (Ok false, st)
    else if (op_maxiter O <=? o_iter st)%Z then (Ok false, set_o_flag XF_MAXITER st)
    else
      let st1 := set_o_clk (S (o_clk st)) st in
      if out_of_time st then (Ok false, set_o_flag XF_MAXTIME st1)
      else if o_delta st <? spacing1 then (Ok false, set_o_flag DELTA_TOO_SMALL st1)
      else (Ok true, st1).
  Proof.
    unfold check_continue, out_of_time, elapsed, bind, get, modify, now, ret.
    destruct st; cbn -[spacing1 nofZ].
    destruct o_conv; [reflexivity|].
    destruct (op_maxiter O <=? o_iter)%Z; [reflexivity|].
    destruct (_ <? _); [reflexivity|].
    destruct (_ <? _); reflexivity.
  Qed.

  (** update of an accepted step *)
  Definition new_hess (st : opt) (sp : step T) (fnew fold : fout T) : res (mat * option (happ T)) :=
    match o_happ st with
    | Some h =>
        match happ_update h (vadd (st_s sp) (st_s0 sp)) (o_grad st) (o_since st) (o_ninter st)
                (o_iter st) fnew fold with
        | Ok h' => Ok (h_mat h', Some h')
        | Err e => Err e
        end
    | None => match fo_hess fnew with Some hess => Ok (hess, None) | None => Err EAttr end
    end.
  Lemma update_run sp fnew fold st :
    update C sp fnew fold st =
    match new_hess st sp fnew fold with
    | Err e => (Err e, st)
    | Ok (hess, h') =>
        let st1 := set_o_hess hess (set_o_happ h' st) in
        if in_bounds C (deref st (fo_x fnew)) then
          (Ok tt,
           set_o_heap (upd (o_heap st) (fo_x fnew) (nudge C (deref st (fo_x fnew))))
            (set_o_fval (fo_fval fnew) (set_o_x (fo_x fnew) (set_o_grad (fo_grad fnew) st1))))
        else (Err ERuntime, set_o_flag EXCEEDED_BOUNDARY st1)
    end.
  Proof.
    unfold update, new_hess. unfold bind at 1. unfold get at 1.
    destruct (o_happ st) as [h|] eqn:Eh.
    - destruct happ_update as [h'|e]; [|reflexivity].
      unfold bind, lift, modify.
      rewrite check_in_bounds_run.
      destruct in_bounds; [|reflexivity].
      unfold make_non_degenerate, bind, get, store, modify, deref. destruct st; reflexivity.
    - destruct (fo_hess fnew) as [h|]; [|reflexivity].
      unfold bind, lift, modify. rewrite check_in_bounds_run.
      destruct st; cbn in Eh; subst.
      destruct in_bounds; [|reflexivity].
      unfold make_non_degenerate, bind, get, store, modify, deref. reflexivity.
  Qed.

  (** track_history *)
  Definition hist_keys : list string :=
    ["fval"; "tr_ratio"; "tr_radius"; "normgrad"; "normstep"; "theta"; "alpha"; "reflections";
     "truncations"; "accept"; "hess_min_ev"; "hess_max_ev"; "hess_update_min_ev";
     "hess_update_max_ev"; "hess_struct_update_min_ev"; "hess_struct_update_max_ev";
     "iterations_since_tr_update"; "step_type"; "subspace_dim"; "posdef"; "newton";
     "cond_hess"; "cond_shess"]%string.
  Lemma track_history_run acc sp f st r st' :
    track_history E acc sp f st = (r, st') ->
    (r = Err EExternal /\ st' = st)
    \/ (r = Ok tt /\ exists vals, map fst vals = hist_keys
          /\ In ("fval"%string, HNum (fo_fval f)) vals
          /\ In ("accept"%string, HBool acc) vals
          /\ In ("tr_radius"%string, HNum (o_delta_iter st)) vals
          /\ In ("tr_ratio"%string, HNum (o_tr_ratio st)) vals
          /\ st' = set_o_hist (hist_append_all vals (o_hist st)) st).
  Proof.
    unfold track_history. intros H.
    apply bind_inv in H as [(a & s1 & H1 & H2)|(e & H1 & ->)]; [|discriminate H1].
    injection H1 as <- <-.
    do 5 (let r1 := fresh "r" in
          apply bind_inv in H2 as [(r1 & s1 & H1 & H2)|(e & H1 & ->)];
          [apply lift_ok_inv in H1 as [_ ->]
          |apply lift_inv in H1 as [He ->]; left; split; [|reflexivity];
           try (destruct (o_happ st) as [[]|]); try (destruct acc); unfold of_option in He;
           try (match type of He with Err _ = match ?o with _ => _ end => destruct o end);
           congruence]).
    unfold modify in H2. apply pair_equal_spec in H2 as [<- H2]. right. split; auto.
    eexists. split; [|split; [|split; [|split; [|split; [|exact (eq_sym H2)]]]]]; [reflexivity|..];
    simpl; tauto.
  Qed.

  (** *** one pass of the loop *)
  Definition it_s1 (st : opt) : opt := set_o_delta_iter (o_delta st) (set_o_iter (o_iter st + 1)%Z st).
  Definition it_vdv (st : opt) := affine_scaling (deref st (o_x st)) (o_grad st) (c_lb C) (c_ub C).
  Definition it_dv (st : opt) : vec := map snd (it_vdv st).
  Definition it_theta (st : opt) : T :=
    pymax (op_theta_max O) (n1 - norm_inf (vmul (map fst (it_vdv st)) (o_grad st))).
  Definition it_tr (st : opt) : res (step T) :=
    (sp <-- trust_region (e_la E) (deref st (o_x st)) (o_grad st) (o_hess st)
      (map (fun a => nsqrt (nabs a)) (map fst (it_vdv st))) (o_delta st) (it_dv st)
      (it_theta st) (c_lb C) (c_ub C) (op_subspace_dim O) (op_stepback O) ;;
     check_shape (deref st (o_x st)) sp)%res.
  Definition it_trial (st : opt) (sp : step T) : vec :=
    vadd (vadd (deref st (o_x st)) (st_s sp)) (st_s0 sp).
  Definition it_ret (st : opt) (sp : step T) : retval T :=
    e_obj E (List.length (o_evals st)) (it_trial st sp).
  (* after the evaluation *)
  Definition it_s2 (st : opt) (sp : step T) : opt :=
    set_o_evals (o_evals st ++ [(it_trial st sp, it_ret st sp)])
      (set_o_heap (o_heap st ++ [it_trial st sp]) (it_s1 st)).
  (* after update_tr_radius, check_convergence and track_minimum *)
  Definition it_s3 (st : opt) (sp : step T) (f : fout T) : opt :=
    let s := it_s2 st sp in let dv := it_dv st in
    set_o_tr_ratio (tru_ratio s f sp dv)
       (set_o_delta (tru_delta s f sp dv)
         (set_o_since (tru_since s f sp dv)
           (set_o_ninter (tru_ninter s f sp dv) s))).
  Definition it_s4 (st : opt) (sp : step T) (f : fout T) : opt :=
    let s := it_s3 st sp f in
    set_o_conv (osome (conv_result s sp f)) (set_o_flag (oflag (o_flag s) (conv_result s sp f)) s).
  Definition it_s5 (st : opt) (sp : step T) (f : fout T) : opt :=
    let s := it_s4 st sp f in
    if better s f
    then set_o_xmin (fo_x f) (set_o_fval_min (fo_fval f) (set_o_grad_min (fo_grad f) s))
    else s.
  Definition it_acc (st : opt) (sp : step T) (f : fout T) : bool := tru_acc (it_s2 st sp) f sp (it_dv st).

  (** what happened up to and including the evaluation *)
  Record evaluated (st : opt) (sp : step T) (f : fout T) : Prop := mkEvaluated {
    ev_cur : all_finite (o_fval st) (o_grad st) (Some (o_hess st)) = true;
    ev_tr : it_tr st = Ok sp;
    ev_pf : exists pf, fun_evaluate (c_nargout C) (c_resfun C) (it_ret st sp) = Ok pf
                       /\ typed_fout (List.length (deref st (o_x st))) pf (List.length (o_heap st)) = Ok f;
    ev_fin : nisfin (fo_fval f) = true -> all_finite (fo_fval f) (fo_grad f) (fo_hess f) = true
  }.

  (** outcomes of one pass *)
  Inductive iter_out (fold : fout T) (st : opt) : res (fout T) -> opt -> Prop :=
  | io_cur_notfinite :
      all_finite (o_fval st) (o_grad st) (Some (o_hess st)) = false ->
      iter_out fold st (Err ERuntime) (set_o_flag NOT_FINITE (it_s1 st))
  | io_tr_err e : it_tr st = Err e -> iter_out fold st (Err e) (it_s1 st)
  | io_eval_err sp e :
      it_tr st = Ok sp -> fun_evaluate (c_nargout C) (c_resfun C) (it_ret st sp) = Err e ->
      iter_out fold st (Err e) (it_s2 st sp)
  | io_typed_err sp pf e :
      it_tr st = Ok sp -> fun_evaluate (c_nargout C) (c_resfun C) (it_ret st sp) = Ok pf ->
      typed_fout (List.length (deref st (o_x st))) pf (List.length (o_heap st)) = Err e ->
      iter_out fold st (Err e) (it_s2 st sp)
  | io_notfinite sp pf f :
      it_tr st = Ok sp -> fun_evaluate (c_nargout C) (c_resfun C) (it_ret st sp) = Ok pf ->
      typed_fout (List.length (deref st (o_x st))) pf (List.length (o_heap st)) = Ok f ->
      nisfin (fo_fval f) = true -> all_finite (fo_fval f) (fo_grad f) (fo_hess f) = false ->
      iter_out fold st (Err ERuntime) (set_o_flag NOT_FINITE (it_s2 st sp))
  | io_update_err sp f e st' :
      evaluated st sp f -> it_acc st sp f = true ->
      update C sp f fold (it_s5 st sp f) = (Err e, st') ->
      iter_out fold st (Err e) st'
  | io_hist_err sp f st' :
      evaluated st sp f ->
      (if it_acc st sp f then update C sp f fold (it_s5 st sp f) = (Ok tt, st')
       else st' = it_s5 st sp f) ->
      has_history C = true ->
      iter_out fold st (Err EExternal) st'
  | io_ok sp f st1 st' :
      evaluated st sp f ->
      (if it_acc st sp f then update C sp f fold (it_s5 st sp f) = (Ok tt, st1)
       else st1 = it_s5 st sp f) ->
      (if has_history C then
         exists vals, map fst vals = hist_keys
          /\ In ("fval"%string, HNum (fo_fval f)) vals
          /\ In ("accept"%string, HBool (it_acc st sp f)) vals
          /\ In ("tr_radius"%string, HNum (o_delta_iter st1)) vals
          /\ In ("tr_ratio"%string, HNum (o_tr_ratio st1)) vals
          /\ st' = set_o_hist (hist_append_all vals (o_hist st1)) st1
       else st' = st1) ->
      iter_out fold st (Ok (if it_acc st sp f then f else fold)) st'.

  Lemma iteration_inv fold st r st' :
    iteration E C fold st = (r, st') -> iter_out fold st r st'.
  Proof.
    unfold iteration. intros H.
    apply bind_inv in H as [(a & s1 & H1 & H)|(e & H1 & ->)]; [|discriminate H1].
    injection H1 as <- <-.
    apply bind_inv in H as [(a & s1 & H1 & H)|(e & H1 & ->)]; [|discriminate H1].
    injection H1 as <- <-.
    apply bind_inv in H as [(a & s1 & H1 & H)|(e & H1 & ->)]; [|discriminate H1].
    injection H1 as <- <-.
    change (set_o_delta_iter (o_delta (set_o_iter (o_iter st + 1)%Z st)) (set_o_iter (o_iter st + 1)%Z st))
      with (it_s1 st) in H.
    unfold check_finite_self in H.
    apply bind_inv in H as [(a & s1 & H1 & H)|(e & H1 & ->)].
    2:{ unfold bind, get in H1. rewrite check_finite_run in H1.
        destruct (all_finite _ _ _) eqn:Ef; [discriminate H1|].
        injection H1 as <- <-. now apply io_cur_notfinite. }
    unfold bind, get in H1. rewrite check_finite_run in H1.
    destruct (all_finite _ _ _) eqn:Ef; [|discriminate H1]. injection H1 as <- <-.
    apply bind_inv in H as [(sp & s1 & H1 & H)|(e & H1 & ->)].
    2:{ apply lift_inv in H1 as [H1 ->]. now apply io_tr_err. }
    apply lift_ok_inv in H1 as [Htr ->].
    change (it_tr st = Ok sp) in Htr.
    apply bind_inv in H as [(xn & s1 & H1 & H)|(e & H1 & ->)]; [|discriminate H1].
    injection H1 as <- <-.
    apply bind_inv in H as [(pf & s1 & H1 & H)|(e & H1 & ->)].
    all: unfold evaluate in H1; injection H1 as H1 <-;
      unfold deref in H1; cbn [o_heap o_evals set_o_heap] in H1;
      rewrite nth_middle in H1.
    all: unfold deref; cbn [o_heap o_evals set_o_heap];
      rewrite ?nth_middle.
    2:{ eapply io_eval_err; eauto. }
    unfold deref in H; cbn [o_heap o_evals set_o_heap] in H; rewrite ?nth_middle in H.
    match type of H with _ ?s = _ => change s with (it_s2 st sp) in H end.
    apply bind_inv in H as [(f & s1 & H2 & H)|(e & H2 & ->)].
    2:{ apply lift_inv in H2 as [H2 ->]. eapply io_typed_err; eauto. }
    apply lift_ok_inv in H2 as [Hty ->].
    apply bind_inv in H as [(a & s1 & H1' & H)|(e & H1' & ->)].
    2:{ unfold when in H1'. destruct (nisfin (fo_fval f)) eqn:Efin; [|discriminate H1'].
        unfold check_finite_fo in H1'. rewrite check_finite_run in H1'.
        destruct (all_finite (fo_fval f) _ _) eqn:Ef2; [discriminate|]. injection H1' as <- <-.
        eapply io_notfinite; eauto. }
    assert (Hev : evaluated st sp f).
    { constructor; auto. eauto.
      intros Efin. unfold when in H1'. rewrite Efin in H1'.
      unfold check_finite_fo in H1'. rewrite check_finite_run in H1'.
      destruct (all_finite (fo_fval f) (fo_grad f) (fo_hess f)); congruence. }
    assert (s1 = it_s2 st sp) as ->.
    { unfold when in H1'. destruct (nisfin (fo_fval f)).
      - unfold check_finite_fo in H1'. rewrite check_finite_run in H1'.
        destruct (all_finite (fo_fval f) (fo_grad f) (fo_hess f)); congruence.
      - injection H1'; auto. }
    clear H1'.
    rewrite (bind_ok _ _ _ _ _ (update_tr_radius_run _ _ _ _)) in H.
    match type of H with bind _ _ ?s = _ => change s with (it_s3 st sp f) in H end.
    rewrite (bind_ok _ _ _ _ _ (check_convergence_run _ _ _)) in H.
    match type of H with bind _ _ ?s = _ => change s with (it_s4 st sp f) in H end.
    rewrite (bind_ok _ _ _ _ _ (track_minimum_run _ _)) in H.
    match type of H with bind _ _ ?s = _ => change s with (it_s5 st sp f) in H end.
    repeat match type of H with context [tru_acc (it_s2 st sp) f sp ?d] =>
      change (tru_acc (it_s2 st sp) f sp d) with (it_acc st sp f) in H end.
    apply bind_inv in H as [([] & s1 & H2 & H)|(e & H2 & ->)].
    2:{ unfold when in H2. destruct (it_acc st sp f) eqn:Eacc; [|discriminate H2].
        eapply io_update_err; eauto. }
    assert (Hup : if it_acc st sp f then update C sp f fold (it_s5 st sp f) = (Ok tt, s1)
                  else s1 = it_s5 st sp f).
    { unfold when in H2. destruct (it_acc st sp f); auto. injection H2; auto. }
    apply bind_inv in H as [([] & s2 & H3 & H)|(e & H3 & ->)].
    2:{ unfold when in H3. destruct (has_history C) eqn:Eh; [|discriminate].
        apply track_history_run in H3 as [(He & ->)|(He & _)]; [|discriminate].
        injection He as ->. eapply io_hist_err; eauto. }
    injection H as <- <-. eapply io_ok; eauto.
    unfold when in H3. destruct (has_history C).
    - apply track_history_run in H3 as [(He & _)|(_ & H4)]; [discriminate|auto].
    - injection H3; auto.
  Qed.

  (** *** before the loop *)
  Definition pr_id (sid : option string) : bool :=
    match sid with Some s => negb (String.eqb s "") | None => false end.
  Definition pr_s0 (sid : option string) (st : opt) : opt :=
    let st1 := set_o_starttime (e_clock E (o_clk st)) (set_o_iter 0%Z (set_o_since 0%Z (set_o_ninter 0%Z
        (set_o_conv false (set_o_delta (op_delta_init O)
          (set_o_delta_iter (op_delta_init O) (set_o_fval_min ninf
            (set_o_clk (S (o_clk st)) st)))))))) in
    set_o_hist []
      (if pr_id sid then set_o_start_id (match sid with Some s => s | None => ""%string end) st1
       else set_o_nid (S (o_nid st)) (set_o_start_id (e_uuid E (o_nid st)) st1)).
  Lemma reset_run sid st : reset E C sid st = (Ok tt, pr_s0 sid st).
  Proof.
    unfold reset.
    erewrite (bind_ok (now E) _ st) by reflexivity. cbv beta.
    erewrite bind_ok by reflexivity. cbv beta.
    unfold pr_s0, pr_id.
    destruct sid as [s|]; [destruct (String.eqb s "") eqn:Es|]; unfold negb;
      (erewrite bind_ok by reflexivity); unfold modify; cbv beta; apply f_equal; reflexivity.
  Qed.

  Lemma alloc_run v (st : opt) :
    alloc v st = (Ok (List.length (o_heap st)), set_o_heap (o_heap st ++ [v]) st).
  Proof. reflexivity. Qed.
  Lemma modify_run g (st : opt) : modify g st = (Ok tt, g st).
  Proof. reflexivity. Qed.
  Lemma ok_inj (A : Type) (a b : A) : Ok a = Ok b -> a = b.
  Proof. now injection 1. Qed.

  Lemma upd_app (A : Type) (l : list A) a b : upd (l ++ [a]) (List.length l) b = l ++ [b].
  Proof. induction l; simpl; congruence. Qed.
  Lemma upd_length (A : Type) (l : list A) i b : List.length (upd l i b) = List.length l.
  Proof. revert i; induction l; intros [|i]; simpl; auto. Qed.
  Lemma upd_nth_eq (A : Type) (l : list A) i b d : (i < List.length l)%nat -> nth i (upd l i b) d = b.
  Proof. revert i; induction l; intros [|i]; simpl; try lia; auto. intros. apply IHl. lia. Qed.
  Lemma upd_nth_neq (A : Type) (l : list A) i j b d : i <> j -> nth j (upd l i b) d = nth j l d.
  Proof. revert i j; induction l; intros [|i] [|j] H; simpl; try lia; auto. Qed.

  Definition pr_dims (ndim : nat) (x0 : vec) : bool :=
    negb (Nat.ltb 1 ndim)
    && (Nat.eqb (List.length x0) (List.length (c_ub C)) && Nat.eqb (List.length x0) (List.length (c_lb C)))
    && negb (Nat.eqb (List.length x0) 0).
  (* after the initial nudge *)
  Definition pr_s1 sid x0 (st : opt) : opt :=
    set_o_heap (o_heap st ++ [nudge C x0]) (set_o_x (List.length (o_heap st)) (pr_s0 sid st)).
  Definition pr_ret x0 (st : opt) : retval T := e_obj E (List.length (o_evals st)) (nudge C x0).
  Definition pr_s2 sid x0 (st : opt) : opt :=
    set_o_evals (o_evals st ++ [(nudge C x0, pr_ret x0 st)]) (pr_s1 sid x0 st).
  Definition pr_hess0 (h0 : hess0_arg T) (pf : pyfun T) : res (option mat) :=
    match h0 with
    | H0None => Ok None
    | H0Mat m => Ok (Some m)
    | H0OtherStr => Err EAttr
    | H0Hess => match pf_hess pf with
                | PNone => Ok None | PMat _ rows => Ok (Some rows) | _ => Err EValue end
    end.
  Definition pr_hess (h : option (happ T)) (n : nat) h0 pf : res (mat * option (happ T)) :=
    match h with
    | Some h =>
        match pr_hess0 h0 pf with
        | Err e => Err e
        | Ok arg => match h_init h n arg with Ok h' => Ok (h_mat h', Some h') | Err e => Err e end
        end
    | None =>
        match pf_hess pf with
        | PNone => Err EAttr
        | PMat _ rows => Ok (rows, None)
        | _ => Err EValue
        end
    end.
  Definition pr_s3 sid x0 hess h' (st : opt) : opt :=
    set_o_hess hess (set_o_happ h' (pr_s2 sid x0 st)).
  Definition pr_s4 sid x0 hess h' (f : fout T) (st : opt) : opt :=
    let s := set_o_fval (fo_fval f) (set_o_grad (fo_grad f) (pr_s3 sid x0 hess h' st)) in
    if better s f
    then set_o_xmin (fo_x f) (set_o_fval_min (fo_fval f) (set_o_grad_min (fo_grad f) s))
    else s.

  Inductive prep_out (ndim : nat) (x0 : vec) (sid : option string) (h0 : hess0_arg T) (st : opt)
    : res (fout T) -> opt -> Prop :=
  | po_dims : pr_dims ndim x0 = false ->
      prep_out ndim x0 sid h0 st (Err EValue)
        (set_o_heap (o_heap st ++ [x0]) (set_o_x (List.length (o_heap st)) (pr_s0 sid st)))
  | po_bounds : pr_dims ndim x0 = true -> in_bounds C (nudge C x0) = false ->
      prep_out ndim x0 sid h0 st (Err ERuntime) (set_o_flag EXCEEDED_BOUNDARY (pr_s1 sid x0 st))
  | po_eval e : pr_dims ndim x0 = true -> in_bounds C (nudge C x0) = true ->
      fun_evaluate (c_nargout C) (c_resfun C) (pr_ret x0 st) = Err e ->
      prep_out ndim x0 sid h0 st (Err e) (pr_s2 sid x0 st)
  | po_hess pf e : pr_dims ndim x0 = true -> in_bounds C (nudge C x0) = true ->
      fun_evaluate (c_nargout C) (c_resfun C) (pr_ret x0 st) = Ok pf ->
      pr_hess (o_happ st) (List.length x0) h0 pf = Err e ->
      prep_out ndim x0 sid h0 st (Err e) (pr_s2 sid x0 st)
  | po_shape pf hess h' e : pr_dims ndim x0 = true -> in_bounds C (nudge C x0) = true ->
      fun_evaluate (c_nargout C) (c_resfun C) (pr_ret x0 st) = Ok pf ->
      pr_hess (o_happ st) (List.length x0) h0 pf = Ok (hess, h') ->
      (checkdims (List.length x0) pf = Err e
       \/ typed_fout (List.length x0) pf (List.length (o_heap st)) = Err e) ->
      prep_out ndim x0 sid h0 st (Err e) (pr_s3 sid x0 hess h' st)
  | po_notfinite pf hess h' f : pr_dims ndim x0 = true -> in_bounds C (nudge C x0) = true ->
      fun_evaluate (c_nargout C) (c_resfun C) (pr_ret x0 st) = Ok pf ->
      pr_hess (o_happ st) (List.length x0) h0 pf = Ok (hess, h') ->
      checkdims (List.length x0) pf = Ok tt ->
      typed_fout (List.length x0) pf (List.length (o_heap st)) = Ok f ->
      all_finite (fo_fval f) (fo_grad f) (fo_hess f) = false ->
      prep_out ndim x0 sid h0 st (Err ERuntime) (set_o_flag NOT_FINITE (pr_s4 sid x0 hess h' f st))
  | po_ok pf hess h' f : pr_dims ndim x0 = true -> in_bounds C (nudge C x0) = true ->
      fun_evaluate (c_nargout C) (c_resfun C) (pr_ret x0 st) = Ok pf ->
      pr_hess (o_happ st) (List.length x0) h0 pf = Ok (hess, h') ->
      checkdims (List.length x0) pf = Ok tt ->
      typed_fout (List.length x0) pf (List.length (o_heap st)) = Ok f ->
      all_finite (fo_fval f) (fo_grad f) (fo_hess f) = true ->
      prep_out ndim x0 sid h0 st (Ok f) (set_o_conv false (pr_s4 sid x0 hess h' f st)).

  Lemma init_hess_run n h0 pf st :
    init_hess n h0 pf st =
    match pr_hess (o_happ st) n h0 pf with
    | Err e => (Err e, st)
    | Ok (hess, h') => (Ok tt, set_o_hess hess (set_o_happ h' st))
    end.
  Proof.
    unfold init_hess, pr_hess, pr_hess0, bind, get, lift, modify, raise.
    destruct (o_happ st) eqn:Eh.
    - destruct h0; try (destruct (pf_hess pf)); try reflexivity; destruct h_init; reflexivity.
    - destruct (pf_hess pf); try reflexivity. destruct st; cbn in *; subst; reflexivity.
  Qed.

  Lemma prepare_inv ndim x0 sid h0 st r st' :
    prepare E C ndim x0 sid h0 st = (r, st') -> prep_out ndim x0 sid h0 st r st'.
  Proof.
    unfold prepare. intros H.
    rewrite (bind_ok _ _ _ _ _ (reset_run _ _)) in H.
    rewrite (bind_ok _ _ _ _ _ (alloc_run _ _)) in H.
    rewrite (bind_ok _ _ _ _ _ (modify_run _ _)) in H.
    assert (Hh : o_heap (pr_s0 sid st) = o_heap st) by (unfold pr_s0; destruct (pr_id sid); reflexivity).
    assert (He : o_evals (pr_s0 sid st) = o_evals st) by (unfold pr_s0; destruct (pr_id sid); reflexivity).
    assert (Hp : o_happ (pr_s0 sid st) = o_happ st) by (unfold pr_s0; destruct (pr_id sid); reflexivity).
    rewrite Hh in H.
    assert (Hs : forall b, set_o_x (List.length (o_heap st)) (set_o_heap (o_heap st ++ [b]) (pr_s0 sid st))
       = set_o_heap (o_heap st ++ [b]) (set_o_x (List.length (o_heap st)) (pr_s0 sid st))) by reflexivity.
    rewrite Hs in H.
    unfold pr_dims.
    destruct (Nat.ltb 1 ndim) eqn:Ed.
    { apply pair_equal_spec in H as [<- <-]. apply po_dims. unfold pr_dims. now rewrite Ed. }
    destruct (negb _ || _) eqn:Ed2 in H.
    { apply pair_equal_spec in H as [<- <-]. apply po_dims. unfold pr_dims. rewrite Ed.
      apply orb_true_iff in Ed2 as [Ed2|Ed2].
      - apply negb_true_iff in Ed2. rewrite Ed2. reflexivity.
      - rewrite Ed2. now rewrite andb_comm. }
    assert (Hd : pr_dims ndim x0 = true).
    { unfold pr_dims. rewrite Ed. apply orb_false_iff in Ed2 as [Ed2 Ed3].
      apply negb_false_iff in Ed2. now rewrite Ed2, Ed3. }
    clear Ed Ed2.
    apply bind_inv in H as [(w1 & s1 & H1 & H)|(e & H1 & ->)]; [|discriminate H1].
    unfold make_non_degenerate, bind, get, store, modify in H1.
    apply pair_equal_spec in H1 as [_ H2].
    cbn [o_x o_heap set_o_heap set_o_x] in H2. unfold deref in H2. cbn [o_x o_heap set_o_heap set_o_x] in H2.
    rewrite nth_middle, upd_app in H2.
    assert (s1 = pr_s1 sid x0 st) as -> by (rewrite <- H2; reflexivity). clear H2.
    apply bind_inv in H as [(s1 & s2 & H1 & H)|(e & H1 & ->)]; [|discriminate H1].
    unfold get in H1. apply pair_equal_spec in H1 as [H1 <-]. apply ok_inj in H1. subst s1.
    assert (Hx : deref (pr_s1 sid x0 st) (o_x (pr_s1 sid x0 st)) = nudge C x0).
    { unfold deref, pr_s1. cbn [o_x o_heap set_o_heap set_o_x]. apply nth_middle. }
    rewrite Hx in H.
    apply bind_inv in H as [(w2 & s2 & H1 & H)|(e & H1 & ->)].
    2:{ rewrite check_in_bounds_run in H1. destruct in_bounds eqn:Eb; [discriminate|].
        apply pair_equal_spec in H1 as [H1 <-]; injection H1 as <-. now apply po_bounds. }
    rewrite check_in_bounds_run in H1. destruct in_bounds eqn:Eb; [|discriminate].
    apply pair_equal_spec in H1 as [_ <-].
    apply bind_inv in H as [(pf & s2 & H1 & H)|(e & H1 & ->)].
    all: unfold evaluate in H1; rewrite Hx in H1; apply pair_equal_spec in H1 as [H1 Hs2];
      unfold pr_s1 in H1; cbn [o_evals set_o_heap set_o_x] in H1; rewrite He in H1;
      assert (Es : pr_s2 sid x0 st = set_o_evals
                (o_evals (pr_s1 sid x0 st) ++
                  [(nudge C x0, e_obj E (List.length (o_evals (pr_s1 sid x0 st))) (nudge C x0))])
                (pr_s1 sid x0 st))
        by (unfold pr_s2, pr_ret, pr_s1; cbn [o_evals set_o_heap set_o_x]; rewrite He; reflexivity);
      rewrite <- Es in Hs2; subst.
    2:{ apply po_eval; auto. }
    assert (Hp2 : o_happ (pr_s2 sid x0 st) = o_happ st) by exact Hp.
    apply bind_inv in H as [(w3 & s2 & H2 & H)|(e & H2 & ->)].
    all: rewrite init_hess_run, Hp2 in H2; destruct (pr_hess _ _ _ _) as [[hess h']|e'] eqn:Eh in H2;
      try discriminate H2.
    2:{ apply pair_equal_spec in H2 as [H2 <-]; injection H2 as <-. eapply po_hess; eauto. }
    apply pair_equal_spec in H2 as [_ H2].
    assert (s2 = pr_s3 sid x0 hess h' st) as -> by (rewrite <- H2; reflexivity). clear H2.
    apply bind_inv in H as [([] & s2 & H2 & H)|(e & H2 & ->)].
    2:{ apply lift_inv in H2 as [H2 ->]. eapply po_shape; eauto. }
    apply lift_ok_inv in H2 as [Hc ->].
    apply bind_inv in H as [(f & s2 & H2 & H)|(e & H2 & ->)].
    2:{ apply lift_inv in H2 as [H2 ->]. eapply po_shape; eauto. }
    apply lift_ok_inv in H2 as [Ht ->].
    rewrite (bind_ok _ _ _ _ _ (modify_run _ _)) in H.
    rewrite (bind_ok _ _ _ _ _ (track_minimum_run _ _)) in H.
    match type of H with bind _ _ ?s = _ => change s with (pr_s4 sid x0 hess h' f st) in H end.
    apply bind_inv in H as [(a'' & s2 & H2 & H)|(e & H2 & ->)].
    all: unfold check_finite_fo in H2; rewrite check_finite_run in H2;
      destruct all_finite eqn:Ef; try discriminate H2.
    2:{ apply pair_equal_spec in H2 as [H2 <-]; injection H2 as <-. eapply po_notfinite; eauto. }
    apply pair_equal_spec in H2 as [_ <-].
    rewrite (bind_ok _ _ _ _ _ (modify_run _ _)) in H.
    apply pair_equal_spec in H as [<- <-]. eapply po_ok; eauto.
  Qed.
End MinFacts.
