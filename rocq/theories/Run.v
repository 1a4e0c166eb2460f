(** Invariants of a run of minimize (proof library) *)
From Coq Require Import ZArith List Bool String Lia.
From Verif Require Import Num Constants Subproblem HessApprox Steps TrustRegion Minimize
  ER NumFacts MonadFacts MinFacts Spec.
Import ListNotations.
Local Open Scope num_scope.

Section Run.
  Context {T : Type} {N : Num T}.
  Local Notation vec := (list T).
  Local Notation mat := (list (list T)).
  Local Notation opt := (opt T).
  Local Notation M := (M T).
  Variable E : env T.
  Variable C : cfg T.
  Local Notation O := (c_opts C).

  (** *** projections of the intermediate states *)
  Ltac s5 := unfold it_s5; destruct better; reflexivity.
  Lemma s5_heap st sp f : o_heap (it_s5 E C st sp f) = o_heap st ++ [it_trial st sp]. Proof. s5. Qed.
  Lemma s5_x st sp f : o_x (it_s5 E C st sp f) = o_x st. Proof. s5. Qed.
  Lemma s5_fval st sp f : o_fval (it_s5 E C st sp f) = o_fval st. Proof. s5. Qed.
  Lemma s5_grad st sp f : o_grad (it_s5 E C st sp f) = o_grad st. Proof. s5. Qed.
  Lemma s5_hess st sp f : o_hess (it_s5 E C st sp f) = o_hess st. Proof. s5. Qed.
  Lemma s5_happ st sp f : o_happ (it_s5 E C st sp f) = o_happ st. Proof. s5. Qed.
  Lemma s5_iter st sp f : o_iter (it_s5 E C st sp f) = (o_iter st + 1)%Z. Proof. s5. Qed.
  Lemma s5_delta_iter st sp f : o_delta_iter (it_s5 E C st sp f) = o_delta st. Proof. s5. Qed.
  Lemma s5_evals st sp f :
    o_evals (it_s5 E C st sp f) = o_evals st ++ [(it_trial st sp, it_ret E st sp)]. Proof. s5. Qed.
  Lemma s5_files st sp f : o_files (it_s5 E C st sp f) = o_files st. Proof. s5. Qed.
  Lemma s5_hist st sp f : o_hist (it_s5 E C st sp f) = o_hist st. Proof. s5. Qed.
  Lemma s5_start_id st sp f : o_start_id (it_s5 E C st sp f) = o_start_id st. Proof. s5. Qed.
  Lemma s5_clk st sp f : o_clk (it_s5 E C st sp f) = o_clk st. Proof. s5. Qed.
  Lemma s5_starttime st sp f : o_starttime (it_s5 E C st sp f) = o_starttime st. Proof. s5. Qed.
  Lemma s5_delta st sp f :
    o_delta (it_s5 E C st sp f) = tru_delta C (it_s2 E st sp) f sp (it_dv C st). Proof. s5. Qed.
  Lemma s5_ratio st sp f :
    o_tr_ratio (it_s5 E C st sp f) = tru_ratio (it_s2 E st sp) f sp (it_dv C st). Proof. s5. Qed.
  Lemma s5_conv st sp f :
    o_conv (it_s5 E C st sp f) = osome (conv_result C (it_s3 E C st sp f) sp f). Proof. s5. Qed.
  Lemma s5_flag st sp f :
    o_flag (it_s5 E C st sp f) = oflag (o_flag st) (conv_result C (it_s3 E C st sp f) sp f). Proof. s5. Qed.
  Lemma s5_fval_min st sp f :
    o_fval_min (it_s5 E C st sp f) = if better st f then fo_fval f else o_fval_min st.
  Proof. unfold it_s5. change (better (it_s4 E C st sp f) f) with (better st f). destruct better; reflexivity. Qed.
  Lemma s5_grad_min st sp f :
    o_grad_min (it_s5 E C st sp f) = if better st f then fo_grad f else o_grad_min st.
  Proof. unfold it_s5. change (better (it_s4 E C st sp f) f) with (better st f). destruct better; reflexivity. Qed.
  Lemma s5_xmin st sp f :
    o_xmin (it_s5 E C st sp f) = if better st f then fo_x f else o_xmin st.
  Proof. unfold it_s5. change (better (it_s4 E C st sp f) f) with (better st f). destruct better; reflexivity. Qed.

  (** *** induction over the loop *)
  Lemma loop_ok fuel f st st' (I : fout T -> opt -> Prop) :
    (forall f s s1 f' s', I f s -> check_continue E C s = (Ok true, s1) ->
       iteration E C f s1 = (Ok f', s') -> I f' s') ->
    I f st -> loop E C fuel f st = (Ok tt, st') ->
    exists f1 s, I f1 s /\ check_continue E C s = (Ok false, st').
  Proof.
    intros HI. revert f st. induction fuel as [|k IH]; intros f st Hi H; [discriminate H|].
    simpl in H. apply bind_ok_inv in H as (c & s1 & H1 & H2). destruct c.
    - apply bind_ok_inv in H2 as (f' & s2 & H2 & H3). apply (IH f' s2); auto. eapply HI; eauto.
    - injection H2 as <-. eauto.
  Qed.
  Lemma loop_err fuel f st e st' (I : fout T -> opt -> Prop) :
    (forall f s s1 f' s', I f s -> check_continue E C s = (Ok true, s1) ->
       iteration E C f s1 = (Ok f', s') -> I f' s') ->
    I f st -> loop E C fuel f st = (Err e, st') ->
    (e = EDiverge /\ exists f1, I f1 st')
    \/ exists f1 s s1, I f1 s /\ check_continue E C s = (Ok true, s1)
                       /\ iteration E C f1 s1 = (Err e, st').
  Proof.
    intros HI. revert f st. induction fuel as [|k IH]; intros f st Hi H.
    - unfold loop, raise in H. injection H as <- <-. eauto.
    - simpl in H. apply bind_inv in H as [(c & s1 & H1 & H2)|(e' & H1 & _)].
      + destruct c; [|discriminate H2].
        apply bind_inv in H2 as [(f' & s2 & H2 & H3)|(e' & H2 & H3)].
        * eapply IH; [|eassumption]. eapply HI; eauto.
        * injection H3 as <-. right. eauto 10.
      + rewrite check_continue_run in H1.
        destruct o_conv; [discriminate|]. destruct (_ <=? _)%Z; [discriminate|].
        cbv zeta in H1. destruct out_of_time; [discriminate|]. destruct (_ <? _); discriminate.
  Qed.

  Lemma check_continue_true s s1 :
    check_continue E C s = (Ok true, s1) ->
    s1 = set_o_clk (S (o_clk s)) s /\ o_conv s = false /\ (o_iter s < op_maxiter O)%Z
    /\ o_delta s <? spacing1 = false.
  Proof.
    rewrite check_continue_run.
    destruct o_conv; [discriminate|]. destruct (_ <=? _)%Z eqn:Ei; [discriminate|].
    cbv zeta. destruct out_of_time; [discriminate|]. destruct (_ <? _) eqn:Ed; [discriminate|].
    intros H. apply pair_equal_spec in H as [_ <-].
    apply Z.leb_gt in Ei. auto.
  Qed.
  Lemma check_continue_false s s1 :
    check_continue E C s = (Ok false, s1) ->
    exists fl k, s1 = set_o_flag fl (set_o_clk k s).
  Proof.
    rewrite check_continue_run.
    assert (Ef : s = set_o_flag (o_flag s) (set_o_clk (o_clk s) s)) by now destruct s.
    destruct o_conv.
    { intros H. apply pair_equal_spec in H as [_ <-]. exists (o_flag s), (o_clk s). exact Ef. }
    destruct (_ <=? _)%Z.
    { intros H. apply pair_equal_spec in H as [_ <-]. exists XF_MAXITER, (o_clk s). now destruct s. }
    cbv zeta. destruct out_of_time.
    { intros H. apply pair_equal_spec in H as [_ <-]. eauto. }
    destruct (_ <? _); [|discriminate].
    intros H. apply pair_equal_spec in H as [_ <-]. eauto.
  Qed.

  Lemma write_history_inv s r st' :
    write_history C s = (r, st') ->
    (r = Ok tt /\ op_history O = None /\ st' = s)
    \/ (exists file, op_history O = Some file /\ r = Ok tt
          /\ existsb (fun g => String.eqb (fst (fst g)) file && String.eqb (snd (fst g)) (o_start_id s))
                   (o_files s) = false
          /\ st' = set_o_files (o_files s ++ [((file, o_start_id s), o_hist s)]) s)
    \/ (exists file, op_history O = Some file /\ r = Err EExternal /\ st' = s
          /\ existsb (fun g => String.eqb (fst (fst g)) file && String.eqb (snd (fst g)) (o_start_id s))
                   (o_files s) = true).
  Proof.
    unfold write_history. destruct (op_history O) as [file|].
    - rewrite (bind_ok get _ s s s eq_refl).
      destruct existsb eqn:Ex.
      + intros H. apply pair_equal_spec in H as [<- <-]. right. right. eauto.
      + intros H. apply pair_equal_spec in H as [<- <-]. right. left. eauto.
    - intros H. apply pair_equal_spec in H as [<- <-]. auto.
  Qed.


  (** *** a completed pass of the loop, attribute by attribute *)
  Record iter_ok (fold : fout T) (st : opt) (f' : fout T) (st' : opt) (sp : step T) (f : fout T)
    : Prop := mkIterOk {
    ik_ev : evaluated E C st sp f;
    ik_fx : fo_x f = List.length (o_heap st);
    ik_f' : f' = if it_acc E C st sp f then f else fold;
    ik_bounds : it_acc E C st sp f = true -> in_bounds C (it_trial st sp) = true;
    ik_hess : if it_acc E C st sp f
              then new_hess (it_s5 E C st sp f) sp f fold = Ok (o_hess st', o_happ st')
              else o_hess st' = o_hess st /\ o_happ st' = o_happ st;
    ik_heap : o_heap st' = o_heap st ++ [if it_acc E C st sp f then nudge C (it_trial st sp)
                                         else it_trial st sp];
    ik_x : o_x st' = if it_acc E C st sp f then List.length (o_heap st) else o_x st;
    ik_fval : o_fval st' = if it_acc E C st sp f then fo_fval f else o_fval st;
    ik_grad : o_grad st' = if it_acc E C st sp f then fo_grad f else o_grad st;
    ik_xmin : o_xmin st' = if better st f then fo_x f else o_xmin st;
    ik_fval_min : o_fval_min st' = if better st f then fo_fval f else o_fval_min st;
    ik_grad_min : o_grad_min st' = if better st f then fo_grad f else o_grad_min st;
    ik_delta : o_delta st' = tru_delta C (it_s2 E st sp) f sp (it_dv C st);
    ik_delta_iter : o_delta_iter st' = o_delta st;
    ik_ratio : o_tr_ratio st' = tru_ratio (it_s2 E st sp) f sp (it_dv C st);
    ik_since : o_since st' = tru_since C (it_s2 E st sp) f sp (it_dv C st);
    ik_ninter : o_ninter st' = tru_ninter C (it_s2 E st sp) f sp (it_dv C st);
    ik_iter : o_iter st' = (o_iter st + 1)%Z;
    ik_conv : o_conv st' = osome (conv_result C (it_s3 E C st sp f) sp f);
    ik_flag : o_flag st' = oflag (o_flag st) (conv_result C (it_s3 E C st sp f) sp f);
    ik_evals : o_evals st' = o_evals st ++ [(it_trial st sp, it_ret E st sp)];
    ik_files : o_files st' = o_files st;
    ik_sid : o_start_id st' = o_start_id st;
    ik_starttime : o_starttime st' = o_starttime st;
    ik_clk : o_clk st' = o_clk st;
    ik_nid : o_nid st' = o_nid st;
    ik_hist : if has_history C then
         exists vals, map fst vals = hist_keys
          /\ In ("fval"%string, HNum (fo_fval f)) vals
          /\ In ("accept"%string, HBool (it_acc E C st sp f)) vals
          /\ In ("tr_radius"%string, HNum (o_delta_iter st')) vals
          /\ In ("tr_ratio"%string, HNum (o_tr_ratio st')) vals
          /\ o_hist st' = hist_append_all vals (o_hist st)
       else o_hist st' = o_hist st
  }.
  Lemma s5_since st sp f :
    o_since (it_s5 E C st sp f) = tru_since C (it_s2 E st sp) f sp (it_dv C st). Proof. s5. Qed.
  Lemma s5_ninter st sp f :
    o_ninter (it_s5 E C st sp f) = tru_ninter C (it_s2 E st sp) f sp (it_dv C st). Proof. s5. Qed.
  Lemma s5_nid st sp f : o_nid (it_s5 E C st sp f) = o_nid st. Proof. s5. Qed.

  Lemma iteration_ok fold st f' st' :
    iteration E C fold st = (Ok f', st') ->
    exists sp f, iter_ok fold st f' st' sp f.
  Proof.
    intros H. apply iteration_inv in H.
    inversion H as [| | | | | | |sp f st1 st2 Hev Hup Hh Ef Est]. subst st2. clear H. subst f'.
    exists sp, f.
    assert (Hx : fo_x f = List.length (o_heap st)).
    { destruct (ev_pf _ _ _ _ _ Hev) as (pf & _ & Ht). unfold typed_fout in Ht.
      destruct (pf_fval pf); try discriminate. destruct (pf_grad pf); try discriminate.
      destruct (Nat.eqb _ _); try discriminate. destruct (pf_hess pf); try discriminate.
      - injection Ht as <-. reflexivity.
      - destruct rect; try discriminate. injection Ht as <-. reflexivity. }
    assert (Hs : st' = set_o_hist (o_hist st') st1).
    { destruct (has_history C).
      - destruct Hh as (vals & _ & _ & _ & _ & _ & ->). reflexivity.
      - subst st'. now destruct st1. }
    assert (Hhist : if has_history C then
         exists vals, map fst vals = hist_keys
          /\ In ("fval"%string, HNum (fo_fval f)) vals
          /\ In ("accept"%string, HBool (it_acc E C st sp f)) vals
          /\ In ("tr_radius"%string, HNum (o_delta_iter st1)) vals
          /\ In ("tr_ratio"%string, HNum (o_tr_ratio st1)) vals
          /\ o_hist st' = hist_append_all vals (o_hist st1)
       else o_hist st' = o_hist st1).
    { destruct (has_history C).
      - destruct Hh as (vals & H1 & H2 & H3 & H4 & H5 & ->). exists vals. auto 10.
      - now rewrite Hh. }
    rewrite Hs. clear Hh Hs. set (hh := o_hist st') in *.
    assert (Hd : deref (it_s5 E C st sp f) (fo_x f) = it_trial st sp).
    { unfold deref. rewrite s5_heap, Hx. apply nth_middle. }
    destruct (it_acc E C st sp f) eqn:Ea.
    - rewrite update_run in Hup. destruct new_hess as [[hess h']|e] eqn:En; [|discriminate Hup].
      rewrite Hd in Hup. destruct in_bounds eqn:Eb; [|discriminate Hup].
      cbv zeta in Hup. apply pair_equal_spec in Hup as [_ Hup]. subst st1.
      rewrite s5_heap, Hx, upd_app in *.
      constructor; rewrite ?Ea; auto.
      all: try (unfold it_s5; destruct better; reflexivity).
      all: try exact (s5_xmin st sp f).
      all: try exact (s5_fval_min st sp f).
      all: try exact (s5_grad_min st sp f).
      + destruct (has_history C).
        * destruct Hhist as (vals & H1 & H2 & H3 & H4 & H5 & H6). exists vals.
          rewrite <- (s5_hist st sp f). repeat split; auto.
        * rewrite <- (s5_hist st sp f). exact Hhist.
    - subst st1. constructor; rewrite ?Ea; auto.
      all: try discriminate.
      all: try (unfold it_s5; destruct better; reflexivity).
      all: try (split; unfold it_s5; destruct better; reflexivity).
      all: try exact (s5_xmin st sp f).
      all: try exact (s5_fval_min st sp f).
      all: try exact (s5_grad_min st sp f).
      + destruct (has_history C).
        * destruct Hhist as (vals & H1 & H2 & H3 & H4 & H5 & H6). exists vals.
          rewrite <- (s5_hist st sp f). repeat split; auto.
        * rewrite <- (s5_hist st sp f). exact Hhist.
  Qed.

  (** *** minimize in terms of loop heads *)
  Section Min.
  Variables (fuel ndim : nat) (x0 : vec) (sid : option string) (h0 : hess0_arg T) (st : opt).
  Local Notation LH := (loop_head E C ndim x0 sid h0 st).

  Lemma minimize_ok_inv fv x g h st' :
    minimize E C fuel ndim x0 sid h0 st = (Ok (fv, x, g, h), st') ->
    exists f s s1, LH f s /\ check_continue E C s = (Ok false, s1)
      /\ write_history C s1 = (Ok tt, st')
      /\ fv = o_fval st' /\ x = o_x st' /\ g = o_grad st' /\ h = o_hess st'.
  Proof.
    unfold minimize. intros H.
    apply bind_ok_inv in H as (f & s1 & H1 & H).
    apply bind_ok_inv in H as ([] & s2 & H2 & H).
    apply bind_ok_inv in H as ([] & s3 & H3 & H).
    rewrite (bind_ok get _ s3 s3 s3 eq_refl) in H.
    unfold ret in H. apply pair_equal_spec in H as [H <-]. injection H as <- <- <- <-.
    apply (loop_ok _ _ _ _ LH) in H2 as (f1 & s & H4 & H5).
    - exists f1, s, s2. auto 10.
    - intros. eapply lh_next; eauto.
    - now apply lh_start.
  Qed.

  Lemma minimize_err_inv e st' :
    minimize E C fuel ndim x0 sid h0 st = (Err e, st') ->
    prepare E C ndim x0 sid h0 st = (Err e, st')
    \/ (e = EDiverge /\ exists f, LH f st')
    \/ (exists f s s1, LH f s /\ check_continue E C s = (Ok true, s1)
                       /\ iteration E C f s1 = (Err e, st'))
    \/ (exists f s s1, LH f s /\ check_continue E C s = (Ok false, s1)
        /\ write_history C s1 = (Err e, st')).
  Proof.
    unfold minimize. intros H.
    apply bind_inv in H as [(f & s1 & H1 & H)|(e' & H1 & H)]; [|injection H as <-; auto].
    apply bind_inv in H as [([] & s2 & H2 & H)|(e' & H2 & H)].
    2:{ injection H as <-. apply (loop_err _ _ _ _ _ LH) in H2 as [H2|H2]; auto.
        intros; eapply lh_next; eauto. now apply lh_start. }
    apply (loop_ok _ _ _ _ LH) in H2 as (f1 & s & H4 & H5).
    2: intros; eapply lh_next; eauto. 2: now apply lh_start.
    apply bind_inv in H as [([] & s3 & H3 & H)|(e' & H3 & H)].
    - rewrite (bind_ok get _ s3 s3 s3 eq_refl) in H. discriminate H.
    - injection H as <-. right; right; right. eauto 10.
  Qed.
  End Min.
End Run.
