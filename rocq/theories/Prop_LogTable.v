(** C54: the table written to the log *)
From Coq Require Import ZArith List Bool String Lia.
From Verif Require Import Num Constants Subproblem HessApprox Steps TrustRegion Minimize LogTable
  ER F64 NumFacts MonadFacts MinFacts Spec Run RunInv RunFrame Prop_Run Witness.
Import ListNotations.
Local Open Scope num_scope.

(** ** Specification *)
Section Spec.
  Context {T : Type} {N : Num T}.

  (** [table k v l k' v' fl]: the messages [l] continue a table whose last row is numbered [k] and shows the value [v]:
      rows numbered k+1, k+2, ... up to k', every tenth preceded by the header; the value column strictly decreases in
      accepted rows and repeats in rejected ones, down to [v']; the last message, and no other, announces the stop [fl] *)
  Inductive table : Z -> T -> list (lmsg T) -> Z -> T -> exit_flag -> Prop :=
  | tb_stop k v fl : table k v [LStop fl] k v fl
  | tb_row k v r l k' v' fl :
      r_iter r = (k + 1)%Z ->
      (if r_acc r then r_fval r <? v = true /\ n0 <? r_ratio r = true else r_fval r = v) ->
      table (k + 1) (r_fval r) l k' v' fl ->
      table k v ((if (r_iter r mod 10 =? 0)%Z then [LHeader] else []) ++ LRow r :: l) k' v' fl.

  (** number, value and accepted columns of all rows, the initial one included *)
  Definition columns (l : list (lmsg T)) : list (Z * T * bool) :=
    flat_map (fun m => match m with
                       | LInitial i v _ _ a => [(i, v, a)]
                       | LRow r => [(r_iter r, r_fval r, r_acc r)]
                       | _ => []
                       end) l.
  Definition stops (l : list (lmsg T)) : list exit_flag :=
    flat_map (fun m => match m with LStop f => [f] | _ => [] end) l.
  Definition headers (l : list (lmsg T)) : nat :=
    List.length (filter (fun m => match m with LHeader => true | _ => false end) l).
  (** k+1, k+2, ..., k+n *)
  Definition upto (k : Z) (n : nat) : list Z := map (fun i => (k + 1 + Z.of_nat i)%Z) (seq 0 n).
End Spec.

Section LogProps.
  Context {T : Type} {N : Num T} {L : NumLaws T}.
  Local Notation vec := (list T).
  Local Notation mat := (list (list T)).
  Variable E : env T.
  Variable C : cfg T.
  Local Notation O := (c_opts C).

  Definition erases {A} (w : W T A) (m : M T A) : Prop := forall st, fst (w st) = m st.
  Lemma erases_lift {A} (m : M T A) : erases (wlift m) m.
  Proof. intros st. reflexivity. Qed.
  Lemma erases_bind {A B} (w : W T A) (m : M T A) (f : A -> W T B) (g : A -> M T B) :
    erases w m -> (forall a, erases (f a) (g a)) -> erases (wbind w f) (bind m g).
  Proof.
    intros H1 H2 st. unfold wbind, bind. specialize (H1 st). destruct (w st) as [[[a|e] s1] l1]; simpl in H1; rewrite <- H1; auto.
    specialize (H2 a s1). destruct (f a s1) as [o l2]. exact H2.
  Qed.
  Lemma erases_tell {B} g (f : unit -> W T B) (m : M T B) : erases (f tt) m -> erases (wbind (wtell g) f) m.
  Proof. intros H st. unfold wbind, wtell. specialize (H st). destruct (f tt st). exact H. Qed.
  Lemma erases_ret {A} (w : W T A) (m : M T A) : erases (wbind w (fun a => wlift (ret a))) m -> erases w m.
  Proof.
    intros H st. specialize (H st). unfold wbind in H. destruct (w st) as [[[a|e] s1] l1]; exact H.
  Qed.
  Ltac er := repeat first [ apply erases_bind; [apply erases_lift|intros] | apply erases_tell | apply erases_lift ].

  Lemma erases_continue : erases (check_continue_w E C) (check_continue E C).
  Proof.
    intros st. unfold check_continue_w, wbind, wlift, wtell, get, ret.
    destruct (check_continue E C st) as [[c|e] s1]; reflexivity.
  Qed.
  Lemma erases_convergence sp f : erases (check_convergence_w C sp f) (check_convergence C sp f).
  Proof. intros st. unfold check_convergence_w, wbind, wlift, wtell. rewrite check_convergence_run. reflexivity. Qed.
  Lemma erases_iteration f : erases (iteration_w E C f) (iteration E C f).
  Proof.
    unfold iteration_w, iteration, log_step.
    repeat first [ apply erases_bind; [first [apply erases_lift|apply erases_convergence]|intros] | apply erases_tell | apply erases_lift ].
  Qed.
  Lemma erases_loop n : forall f, erases (loop_w E C n f) (loop E C n f).
  Proof.
    induction n as [|n IH]; intros f; [apply erases_lift|]. cbn [loop loop_w].
    apply erases_bind; [apply erases_continue|]. intros []; [|apply erases_lift].
    apply erases_bind; [apply erases_iteration|]. intros. apply IH.
  Qed.
  Lemma erases_prepare ndim x0 sid h0 : erases (prepare_w E C ndim x0 sid h0) (prepare E C ndim x0 sid h0).
  Proof.
    unfold prepare_w, prepare, log_header, log_step_initial. er.
    destruct (Nat.ltb 1 ndim); [apply erases_lift|]. destruct (_ || _); [apply erases_lift|]. er.
  Qed.
  (** logging changes nothing: the logged run returns what minimize returns and leaves the optimizer in the same state *)
  Theorem C54_logging_is_transparent fuel ndim x0 sid h0 st :
    fst (minimize_w E C fuel ndim x0 sid h0 st) = minimize E C fuel ndim x0 sid h0 st.
  Proof.
    apply erases_bind; [apply erases_prepare|]. intros. apply erases_bind; [apply erases_loop|]. intros. er.
  Qed.

  Lemma wbind_lift {A B} (m : M T A) (k : A -> W T B) st :
    wbind (wlift m) k st = match m st with (Ok a, s1) => k a s1 | (Err e, s1) => ((Err e, s1), []) end.
  Proof. unfold wbind, wlift. destruct (m st) as [[a|e] s1]; auto. destruct (k a s1). reflexivity. Qed.
  Lemma wbind_tell {B} g (k : unit -> W T B) st o l :
    wbind (wtell g) k st = (o, l) -> exists l2, k tt st = (o, l2) /\ l = g st ++ l2.
  Proof.
    unfold wbind, wtell. destruct (k tt st) as [o2 l2]. intros H. injection H as <- <-. eauto.
  Qed.
  Lemma wlift_ok_inv {A B} (m : M T A) (k : A -> W T B) st b st' l :
    wbind (wlift m) k st = ((Ok b, st'), l) -> exists a s1, m st = (Ok a, s1) /\ k a s1 = ((Ok b, st'), l).
  Proof. rewrite wbind_lift. destruct (m st) as [[a|e] s1]; [eauto|discriminate]. Qed.

  Lemma iteration_w_log fold st f' st' l :
    iteration_w E C fold st = ((Ok f', st'), l) ->
    exists sp f, iter_ok E C fold st f' st' sp f
      /\ l = (if ((o_iter st + 1) mod 10 =? 0)%Z then [LHeader] else [])
             ++ LRow (row_of (it_acc E C st sp f) sp f (it_s3 E C st sp f))
             :: match conv_result C (it_s3 E C st sp f) sp f with Some fl => [LStop fl] | None => [] end.
  Proof.
    intros H. assert (He : iteration E C fold st = (Ok f', st')) by (rewrite <- erases_iteration, H; reflexivity).
    apply iteration_ok in He as (sp & f & K). exists sp, f. split; auto.
    pose proof (ik_ev _ _ _ _ _ _ _ _ K) as Kev. destruct (ev_pf _ _ _ _ _ Kev) as (pf & Hpf & Hty).
    pose proof (ev_tr _ _ _ _ _ Kev) as Htr. pose proof (ev_cur _ _ _ _ _ Kev) as Hcur. pose proof (ev_fin _ _ _ _ _ Kev) as Hfin.
    clear Kev K. unfold iteration_w in H.
    apply wlift_ok_inv in H as (a & s1 & H1 & H). injection H1 as <- <-.
    apply wlift_ok_inv in H as (a & s1 & H1 & H). injection H1 as <- <-.
    apply wlift_ok_inv in H as (a & s1 & H1 & H). injection H1 as <- <-.
    change (set_o_delta_iter (o_delta (set_o_iter (o_iter st + 1)%Z st)) (set_o_iter (o_iter st + 1)%Z st))
      with (it_s1 st) in H.
    apply wlift_ok_inv in H as (a & s1 & H1 & H).
    unfold check_finite_self, bind, get in H1. rewrite check_finite_run in H1.
    match type of H1 with context [all_finite ?a ?b ?c] =>
      change (all_finite a b c) with (all_finite (o_fval st) (o_grad st) (Some (o_hess st))) in H1 end.
    rewrite Hcur in H1. injection H1 as <- <-.
    apply wlift_ok_inv in H as (sp' & s1 & H1 & H). apply lift_ok_inv in H1 as [Htr' ->].
    change (it_tr E C st = Ok sp') in Htr'. rewrite Htr in Htr'. injection Htr' as <-.
    apply wlift_ok_inv in H as (xn & s1 & H1 & H). injection H1 as <- <-.
    apply wlift_ok_inv in H as (pf' & s1 & H1 & H).
    unfold evaluate in H1; injection H1 as H1 <-;
      unfold deref in H1; cbn [o_heap o_evals set_o_heap] in H1;
      rewrite nth_middle in H1.
    change (fun_evaluate (c_nargout C) (c_resfun C) (it_ret E st sp) = Ok pf') in H1. rewrite Hpf in H1. injection H1 as <-.
    unfold deref in H; cbn [o_heap o_evals set_o_heap] in H; rewrite ?nth_middle in H.
    match type of H with _ ?s = _ => change s with (it_s2 E st sp) in H end.
    apply wlift_ok_inv in H as (f1 & s1 & H1 & H). apply lift_ok_inv in H1 as [Hty' ->].
    match type of Hty' with typed_fout ?a ?b ?c = _ =>
      change (typed_fout a b c) with (typed_fout (List.length (deref st (o_x st))) pf (List.length (o_heap st))) in Hty' end.
    rewrite Hty in Hty'. injection Hty' as <-.
    apply wlift_ok_inv in H as (a & s1 & H1 & H).
    assert (s1 = it_s2 E st sp) as ->.
    { unfold when in H1. destruct (nisfin (fo_fval f)).
      - unfold check_finite_fo in H1. rewrite check_finite_run, Hfin in H1 by auto. congruence.
      - injection H1; auto. }
    clear H1.
    apply wlift_ok_inv in H as (acc & s1 & H1 & H). rewrite update_tr_radius_run in H1.
    apply pair_equal_spec in H1 as [H1 H2]. apply ok_inj in H1.
    change (it_s3 E C st sp f = s1) in H2. subst s1.
    change (it_acc E C st sp f = acc) in H1. subst acc.
    apply wbind_tell in H as (l1 & H & ->).
    change (o_iter (it_s3 E C st sp f)) with (o_iter st + 1)%Z. f_equal.
    unfold log_step in H. apply wbind_tell in H as (l2 & H & ->). cbn [app]. f_equal.
    unfold check_convergence_w in H. unfold wbind at 1 in H. unfold wbind at 1 in H. unfold wlift at 1 in H.
    rewrite check_convergence_run in H. unfold wtell in H.
    match type of H with (let '(_, _) := ?w in _) = _ => destruct w as [o3 l3] eqn:Ew end.
    assert (l3 = []) as ->.
    { apply pair_equal_spec in H as [Ho _]. subst o3.
      apply wlift_ok_inv in Ew as (? & ? & _ & Ew). apply wlift_ok_inv in Ew as (? & ? & _ & Ew).
      apply wlift_ok_inv in Ew as (? & ? & _ & Ew). unfold wlift in Ew. apply pair_equal_spec in Ew as [_ Ew]. auto. }
    apply pair_equal_spec in H as [_ <-]. rewrite app_nil_r. cbn [app].
    destruct (conv_result C (it_s3 E C st sp f) sp f); reflexivity.
  Qed.

  Lemma s3_iter st sp f : o_iter (it_s3 E C st sp f) = (o_iter st + 1)%Z.
  Proof. reflexivity. Qed.
  Lemma s3_fval st sp f : o_fval (it_s3 E C st sp f) = o_fval st.
  Proof. reflexivity. Qed.
  Lemma s3_grad st sp f : o_grad (it_s3 E C st sp f) = o_grad st.
  Proof. reflexivity. Qed.
  Lemma s3_delta_iter st sp f : o_delta_iter (it_s3 E C st sp f) = o_delta st.
  Proof. reflexivity. Qed.
  Lemma s3_ratio st sp f : o_tr_ratio (it_s3 E C st sp f) = tru_ratio (it_s2 E st sp) f sp (it_dv C st).
  Proof. reflexivity. Qed.
  Lemma clk_iter k (s : opt T) : o_iter (set_o_clk k s) = o_iter s.  Proof. reflexivity. Qed.
  Lemma clk_fval k (s : opt T) : o_fval (set_o_clk k s) = o_fval s.  Proof. reflexivity. Qed.
  Lemma clk_grad k (s : opt T) : o_grad (set_o_clk k s) = o_grad s.  Proof. reflexivity. Qed.
  Lemma clk_delta k (s : opt T) : o_delta (set_o_clk k s) = o_delta s.  Proof. reflexivity. Qed.

  Lemma check_continue_w_log st b st' l :
    check_continue_w E C st = ((Ok b, st'), l) ->
    check_continue E C st = (Ok b, st') /\ l = if b || o_conv st then [] else [LStop (o_flag st')].
  Proof.
    intros H. assert (He : check_continue E C st = (Ok b, st')) by (rewrite <- erases_continue, H; reflexivity).
    split; auto. unfold check_continue_w in H. rewrite wbind_lift in H. unfold get in H.
    rewrite wbind_lift, He in H. apply wbind_tell in H as (l2 & H & ->).
    unfold wlift, ret in H. apply pair_equal_spec in H as [_ <-]. now rewrite app_nil_r.
  Qed.

  Variables (ndim : nat) (x0 : vec) (sid : option string) (h0 : hess0_arg T) (st : opt T).
  Local Notation head := (loop_head E C ndim x0 sid h0 st).

  (** the messages of one pass: header if the number of the pass is a multiple of ten; a row with the number of the pass,
      the value held afterwards, the difference between the trial value and the value held before (0-like if the trial
      value is not finite), the trust-region ratio, the radius used, the gradient norm before the pass, the length and
      type of the step and whether it was accepted; the reason for stopping if the pass converged *)
  Theorem C54_messages_of_a_pass f s s1 f' s' l :
    head f s -> check_continue E C s = (Ok true, s1) -> iteration_w E C f s1 = ((Ok f', s'), l) ->
    exists sp r v g,
      proposes E C s sp /\ o_evals s' = o_evals s ++ [(trial_point s sp, r)]
      /\ value_of C r = Some v /\ gradient_of C r = Some g
      /\ l = (if (o_iter s' mod 10 =? 0)%Z then [LHeader] else [])
             ++ LRow (mkRow (o_iter s') (o_fval s')
                        (if nisfin v then v - o_fval s else o_fval s - o_fval s)
                        (o_tr_ratio s') (o_delta s) (norm (o_grad s))
                        (norm (vadd (st_s sp) (st_s0 sp))) (st_type sp) (accepts C s sp v g))
             :: (if o_conv s' then [LStop (o_flag s')] else []).
  Proof.
    intros Hl Hc Hi. apply check_continue_true in Hc as (-> & _).
    apply iteration_w_log in Hi as (sp & fn & K & ->).
    pose proof (ik_ev _ _ _ _ _ _ _ _ K) as Kev. pose proof (ik_evals _ _ _ _ _ _ _ _ K) as Ke.
    pose proof (ik_iter _ _ _ _ _ _ _ _ K) as Kit. pose proof (ik_ratio _ _ _ _ _ _ _ _ K) as Kr.
    pose proof (ik_fval _ _ _ _ _ _ _ _ K) as Kf. pose proof (ik_conv _ _ _ _ _ _ _ _ K) as Kc.
    pose proof (ik_flag _ _ _ _ _ _ _ _ K) as Kfl.
    destruct (ev_pf _ _ _ _ _ Kev) as (pf & Hpf & Hty).
    destruct (value_typed C _ _ _ _ _ Hpf Hty) as [Hv Hg].
    pose proof (ev_tr _ _ _ _ _ Kev) as Htr. apply proposes_it_tr in Htr.
    exists sp, (it_ret E (set_o_clk (S (o_clk s)) s) sp), (fo_fval fn), (fo_grad fn).
    split; [exact Htr|]. split; [exact Ke|]. split; auto. split; auto.
    rewrite Kit, clk_iter. f_equal. f_equal.
    - f_equal. rewrite Kr, Kf. rewrite (it_acc_accepts E C s sp fn (S (o_clk s))).
      unfold row_of. rewrite s3_iter, s3_fval, s3_grad, s3_delta_iter, s3_ratio, clk_iter, clk_fval, clk_grad, clk_delta.
      assert (Ha : accepts C s sp (fo_fval fn) (fo_grad fn) = true -> nisfin (fo_fval fn) = true)
        by (unfold accepts; intros Ha; apply andb_true_iff in Ha as [Ha _]; now apply andb_true_iff in Ha).
      destruct (accepts C s sp (fo_fval fn) (fo_grad fn)); [rewrite Ha by auto|]; f_equal; destruct (nisfin (fo_fval fn)); reflexivity.
    - rewrite Kc, Kfl. destruct conv_result; reflexivity.
  Qed.

  Lemma accepted_decreases f s s1 f' s' sp v g r :
    head f s -> check_continue E C s = (Ok true, s1) -> iteration E C f s1 = (Ok f', s') ->
    proposes E C s sp -> o_evals s' = o_evals s ++ [(trial_point s sp, r)] ->
    value_of C r = Some v -> gradient_of C r = Some g -> accepts C s sp v g = true ->
    o_fval s' <? o_fval s = true /\ n0 <? o_tr_ratio s' = true.
  Proof.
    intros Hl Hc Hi P1 P2 P3 P4 Ha. apply check_continue_true in Hc as (-> & _).
    apply iteration_ok in Hi as (sp2 & fn & K).
    pose proof (ik_ev _ _ _ _ _ _ _ _ K) as Kev. pose proof (ik_evals _ _ _ _ _ _ _ _ K) as Ke.
    pose proof (ik_ratio _ _ _ _ _ _ _ _ K) as Kr. pose proof (ik_fval _ _ _ _ _ _ _ _ K) as Kf.
    destruct (ev_pf _ _ _ _ _ Kev) as (pf & Hpf & Hty).
    destruct (value_typed C _ _ _ _ _ Hpf Hty) as [Hv Hg].
    pose proof (ev_tr _ _ _ _ _ Kev) as Htr. apply proposes_it_tr in Htr.
    change (proposes E C s sp2) in Htr.
    assert (sp2 = sp) as -> by (destruct P1 as [P1 _], Htr as [Q1 _]; rewrite P1 in Q1; now injection Q1).
    change (o_evals (set_o_clk (S (o_clk s)) s)) with (o_evals s) in Ke.
    rewrite P2 in Ke. apply app_inv_head in Ke. apply (f_equal (fun l => nth 0 (map snd l) RRaise)) in Ke. cbn [map snd nth] in Ke. rewrite <- Ke in Hv, Hg.
    rewrite P3 in Hv. rewrite P4 in Hg. injection Hv as ->. injection Hg as ->.
    rewrite <- (it_acc_accepts E C s sp fn (S (o_clk s))) in Ha. rewrite Ha in Kf. rewrite Kf, Kr.
    unfold it_acc in Ha. apply acc_decrease in Ha as (_ & H1 & H2 & _); [|apply affine_dv_nn]. split; [exact H1|exact H2].
  Qed.

  Lemma loop_w_table n : forall f s s' l, head f s -> o_conv s = false ->
    loop_w E C n f s = ((Ok tt, s'), l) ->
    table (o_iter s) (o_fval s) l (o_iter s') (o_fval s') (o_flag s').
  Proof.
    induction n as [|n IH]; intros f s s' l Hl Hcv H; [discriminate H|]. cbn [loop_w] in H. unfold wbind in H at 1.
    destruct (check_continue_w E C s) as [[[c|e] s1] l1] eqn:Ec; [|discriminate H].
    apply check_continue_w_log in Ec as [Ec ->]. rewrite Hcv, orb_false_r in H. destruct c.
    - unfold wbind in H at 1. destruct (iteration_w E C f s1) as [[[f'|e] s2] l2] eqn:Ei; [|discriminate H].
      destruct (loop_w E C n f' s2) as [o3 l3] eqn:El. apply pair_equal_spec in H as [Ho <-]. subst o3. cbn [app].
      assert (Hi : iteration E C f s1 = (Ok f', s2)) by (rewrite <- erases_iteration, Ei; reflexivity).
      pose proof (lh_next _ _ _ _ _ _ _ _ _ _ _ _ Hl Ec Hi) as Hl2.
      destruct (C15_pass E C _ _ _ _ _ _ _ _ _ _ Hl Ec Hi) as (sp' & r' & v' & g' & A1 & A2 & _ & A4 & A5 & A6).
      destruct (C54_messages_of_a_pass _ _ _ _ _ _ Hl Ec Ei) as (sp & r & v & g & D1 & D2 & D3 & D4 & ->).
      assert (Hsp : forall a b, proposes E C s a -> proposes E C s b -> a = b).
      { intros a b [Pa _] [Pb _]. rewrite Pa in Pb. now injection Pb. }
      pose proof (Hsp _ _ A1 D1) as ->. clear Hsp.
      rewrite D2 in A2. apply app_inv_head in A2. injection A2 as <-.
      rewrite D3 in A4. rewrite D4 in A5. injection A4 as <-. injection A5 as <-.
      assert (Hit : o_iter s2 = (o_iter s + 1)%Z).
      { pose proof Ec as Ec2. apply check_continue_true in Ec2 as (-> & _).
        apply iteration_ok in Hi as (? & ? & K). rewrite (ik_iter _ _ _ _ _ _ _ _ K). reflexivity. }
      rewrite <- app_assoc.
      set (rw := mkRow _ _ _ _ _ _ _ _ _).
      change (o_iter s2) with (r_iter rw) at 1. cbn [app].
      apply tb_row; [exact Hit| |].
      + subst rw. cbn [r_acc r_fval r_ratio]. destruct (accepts C s sp v g) eqn:Ea.
        * eapply accepted_decreases; eauto.
        * apply A6.
      + subst rw. cbn [r_fval]. rewrite <- Hit. destruct (o_conv s2) eqn:Ecv2.
        * (* converged: the loop ends *)
          destruct n as [|n']; [discriminate El|]. cbn [loop_w] in El. unfold wbind in El at 1.
          destruct (check_continue_w E C s2) as [[[c|e] s3] l4] eqn:Ec3; [|discriminate El].
          apply check_continue_w_log in Ec3 as [Ec3 ->]. rewrite Ecv2 in El.
          rewrite check_continue_run, Ecv2 in Ec3. injection Ec3 as <- <-. cbn in El. injection El as <- <-.
          apply tb_stop.
        * cbn [app]. eapply IH; eauto.
    - cbn in H. apply pair_equal_spec in H as [Ho <-]. apply pair_equal_spec in Ho as [_ <-].
      assert (Es : o_iter s1 = o_iter s /\ o_fval s1 = o_fval s).
      { apply check_continue_false in Ec as (fl & k & ->). split; reflexivity. }
      destruct Es as [-> ->]. apply tb_stop.
  Qed.

  Lemma loop_evals n : forall f s s1, loop E C n f s = (Ok tt, s1) -> exists more, o_evals s1 = o_evals s ++ more.
  Proof.
    induction n as [|n IH]; intros f s s1 H; [discriminate H|]. cbn [loop] in H.
    apply bind_ok_inv in H as ([] & s2 & Hc & H).
    - apply bind_ok_inv in H as (f' & s3 & Hi & H). apply IH in H as (m2 & ->).
      apply check_continue_true in Hc as (-> & _).
      apply iteration_frame in Hi as [[(new & G1 & _) _ _] _]. rewrite G1, <- app_assoc. eexists. reflexivity.
    - unfold ret in H. apply pair_equal_spec in H as [_ <-]. exists []. rewrite app_nil_r.
      apply check_continue_false in Hc as (fl & k & ->). reflexivity.
  Qed.
  Lemma prepare_w_log f s l :
    prepare_w E C ndim x0 sid h0 st = ((Ok f, s), l) ->
    prepare E C ndim x0 sid h0 st = (Ok f, s)
    /\ l = [LHeader; LInitial 0 (o_fval s) (op_delta_init O) (norm (o_grad s)) true].
  Proof.
    intros H. assert (He : prepare E C ndim x0 sid h0 st = (Ok f, s)) by (rewrite <- erases_prepare, H; reflexivity).
    split; auto. pose proof (lh_start E C _ _ _ _ _ _ _ He) as Hl.
    pose proof (loop_head_Inv E C _ _ _ _ _ _ _ Hl) as I.
    pose proof (proj1 (iv_fin _ _ _ _ _ _ _ I)) as Hfin.
    pose proof (prepare_delta E C _ _ _ _ _ _ _ He) as Hd. apply prepare_frame in He as [_ Hi].
    unfold prepare_w in H.
    apply wlift_ok_inv in H as (? & ? & _ & H). apply wlift_ok_inv in H as (? & ? & _ & H). apply wlift_ok_inv in H as (? & ? & _ & H).
    destruct (Nat.ltb 1 ndim); [discriminate H|]. destruct (_ || _); [discriminate H|].
    do 9 apply wlift_ok_inv in H as (? & ? & _ & H).
    unfold log_header, log_step_initial in H.
    apply wbind_tell in H as (l1 & H & ->). apply wbind_tell in H as (l2 & H & ->). cbn [app]. f_equal.
    match type of H with _ ?s0 = _ => set (sL := s0) in * end. clearbody sL.
    apply wlift_ok_inv in H as (? & s2 & H1 & H). unfold check_finite_fo in H1. rewrite check_finite_run in H1.
    destruct all_finite in H1; [|discriminate]. apply pair_equal_spec in H1 as [_ <-].
    apply wlift_ok_inv in H as (? & s3 & H1 & H). unfold modify in H1. apply pair_equal_spec in H1 as [_ <-].
    unfold wlift, ret in H. apply pair_equal_spec in H as [H <-]. apply pair_equal_spec in H as [_ <-].
    revert Hfin Hd Hi. 
    assert (Ec : forall r : opt T, o_fval (set_o_conv false r) = o_fval r /\ o_delta (set_o_conv false r) = o_delta r
       /\ o_iter (set_o_conv false r) = o_iter r /\ o_grad (set_o_conv false r) = o_grad r) by (intros r; repeat split; reflexivity).
    destruct (Ec sL) as (-> & -> & -> & ->). intros -> -> ->. reflexivity.
  Qed.

  (** The messages of a run that returns: header, row 0 with the value at the start, then the table; its last row shows
      the value returned and its last message the exit flag *)
  Theorem C54_table fuel fv x g h st' log :
    minimize_w E C fuel ndim x0 sid h0 st = ((Ok (fv, x, g, h), st'), log) ->
    exists r0 v0 g0 more l,
      o_evals st' = o_evals st ++ (nudge C x0, r0) :: more
      /\ value_of C r0 = Some v0 /\ gradient_of C r0 = Some g0
      /\ log = LHeader :: LInitial 0 v0 (op_delta_init O) (norm g0) true :: l
      /\ table 0 v0 l (o_iter st') fv (o_flag st').
  Proof.
    intros H. unfold minimize_w in H. unfold wbind in H at 1.
    destruct (prepare_w E C ndim x0 sid h0 st) as [[[f|e] s] l1] eqn:Ep; [|discriminate H].
    apply prepare_w_log in Ep as [Ep ->].
    unfold wbind in H at 1. destruct (loop_w E C fuel f s) as [[[[]|e] s1] l2] eqn:El; [|discriminate H].
    rewrite wbind_lift in H. destruct (write_history C s1) as [[[]|e] s2] eqn:Ew; [|discriminate H].
    rewrite wbind_lift in H. unfold get, wlift, ret in H.
    apply pair_equal_spec in H as [H <-]. apply pair_equal_spec in H as [H ->]. apply ok_inj in H. injection H as <- <- <- <-.
    pose proof (lh_start E C _ _ _ _ _ _ _ Ep) as Hl.
    pose proof (loop_head_Inv E C _ _ _ _ _ _ _ Hl) as I.
    assert (Hcv : o_conv s = false).
    { clear - Ep. apply prepare_inv in Ep. inversion Ep. reflexivity. }
    assert (Hi : o_iter s = 0%Z) by (apply prepare_frame in Ep as [_ Hi]; exact Hi).
    pose proof (loop_w_table _ _ _ _ _ Hl Hcv El) as Ht. rewrite Hi in Ht.
    assert (El' : loop E C fuel f s = (Ok tt, s1)) by (rewrite <- erases_loop, El; reflexivity).
    assert (Em : exists more, o_evals s1 = o_evals s ++ more).
    { eapply loop_evals. exact El'. }
    destruct Em as (more & Em).
    assert (E2 : o_evals st' = o_evals s1 /\ o_iter st' = o_iter s1 /\ o_flag st' = o_flag s1 /\ o_fval st' = o_fval s1).
    { apply write_history_inv in Ew as [(_ & _ & ->)|[(file & _ & _ & _ & ->)|(file & _ & Ew & _)]];
      [repeat split; reflexivity|repeat split; reflexivity|discriminate Ew]. }
    destruct E2 as (-> & -> & -> & ->).
    apply prepare_inv in Ep. inversion Ep as [| | | | | |pf hess h' f1 D1 D2 D3 D4 D5 D6 D7 Ef Es0]. subst f1. clear Ep. rewrite Es0 in *.
    assert (Ee : o_evals s = o_evals st ++ [(nudge C x0, pr_ret E C x0 st)]).
    { rewrite <- Es0. unfold pr_s4. destruct better; reflexivity. }
    destruct (value_typed C _ _ _ _ _ D3 D6) as [Hv Hg].
    destruct (iv_fx _ _ _ _ _ _ _ I) as (_ & F2 & F3). rewrite F2 in Hv. rewrite F3 in Hg.
    exists (pr_ret E C x0 st), (o_fval s), (o_grad s), more, (l2 ++ []).
    rewrite Em, Ee, <- app_assoc. split; [reflexivity|]. split; auto. split; auto. split; [reflexivity|].
    rewrite app_nil_r. exact Ht.
  Qed.
End LogProps.

(** what the table means column by column *)
Section Columns.
  Context {T : Type} {N : Num T}.
  Local Notation col1 := (fun c : Z * T * bool => fst (fst c)).

  Lemma upto_S k n : upto k (S n) = (k + 1)%Z :: upto (k + 1) n.
  Proof.
    unfold upto. cbn [seq map]. f_equal; [lia|]. rewrite <- seq_shift, map_map. apply map_ext. intros. lia.
  Qed.
  Lemma columns_app (a b : list (lmsg T)) : columns (a ++ b) = columns a ++ columns b.
  Proof. unfold columns. now rewrite flat_map_app. Qed.
  Lemma stops_app (a b : list (lmsg T)) : stops (a ++ b) = stops a ++ stops b.
  Proof. unfold stops. now rewrite flat_map_app. Qed.

  Theorem C54_columns k v l k' v' fl : table (T := T) k v l k' v' fl ->
    (* the rows are numbered consecutively *)
    (k <= k')%Z /\ map col1 (columns l) = upto k (Z.to_nat (k' - k))
    (* the last row shows the final value *)
    /\ snd (fst (last (columns l) (k, v, true))) = v'
    (* one message announces the stop, and it is the last one *)
    /\ stops l = [fl] /\ last l LHeader = LStop fl
    (* one header for every multiple of ten *)
    /\ headers l = List.length (filter (fun i => i mod 10 =? 0)%Z (upto k (Z.to_nat (k' - k)))).
  Proof.
    induction 1 as [k v fl|k v r l k' v' fl Hr Hv Ht (IH1 & IH2 & IH3 & IH4 & IH5 & IH6)].
    - rewrite Z.sub_diag. repeat split; auto. lia.
    - assert (En : Z.to_nat (k' - k) = S (Z.to_nat (k' - (k + 1)))) by lia.
      rewrite En, upto_S, columns_app, stops_app.
      assert (E0 : columns (if (r_iter r mod 10 =? 0)%Z then [LHeader] else []) = @nil (Z * T * bool)) by (destruct (_ =? 0)%Z; reflexivity).
      assert (E1 : stops (T := T) (if (r_iter r mod 10 =? 0)%Z then [LHeader] else []) = @nil exit_flag) by (destruct (_ =? 0)%Z; reflexivity).
      rewrite E0, E1. cbn [app]. split; [lia|]. split; [|split; [|split; [|split]]].
      + change (columns (LRow r :: l)) with ((r_iter r, r_fval r, r_acc r) :: columns l). cbn [map fst]. now rewrite Hr, IH2.
      + change (columns (LRow r :: l)) with ((r_iter r, r_fval r, r_acc r) :: columns l).
        assert (Hlast : forall (A : Type) (a b : A) x y (m : list A), last (x :: y :: m) a = last (y :: m) b).
        { clear. intros A a b x y m. revert x y. induction m as [|z m IHm]; intros x y; [reflexivity|].
          change (last (y :: z :: m) a = last (y :: z :: m) b). now rewrite !(IHm y z). }
        destruct (columns l) eqn:Ec; [exact IH3|]. now rewrite (Hlast _ _ ((k + 1)%Z, r_fval r, true)).
      + exact IH4.
      + destruct l as [|m l]; [discriminate IH4|]. rewrite <- IH5.
        destruct (_ =? 0)%Z; reflexivity.
      + cbn [filter]. rewrite <- Hr. unfold headers in *. rewrite filter_app, app_length.
        destruct (r_iter r mod 10 =? 0)%Z; cbn [filter List.length app Nat.add]; rewrite IH6, Hr; reflexivity.
  Qed.
End Columns.

(** a run with a long table: constant objective, twelve rejected rows after the initial one *)
Example C54_example : exists fv x g h s log,
  minimize_w (world flat) (fst (free 1 [(KStr "maxiter", VInt 12)]))
    60 1 (fzs [0]%Z) None H0None (snd (free 1 [(KStr "maxiter", VInt 12)])) = ((Ok (fv, x, g, h), s), log)
  /\ (Nat.eqb (headers log) 2 && Nat.eqb (List.length (columns log)) 13) = true.
Proof.
  match goal with |- context [minimize_w ?a ?b ?c ?d ?e ?f ?g ?h = _] => set (r := minimize_w a b c d e f g h) end.
  assert (H : match r with ((Ok _, _), log) => Nat.eqb (headers log) 2 && Nat.eqb (List.length (columns log)) 13 | _ => false end = true)
    by (vm_compute; reflexivity).
  destruct r as [[[[[[fv x] g] h]|e] s] log]; [|discriminate]. eauto 10.
Qed.
