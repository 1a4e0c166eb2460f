(** Properties of Optimizer.minimize, continued: history (C20), caller-owned data (C22),
    wall clock (C24), the Hessian after an accepted step (C15) *)
From Coq Require Import ZArith List Bool String Lia Reals Lra.
From Verif Require Import Num Constants Subproblem HessApprox Steps TrustRegion Minimize
  ER F64 NumFacts MonadFacts MinFacts Spec Run RunInv TRErr RunFrame Prop_Run.
Import ListNotations.
Local Open Scope num_scope.

(** the keys of the history (docstring / track_history of minimize.py) *)
Definition documented_keys : list string :=
  ["fval"; "tr_ratio"; "tr_radius"; "normgrad"; "normstep"; "theta"; "alpha"; "reflections";
   "truncations"; "accept"; "hess_min_ev"; "hess_max_ev"; "hess_update_min_ev";
   "hess_update_max_ev"; "hess_struct_update_min_ev"; "hess_struct_update_max_ev";
   "iterations_since_tr_update"; "step_type"; "subspace_dim"; "posdef"; "newton";
   "cond_hess"; "cond_shess"]%string.
(** the series recorded under a key *)
Fixpoint series {T : Type} (h : history T) (k : string) : list (hval T) :=
  match h with
  | [] => []
  | (k', vs) :: h' => if String.eqb k k' then vs else series h' k
  end.
Lemma series_length_series {T} (h : history T) k : series_length h k = List.length (series h k).
Proof. induction h as [|[k' vs] h IH]; simpl; auto. destruct String.eqb; auto. Qed.

Lemma series_hist_append {T} (h : history T) k v k' :
  series (hist_append h k v) k' = if String.eqb k' k then series h k' ++ [v] else series h k'.
Proof.
  induction h as [|[k0 vs] h IH]; simpl.
  - destruct (String.eqb_spec k' k); auto.
  - destruct (String.eqb_spec k k0) as [->|Hk]; simpl.
    + destruct (String.eqb_spec k' k0); auto.
    + destruct (String.eqb_spec k' k0) as [->|Hk0].
      * destruct (String.eqb_spec k0 k); auto. congruence.
      * exact IH.
Qed.
Lemma series_append_all_in {T} (vals : list (string * hval T)) : forall h k v,
  NoDup (map fst vals) -> In (k, v) vals -> series (hist_append_all vals h) k = series h k ++ [v].
Proof.
  induction vals as [|[k0 v0] vals IH]; simpl; intros h k v Hn Hin; [contradiction|].
  inversion Hn as [|? ? Hnot Hn']; subst.
  unfold hist_append_all in *. simpl.
  assert (Hout : forall h, ~ In k (map fst vals) ->
     series (fold_left (fun acc kv => hist_append acc (fst kv) (snd kv)) vals h) k = series h k).
  { clear. induction vals as [|[k1 v1] vals IH]; simpl; intros h Hk; auto.
    rewrite IH by tauto. rewrite series_hist_append. destruct (String.eqb_spec k k1); auto. exfalso. apply Hk. left. congruence. }
  destruct Hin as [Heq|Hin].
  - injection Heq as -> ->. rewrite Hout; auto. rewrite series_hist_append, String.eqb_refl. reflexivity.
  - rewrite (IH _ _ v); auto. rewrite series_hist_append.
    destruct (String.eqb_spec k k0) as [->|]; auto.
    exfalso. apply Hnot. now apply (in_map fst) in Hin.
Qed.

Lemma documented_keys_nodup : NoDup documented_keys.
Proof.
  assert (Hn : forall l, (fix nd l := match l with [] => true | x :: l => negb (existsb (String.eqb x) l) && nd l end) l = true -> NoDup l).
  { induction l as [|a l IH]; intros Hl; constructor.
    - apply andb_true_iff in Hl as [Hl _]. apply negb_true_iff in Hl. intros Hin.
      rewrite <- not_true_iff_false in Hl. apply Hl. apply existsb_exists. exists a.
      split; auto. apply String.eqb_refl.
    - apply IH. now apply andb_true_iff in Hl. }
  apply Hn. vm_compute. reflexivity.
Qed.

Section RunProps2.
  Context {T : Type} {N : Num T} {L : NumLaws T}.
  Local Notation vec := (list T).
  Local Notation mat := (list (list T)).
  Variable E : env T.
  Variable C : cfg T.
  Variables (fuel ndim : nat) (x0 : vec) (sid : option string) (h0 : hess0_arg T).
  Variable st : opt T.
  Local Notation O := (c_opts C).
  Local Notation run := (minimize E C fuel ndim x0 sid h0 st).
  Local Notation head := (loop_head E C ndim x0 sid h0 st).

  (** the name of the group written by this call: start_id, or a fresh uuid when it is None or '' *)
  Definition group_name : string :=
    match sid with
    | Some s => if String.eqb s "" then e_uuid E (o_nid st) else s
    | None => e_uuid E (o_nid st)
    end.
  Lemma head_group f s : head f s -> o_start_id s = group_name.
  Proof.
    intros H. apply loop_head_Inv in H. rewrite (iv_sid _ _ _ _ _ _ _ H). unfold group_name, pr_id.
    destruct sid as [i|]; auto. destruct String.eqb; auto.
  Qed.

  Theorem C20_written_once file fv x g h st' :
    op_history O = Some file -> run = (Ok (fv, x, g, h), st') ->
    exists hist,
      o_files st' = o_files st ++ [((file, group_name), hist)]
      /\ (forall h', ~ In ((file, group_name), h') (o_files st))
      /\ (forall k, In k documented_keys -> Z.of_nat (List.length (series hist k)) = o_iter st')
      /\ (forall k vs, In (k, vs) hist -> In k documented_keys \/ vs = [])
      /\ NoDup (map fst hist).
  Proof.
    intros Hf H. apply minimize_ok_inv in H as (f & s & s1 & Hl & Hc & Hw & _).
    pose proof (head_group _ _ Hl) as Hid.
    pose proof (loop_head_Inv E C _ _ _ _ _ _ _ Hl) as I.
    pose proof (iv_hist _ _ _ _ _ _ _ I) as Hh. pose proof (iv_iter _ _ _ _ _ _ _ I) as Hit.
    pose proof (iv_files _ _ _ _ _ _ _ I) as Hfi.
    unfold has_history in Hh. rewrite Hf in Hh. destruct Hh as [Hn Hk].
    apply check_continue_false in Hc as (fl & kk & ->).
    apply write_history_inv in Hw as [(_ & Hno & _)|[(file' & Hf' & _ & Hex & ->)|(file' & _ & Hno & _)]];
      [congruence| |discriminate].
    rewrite Hf in Hf'. injection Hf' as <-.
    exists (o_hist s).
    change (o_start_id (set_o_flag fl (set_o_clk kk s))) with (o_start_id s) in *.
    change (o_files (set_o_flag fl (set_o_clk kk s))) with (o_files s) in *.
    split. { rewrite <- Hfi, <- Hid. reflexivity. }
    split.
    { intros h' Hin. rewrite <- Hfi in Hin. rewrite <- not_true_iff_false in Hex. apply Hex.
      apply existsb_exists. exists (file, group_name, h'). split; auto. simpl.
      rewrite Hid, !String.eqb_refl. reflexivity. }
    split.
    { intros k Hin. rewrite <- series_length_series, Hk.
      destruct in_dec as [_|Hnot]; [|contradiction].
      change (o_iter _) with (o_iter s) at 2. lia. }
    split; auto.
    intros k vs Hin. specialize (Hk k). destruct in_dec as [Hkk|_] in Hk; auto. right.
    assert (Hs : series (o_hist s) k = vs).
    { clear -Hn Hin. induction (o_hist s) as [|[k0 v0] l IH]; simpl in *; [contradiction|].
      inversion Hn; subst. destruct Hin as [Heq|Hin].
      - injection Heq as -> ->. now rewrite String.eqb_refl.
      - destruct (String.eqb_spec k k0) as [->|]; auto.
        exfalso. apply H1. now apply (in_map fst) in Hin. }
    rewrite series_length_series, Hs in Hk. now apply length_zero_iff_nil.
  Qed.

  (** a run that raises writes nothing *)
  Theorem C20_nothing_on_error e st' : run = (Err e, st') -> o_files st' = o_files st.
  Proof.
    intros H.
    apply minimize_err_inv in H as [H|[[-> [f H]]|[(f & s & s1 & Hl & Hc & Hi)|(f & s & s1 & Hl & Hc & Hwr)]]].
    - apply prepare_frame in H as [[_ _ G] _]. exact G.
    - apply loop_head_frame in H as [[_ _ G] _]. exact G.
    - apply loop_head_frame in Hl as [[_ _ G] _].
      apply check_continue_true in Hc as (-> & _). apply iteration_frame in Hi as [[_ _ G'] _].
      rewrite G'. exact G.
    - apply loop_head_frame in Hl as [[_ _ G] _]. apply check_continue_false in Hc as (fl & k & ->).
      apply write_history_inv in Hwr as [(Hwr & _)|[(file & _ & Hwr & _)|(file & _ & _ & -> & _)]];
        try discriminate. exact G.
  Qed.
  (** a start id that already names a group of the file: the call raises, old groups stay *)
  Theorem C20_reused_id file h r st' :
    op_history O = Some file -> In ((file, group_name), h) (o_files st) ->
    run = (r, st') -> (exists e, r = Err e) /\ o_files st' = o_files st.
  Proof.
    intros Hf Hin H. destruct r as [[[[fv x] g] hs]|e].
    - exfalso. destruct (C20_written_once _ _ _ _ _ _ Hf H) as (hist & _ & Hno & _). eapply Hno; eauto.
    - split; eauto. eapply C20_nothing_on_error; eauto.
  Qed.
  Theorem C20_no_history_file r st' :
    op_history O = None -> run = (r, st') ->
    o_files st' = o_files st /\ (forall p, r = Ok p -> o_hist st' = []).
  Proof.
    intros Hf H. destruct r as [[[[fv x] g] hs]|e].
    - apply minimize_ok_inv in H as (f & s & s1 & Hl & Hc & Hw & _).
      pose proof (loop_head_Inv E C _ _ _ _ _ _ _ Hl) as I.
      pose proof (iv_hist _ _ _ _ _ _ _ I) as Hh. pose proof (iv_files _ _ _ _ _ _ _ I) as Hfi.
      unfold has_history in Hh. rewrite Hf in Hh.
      apply check_continue_false in Hc as (fl & kk & ->).
      apply write_history_inv in Hw as [(_ & _ & ->)|[(file & Hf' & _)|(file & Hf' & _)]]; try congruence.
      split; auto.
    - split; [|discriminate]. eapply C20_nothing_on_error; eauto.
  Qed.
  (** what one pass appends: exactly one entry to every series, with the trial's value, the ratio,
      the radius used for the step and whether it was accepted *)
  Theorem C20_record_of_a_pass f s s1 f' s' :
    op_history O <> None ->
    head f s -> check_continue E C s = (Ok true, s1) -> iteration E C f s1 = (Ok f', s') ->
    exists sp v g, proposes E C s sp
      /\ value_of C (e_obj E (List.length (o_evals s)) (trial_point s sp)) = Some v
      /\ gradient_of C (e_obj E (List.length (o_evals s)) (trial_point s sp)) = Some g
      /\ series (o_hist s') "fval" = series (o_hist s) "fval" ++ [HNum v]
      /\ series (o_hist s') "tr_ratio" = series (o_hist s) "tr_ratio" ++ [HNum (tr_ratio_of C s sp v g)]
      /\ series (o_hist s') "tr_radius" = series (o_hist s) "tr_radius" ++ [HNum (o_delta s)]
      /\ series (o_hist s') "accept" = series (o_hist s) "accept" ++ [HBool (accepts C s sp v g)]
      /\ forall k, In k documented_keys ->
           exists a, series (o_hist s') k = series (o_hist s) k ++ [a].
  Proof.
    intros Hhf Hl Hc Hi. apply check_continue_true in Hc as (-> & _).
    apply iteration_ok in Hi as (sp & fn & K).
    pose proof (ik_ev _ _ _ _ _ _ _ _ K) as Kev.
    pose proof (ik_ratio _ _ _ _ _ _ _ _ K) as Kr. pose proof (ik_delta_iter _ _ _ _ _ _ _ _ K) as Kd.
    pose proof (ik_hist _ _ _ _ _ _ _ _ K) as Kh.
    destruct (ev_pf _ _ _ _ _ Kev) as (pf & Hpf & Hty).
    destruct (value_typed C _ _ _ _ _ Hpf Hty) as [Hv Hg].
    pose proof (ev_tr _ _ _ _ _ Kev) as Htr. apply proposes_it_tr in Htr.
    unfold has_history in Kh. destruct (op_history O) as [file|]; [|congruence].
    destruct Kh as (vals & V1 & V2 & V3 & V4 & V5 & V6).
    assert (Hnd : NoDup (map fst vals)) by (rewrite V1; exact documented_keys_nodup).
    rewrite V6. change (o_hist (set_o_clk (S (o_clk s)) s)) with (o_hist s).
    exists sp, (fo_fval fn), (fo_grad fn).
    split; [exact Htr|]. split; [exact Hv|]. split; [exact Hg|].
    split; [now apply series_append_all_in|].
    split.
    { apply series_append_all_in; auto.
      replace (tr_ratio_of C s sp (fo_fval fn) (fo_grad fn)) with (o_tr_ratio s'); auto. }
    split. { apply series_append_all_in; auto. rewrite Kd in V4. exact V4. }
    split.
    { apply series_append_all_in; auto. rewrite <- (it_acc_accepts E C s sp fn (S (o_clk s))). exact V3. }
    intros k Hk. change documented_keys with hist_keys in Hk. rewrite <- V1 in Hk.
    apply in_map_iff in Hk as ([k' a] & Heq & Hin). simpl in Heq. subst k'. exists a.
    now apply series_append_all_in.
  Qed.
  (** the recorded objective values are those of the evaluations after the first, in order *)
  Theorem C20_fval_series f s :
    op_history O <> None -> head f s ->
    exists r0 rest vs, o_evals s = o_evals st ++ (nudge C x0, r0) :: rest
      /\ map (fun e => value_of C (snd e)) rest = map Some vs
      /\ series (o_hist s) "fval" = map (fun v => HNum v) vs.
  Proof.
    intros Hhf H. induction H as [f s Hp|f s s1 f' s' Hl IH Hc Hi].
    - pose proof (prepare_Inv E C _ _ _ _ _ _ _ Hp) as I.
      destruct (iv_log _ _ _ _ _ _ _ I) as (v0 & r0 & rest & L1 & L2 & _).
      pose proof (iv_hist _ _ _ _ _ _ _ I) as Hh.
      apply prepare_frame in Hp as [_ Hi0]. rewrite Hi0 in *.
      assert (rest = []) as ->.
      { destruct rest; auto. simpl in L2. lia. }
      exists r0, [], []. split; [exact L1|]. split; auto.
      unfold has_history in Hh. destruct (op_history O); [|congruence].
      destruct Hh as [_ Hh]. specialize (Hh "fval"%string). rewrite series_length_series in Hh.
      apply length_zero_iff_nil.
      destruct in_dec; exact Hh.
    - destruct IH as (r0 & rest & vs & L1 & L2 & L3).
      destruct (C20_record_of_a_pass _ _ _ _ _ Hhf Hl Hc Hi) as (sp & v & g & Hp & Hv & Hg & Hs & _).
      destruct (C15_pass E C _ _ _ _ _ _ _ _ _ _ Hl Hc Hi) as (sp' & r & v' & g' & Hp' & He & Hr & Hv' & _).
      assert (sp' = sp).
      { destruct Hp as [Hp _], Hp' as [Hp' _]. rewrite Hp in Hp'. now injection Hp'. }
      subst sp'. exists r0, (rest ++ [(trial_point s sp, r)]), (vs ++ [v]).
      split; [|split].
      + rewrite He, L1. now rewrite <- app_assoc.
      + rewrite !map_app, L2. simpl. subst r. now rewrite Hv.
      + rewrite Hs, L3, map_app. reflexivity.
  Qed.

  (** ** C22  arrays that existed before the call are not modified, the returned x is a new array *)
  Theorem C22_old_arrays_untouched r st' :
    run = (r, st') ->
    (forall a, (a < List.length (o_heap st))%nat -> deref st' a = deref st a)
    /\ (forall fv x g h, r = Ok (fv, x, g, h) -> (List.length (o_heap st) <= x < List.length (o_heap st'))%nat).
  Proof.
    intros H.
    assert (Hext : exists ext, o_heap st' = o_heap st ++ ext).
    { destruct r as [[[[fv x] g] h]|e].
      - apply minimize_ok_inv in H as (f & s & s1 & Hl & Hc & Hw & _).
        apply loop_head_frame in Hl as [[_ G _] _]. apply check_continue_false in Hc as (fl & k & ->).
        apply write_history_inv in Hw as [(_ & _ & ->)|[(file & _ & _ & _ & ->)|(file & _ & _ & -> & _)]];
        exact G.
      - apply minimize_err_inv in H as [H|[[-> [f H]]|[(f & s & s1 & Hl & Hc & Hi)|(f & s & s1 & Hl & Hc & Hwr)]]].
        + apply prepare_frame in H as [[_ G _] _]. exact G.
        + apply loop_head_frame in H as [[_ G _] _]. exact G.
        + apply loop_head_frame in Hl as [[_ [e1 G] _] _].
          apply check_continue_true in Hc as (-> & _). apply iteration_frame in Hi as [[_ [e2 G'] _] _].
          exists (e1 ++ e2). rewrite G'. change (o_heap (set_o_clk (S (o_clk s)) s)) with (o_heap s).
          rewrite G. now rewrite <- app_assoc.
        + apply loop_head_frame in Hl as [[_ G _] _]. apply check_continue_false in Hc as (fl & k & ->).
          apply write_history_inv in Hwr as [(Hwr & _)|[(file & _ & Hwr & _)|(file & _ & _ & -> & _)]];
          try discriminate; exact G. }
    split.
    - intros a Ha. destruct Hext as [ext He]. unfold deref. rewrite He. now apply app_nth1.
    - intros fv x g h ->. apply minimize_ok_inv in H as (f & s & s1 & Hl & Hc & Hw & _ & -> & _).
      apply loop_head_Inv in Hl. pose proof (iv_x _ _ _ _ _ _ _ Hl) as Hx.
      apply check_continue_false in Hc as (fl & k & ->).
      apply write_history_inv in Hw as [(_ & _ & ->)|[(file & _ & _ & _ & ->)|(file & _ & _ & -> & _)]];
      exact Hx.
  Qed.

  (** ** C24  the time budget *)
  (** the run's clock starts when minimize is called *)
  Lemma C24_start_time f s : head f s -> o_starttime s = e_clock E (o_clk st).
  Proof.
    intros H. induction H as [f s Hp|f s s1 f' s' Hl IH Hc Hi].
    - apply prepare_inv in Hp. inversion Hp; subst. 
      match goal with |- o_starttime (set_o_conv false ?a) = _ => change (o_starttime a = e_clock E (o_clk st)) end.
      unfold pr_s4. match goal with |- context [better ?a ?b] => destruct (better a b) end;
      (match goal with |- _ = ?r => change (o_starttime (pr_s0 E C sid st) = r) end;
       unfold pr_s0; destruct pr_id; reflexivity).
    - apply check_continue_true in Hc as (-> & _). apply iteration_ok in Hi as (sp & fn & K).
      rewrite (ik_starttime _ _ _ _ _ _ _ _ K). exact IH.
  Qed.
  (** decision at a loop head: with t the time read there, the run is stopped for lack of time exactly when
      it has not converged, iterations remain, and the remaining time is less than the average
      time of an iteration so far *)
  Definition no_time_left (s : opt T) (t : T) : bool :=
    let elapsed := t - e_clock E (o_clk st) in
    (op_maxtime O - elapsed) <? (elapsed / nofZ (Z.max 1 (o_iter s))).
  Theorem C24_stops_iff f s :
    head f s ->
    exists b s1, check_continue E C s = (Ok b, s1)
      /\ ((b = false /\ o_conv s = false /\ o_flag s1 = XF_MAXTIME)
          <-> (o_conv s = false /\ (o_iter s < op_maxiter O)%Z
               /\ no_time_left s (e_clock E (o_clk s)) = true)).
  Proof.
    intros Hl. pose proof (C24_start_time _ _ Hl) as Hst.
    pose proof (loop_head_Inv E C _ _ _ _ _ _ _ Hl) as I. pose proof (iv_iter _ _ _ _ _ _ _ I) as Hit.
    assert (Hno : out_of_time E C s = no_time_left s (e_clock E (o_clk s))).
    { unfold out_of_time, no_time_left, elapsed. rewrite Hst.
      replace (o_iter s + (if (o_iter s =? 0)%Z then 1 else 0))%Z with (Z.max 1 (o_iter s)); auto.
      destruct (Z.eqb_spec (o_iter s) 0); lia. }
    rewrite <- Hno. rewrite check_continue_run.
    destruct (o_conv s) eqn:Ecv.
    { exists false, s. split; auto. split; intros (H1 & H2 & _); congruence. }
    destruct (op_maxiter O <=? o_iter s)%Z eqn:Ei.
    { eexists false, _. split; [reflexivity|]. apply Z.leb_le in Ei.
      split; [intros (_ & _ & H); discriminate H|intros (_ & H & _); lia]. }
    apply Z.leb_gt in Ei. cbv zeta. destruct (out_of_time E C s) eqn:Eo.
    { eexists false, _. split; [reflexivity|]. split; auto. }
    destruct (o_delta s <? spacing1).
    { eexists false, _. split; [reflexivity|]. split; intros (_ & _ & H); discriminate H. }
    eexists true, _. split; [reflexivity|]. split; [intros (H & _); discriminate H|intros (_ & _ & H); discriminate H].
  Qed.
  (** with maxtime = inf (the default) the clock never stops a run, whatever it reads *)
  Theorem C24_infinite_budget fv x g h st' :
    op_maxtime O = ninf -> run = (Ok (fv, x, g, h), st') -> o_flag st' <> XF_MAXTIME.
  Proof.
    intros Hm H Hf. apply C07_exit_flag in H. rewrite Hf in H. destruct H as (_ & _ & H).
    rewrite Hm in H. cbv zeta in H. revert H.
    rewrite emb_ltb, emb_sub, emb_inf.
    generalize (emb (e_clock E (Init.Nat.pred (o_clk st')) - o_starttime st')) as a.
    generalize (emb ((e_clock E (Init.Nat.pred (o_clk st')) - o_starttime st')
           / nofZ (Z.max 1 (o_iter st')))) as b.
    intros b a. destruct a; unfold er_sub; simpl; rewrite ?rnd_pinf, ?rnd_nan; destruct b; discriminate.
  Qed.

  (** ** C15  the Hessian after an accepted step: the objective's own Hessian when no approximation
      scheme is used, else the matrix of the scheme after its update *)
  Theorem C15_hessian_after_acceptance f s s1 f' s' :
    head f s -> check_continue E C s = (Ok true, s1) -> iteration E C f s1 = (Ok f', s') ->
    exists sp r v g pf, proposes E C s sp
      /\ o_evals s' = o_evals s ++ [(trial_point s sp, r)]
      /\ fun_evaluate (c_nargout C) (c_resfun C) r = Ok pf
      /\ value_of C r = Some v /\ gradient_of C r = Some g
      /\ (accepts C s sp v g = true ->
          match o_happ s with
          | None => exists nc, pf_hess pf = PMat nc (o_hess s') /\ o_happ s' = None
          | Some h => exists h' fn,
              happ_update h (vadd (st_s sp) (st_s0 sp)) (o_grad s) (o_since s') (o_ninter s') (o_iter s')
                fn f = Ok h'
              /\ typed_fout (List.length x0) pf (o_x s') = Ok fn
              /\ o_happ s' = Some h' /\ o_hess s' = h_mat h'
          end).
  Proof.
    intros Hl Hc Hi. pose proof (loop_head_Inv E C _ _ _ _ _ _ _ Hl) as I.
    apply check_continue_true in Hc as (-> & _).
    apply iteration_ok in Hi as (sp & fn & K).
    pose proof (ik_ev _ _ _ _ _ _ _ _ K) as Kev. pose proof (ik_hess _ _ _ _ _ _ _ _ K) as Khe.
    pose proof (ik_evals _ _ _ _ _ _ _ _ K) as Ke. pose proof (ik_x _ _ _ _ _ _ _ _ K) as Kx.
    pose proof (ik_fx _ _ _ _ _ _ _ _ K) as Kfx. pose proof (ik_iter _ _ _ _ _ _ _ _ K) as Kit.
    destruct (ev_pf _ _ _ _ _ Kev) as (pf & Hpf & Hty).
    destruct (value_typed C _ _ _ _ _ Hpf Hty) as [Hv Hg].
    pose proof (ev_tr _ _ _ _ _ Kev) as Htr.
    apply proposes_it_tr in Htr.
    exists sp, (it_ret E (set_o_clk (S (o_clk s)) s) sp), (fo_fval fn), (fo_grad fn), pf.
    split; [exact Htr|]. split; [exact Ke|]. split; [exact Hpf|]. split; auto. split; auto.
    rewrite <- (it_acc_accepts E C s sp fn (S (o_clk s))). intros Ha. rewrite Ha in Khe, Kx.
    unfold new_hess in Khe. rewrite s5_happ, s5_grad, s5_iter, s5_since, s5_ninter,
      <- (ik_since _ _ _ _ _ _ _ _ K), <- (ik_ninter _ _ _ _ _ _ _ _ K) in Khe.
    change (o_happ (set_o_clk (S (o_clk s)) s)) with (o_happ s) in Khe.
    change (o_grad (set_o_clk (S (o_clk s)) s)) with (o_grad s) in Khe.
    change (o_iter (set_o_clk (S (o_clk s)) s)) with (o_iter s) in *.
    destruct (o_happ s) as [h|].
    - destruct happ_update as [h'|e] eqn:Eh in Khe; [|discriminate].
      injection Khe as K1 K2. exists h', fn. rewrite Kit. split; [exact Eh|].
      split; [|auto]. rewrite Kx.
      rewrite <- (iv_len _ _ _ _ _ _ _ I).
      change (o_heap (set_o_clk (S (o_clk s)) s)) with (o_heap s) in *. rewrite <- Kfx.
      apply typed_fout_inv in Hty as Hty2. destruct Hty2 as (_ & _ & Hx & _). rewrite Hx. exact Hty.
    - apply typed_fout_inv in Hty as (_ & _ & _ & _ & _ & _ & Hh).
      destruct (fo_hess fn) as [m|]; [|discriminate]. injection Khe as K1 K2. subst.
      destruct Hh as (nc & Hh & _). eauto.
  Qed.
End RunProps2.
