(** The loop invariant of minimize (proof library) *)
From Coq Require Import ZArith List Bool String Lia.
From Verif Require Import Num Constants Subproblem HessApprox Steps TrustRegion Minimize
  ER NumFacts MonadFacts MinFacts Spec Run.
Import ListNotations.
Local Open Scope num_scope.

Section Hist.
  Context {T : Type} {N : Num T}.
  Lemma series_append (h : history T) k v k' :
    series_length (hist_append h k v) k' = (series_length h k' + if String.eqb k' k then 1 else 0)%nat.
  Proof.
    induction h as [|[a vs] h IH]; simpl.
    - destruct (String.eqb k' k); reflexivity.
    - destruct (String.eqb_spec k a) as [->|Hka]; simpl.
      + destruct (String.eqb k' a); simpl; try lia. rewrite app_length. simpl. lia.
      + rewrite IH. destruct (String.eqb_spec k' a) as [->|]; try lia.
        destruct (String.eqb_spec a k); [congruence|lia].
  Qed.
  Lemma series_append_all vals : forall (h : history T) k,
    series_length (hist_append_all vals h) k
    = (series_length h k + count_occ string_dec (map fst vals) k)%nat.
  Proof.
    unfold hist_append_all. induction vals as [|[a v] vals IH]; intros h k; simpl; [lia|].
    rewrite IH, series_append. destruct (string_dec a k) as [->|H].
    - rewrite String.eqb_refl. lia.
    - destruct (String.eqb_spec k a); [congruence|lia].
  Qed.
  Lemma append_keys (h : history T) k v k' :
    In k' (map fst (hist_append h k v)) <-> k' = k \/ In k' (map fst h).
  Proof.
    induction h as [|[a vs] h IH]; simpl; [intuition|].
    destruct (String.eqb_spec k a) as [->|Hka]; simpl; [intuition|]. rewrite IH. intuition.
  Qed.
  Lemma append_nodup (h : history T) k v :
    NoDup (map fst h) -> NoDup (map fst (hist_append h k v)).
  Proof.
    induction h as [|[a vs] h IH]; simpl; intros H.
    - constructor; auto.
    - inversion H; subst. destruct (String.eqb_spec k a) as [->|Hka]; simpl; auto.
      constructor; auto. rewrite append_keys. intuition.
  Qed.
  Lemma append_all_nodup vals : forall (h : history T),
    NoDup (map fst h) -> NoDup (map fst (hist_append_all vals h)).
  Proof.
    unfold hist_append_all. induction vals as [|[a v] vals IH]; intros h H; simpl; auto.
    apply IH, append_nodup, H.
  Qed.
End Hist.

Section RunInv.
  Context {T : Type} {N : Num T} {L : NumLaws T}.
  Local Notation vec := (list T).
  Local Notation mat := (list (list T)).
  Local Notation opt := (opt T).
  Variable E : env T.
  Variable C : cfg T.
  Local Notation O := (c_opts C).

  Lemma typed_fout_inv n (pf : pyfun T) x (f : fout T) : typed_fout n pf x = Ok f ->
    pf_fval pf = PScal (fo_fval f) /\ pf_grad pf = PVec (fo_grad f) /\ fo_x f = x
    /\ List.length (fo_grad f) = n
    /\ fo_res f = pf_res pf /\ fo_sres f = pf_sres pf
    /\ match fo_hess f with
       | None => pf_hess pf = PNone
       | Some h => exists nc, pf_hess pf = PMat nc h /\ rect n n h = true
       end.
  Proof.
    unfold typed_fout. destruct (pf_fval pf); try discriminate.
    destruct (pf_grad pf); try discriminate.
    destruct (Nat.eqb_spec (List.length v) n); try discriminate.
    destruct (pf_hess pf); try discriminate.
    - intros H. injection H as <-. simpl. intuition.
    - destruct rect eqn:Er; try discriminate. intros H. injection H as <-. simpl. intuition eauto.
  Qed.

  Lemma value_typed r pf n x f :
    fun_evaluate (c_nargout C) (c_resfun C) r = Ok pf -> typed_fout n pf x = Ok f ->
    value_of C r = Some (fo_fval f) /\ gradient_of C r = Some (fo_grad f).
  Proof.
    intros H1 H2. apply typed_fout_inv in H2 as (H3 & H4 & _).
    unfold value_of, gradient_of. now rewrite H1, H3, H4.
  Qed.

  Lemma map3_length {A B D F} (g : A -> B -> D -> F) a : forall b d,
    List.length a = List.length b -> List.length a = List.length d ->
    List.length (map3 g a b d) = List.length a.
  Proof.
    induction a; intros [|y b] [|z d]; simpl; intros; try lia. rewrite IHa; lia.
  Qed.
  Lemma nudge_length x : List.length x = List.length (c_lb C) -> List.length x = List.length (c_ub C) ->
    List.length (nudge C x) = List.length x.
  Proof. intros. unfold nudge. destruct (_ || _); auto. now apply map3_length. Qed.

  Lemma map2_length {A B D} (g : A -> B -> D) a : forall b,
    List.length a = List.length b -> List.length (map2 g a b) = List.length a.
  Proof. induction a; intros [|y b]; simpl; intros; try lia. rewrite IHa; lia. Qed.

  Lemma it_tr_length st sp : it_tr E C st = Ok sp ->
    List.length (it_trial st sp) = List.length (deref st (o_x st)).
  Proof.
    unfold it_tr. destruct trust_region as [sp'|e]; simpl; try discriminate.
    unfold check_shape. destruct (_ && _) eqn:Es; try discriminate. intros H; injection H as ->.
    apply andb_true_iff in Es as [E1 E2]. apply Nat.eqb_eq in E1, E2.
    unfold it_trial, vadd. rewrite (map2_length nadd (map2 _ _ _)); rewrite map2_length; lia.
  Qed.

  (** accepted steps strictly decrease the value *)
  Lemma dot_dv_nn (dv g s : vec) : Forall nn dv ->
    nn (dot s (vmul (vmul dv (vabs g)) s)).
  Proof.
    intros Hd. unfold dot. apply nn_vsum.
    revert g s. induction Hd as [|d dv Hd _ IH]; intros [|a g] [|b s]; simpl; constructor.
    - apply nn_sqmul. apply nn_mul; auto. apply nn_abs.
    - apply (IH g s).
  Qed.
  Lemma affine_dv_nn x : forall g lb ub, Forall nn (map snd (affine_scaling x g lb ub)).
  Proof.
    induction x; intros [|b g] [|l lb] [|u ub]; simpl; constructor; auto.
    unfold affine1. destruct nisfin; simpl; [apply nn_1|apply nn_0].
  Qed.
  Lemma acc_decrease st f sp dv : Forall nn dv -> tru_acc st f sp dv = true ->
    nisfin (fo_fval f) = true /\ fo_fval f <? o_fval st = true
    /\ n0 <? tru_ratio st f sp dv = true /\ (- (st_qpval sp)) <=? n0 = false.
  Proof.
    unfold tru_acc. intros Hdv H. apply andb_true_iff in H as [Hf Hr]. split; auto.
    pose proof Hr as Hr'.
    unfold tru_ratio in Hr. rewrite Hf in Hr. simpl negb in Hr. cbv iota zeta in Hr.
    destruct (- st_qpval sp <=? n0) eqn:Ep.
    { rewrite lt_irrefl in Hr. discriminate. }
    split; auto.
    apply div_pos in Hr; auto. apply sub_pos in Hr.
    - now apply sub_pos_lt.
    - apply nn_mul. apply nn_half. now apply dot_dv_nn.
  Qed.

  Record Inv (x0 : vec) (sid : option string) (st0 : opt) (f : fout T) (s : opt) : Prop := mkInv {
    iv_dims : List.length x0 = List.length (c_lb C) /\ List.length x0 = List.length (c_ub C);
    iv_heap : exists ext, o_heap s = o_heap st0 ++ ext;
    iv_x : (List.length (o_heap st0) <= o_x s < List.length (o_heap s))%nat;
    iv_xmin : (List.length (o_heap st0) <= o_xmin s < List.length (o_heap s))%nat;
    iv_fx : fo_x f = o_x s /\ fo_fval f = o_fval s /\ fo_grad f = o_grad s;
    iv_len : List.length (deref s (o_x s)) = List.length x0;
    iv_log : exists v0 r0 rest, o_evals s = o_evals st0 ++ (nudge C x0, r0) :: rest
        /\ Z.of_nat (List.length rest) = o_iter s /\ value_of C r0 = Some v0 /\ nisfin v0 = true
        /\ (o_fval s = v0 \/ o_fval s <? v0 = true);
    iv_cur : exists p r, In (p, r) (skipn (List.length (o_evals st0)) (o_evals s))
        /\ value_of C r = Some (o_fval s) /\ gradient_of C r = Some (o_grad s)
        /\ in_bounds C p = true /\ List.length p = List.length x0
        /\ (deref s (o_x s) = p \/ deref s (o_x s) = nudge C p);
    iv_fin : nisfin (o_fval s) = true /\ vfinite (o_grad s) = true;
    iv_min : forall p r v, In (p, r) (skipn (List.length (o_evals st0)) (o_evals s)) ->
        value_of C r = Some v -> nisfin v = true -> v <? o_fval_min s = false;
    iv_best : exists p r, In (p, r) (skipn (List.length (o_evals st0)) (o_evals s))
        /\ value_of C r = Some (o_fval_min s) /\ gradient_of C r = Some (o_grad_min s)
        /\ nisfin (o_fval_min s) = true
        /\ (deref s (o_xmin s) = p \/ deref s (o_xmin s) = nudge C p);
    iv_iter : (0 <= o_iter s <= Z.max 0 (op_maxiter O))%Z;
    iv_files : o_files s = o_files st0;
    iv_hist : if has_history C
              then NoDup (map fst (o_hist s))
                   /\ forall k, series_length (o_hist s) k
                      = if in_dec string_dec k hist_keys then Z.to_nat (o_iter s) else 0%nat
              else o_hist s = [];
    iv_sid : o_start_id s = if pr_id sid then match sid with Some s => s | None => ""%string end
                            else e_uuid E (o_nid st0)
  }.

  Lemma skipn_app_exact {A} (l r : list A) : skipn (List.length l) (l ++ r) = r.
  Proof. rewrite skipn_app, skipn_all, Nat.sub_diag. reflexivity. Qed.

  Lemma hist_keys_count k :
    count_occ string_dec hist_keys k = if in_dec string_dec k hist_keys then 1%nat else 0%nat.
  Proof.
    destruct in_dec as [H|H].
    - apply NoDup_count_occ'; auto. 
      assert (Hn : forall l, (fix nd l := match l with [] => true | x :: l => negb (existsb (String.eqb x) l) && nd l end) l = true -> NoDup l).
      { induction l as [|a l IH]; intros Hl; constructor.
        - apply andb_true_iff in Hl as [Hl _]. apply negb_true_iff in Hl. intros Hin.
          rewrite <- not_true_iff_false in Hl. apply Hl. apply existsb_exists. exists a.
          split; auto. apply String.eqb_refl.
        - apply IH. now apply andb_true_iff in Hl. }
      apply Hn. reflexivity.
    - now apply count_occ_not_In.
  Qed.

  Lemma prepare_Inv ndim x0 sid h0 st f s :
    prepare E C ndim x0 sid h0 st = (Ok f, s) -> Inv x0 sid st f s.
  Proof.
    intros H. apply prepare_inv in H. inversion H as [| | | | | |pf hess h' f' Hd Hb Hpf Hh Hc Ht Hf Ef Es].
    subst f'. clear H. subst s.
    apply andb_true_iff in Hd as [Hd _]. apply andb_true_iff in Hd as [_ Hd].
    apply andb_true_iff in Hd as [Hd1 Hd2]. apply Nat.eqb_eq in Hd1, Hd2.
    destruct (value_typed _ _ _ _ _ Hpf Ht) as [Hv Hg].
    apply typed_fout_inv in Ht as (_ & _ & Hx & _).
    unfold all_finite in Hf. apply andb_true_iff in Hf as [Hf _]. apply andb_true_iff in Hf as [Hf1 Hf2].
    assert (Hbet : better (set_o_fval (fo_fval f) (set_o_grad (fo_grad f) (pr_s3 E C sid x0 hess h' st))) f = true).
    { unfold better. rewrite Hf1. unfold pr_s3, pr_s2, pr_s1, pr_s0.
      destruct (pr_id sid); apply (fin_lt_inf _ Hf1). }
    unfold pr_s4. cbv zeta. rewrite Hbet.
    set (s0 := pr_s0 E C sid st).
    assert (Hheap : o_heap (pr_s3 E C sid x0 hess h' st) = o_heap st ++ [nudge C x0]) by reflexivity.
    assert (Hev : o_evals (pr_s3 E C sid x0 hess h' st) = o_evals st ++ [(nudge C x0, pr_ret E C x0 st)]) by reflexivity.
    assert (Kev : forall k a b c d e (r : opt),
      o_evals (set_o_conv k (set_o_xmin a (set_o_fval_min b (set_o_grad_min c (set_o_fval d (set_o_grad e r)))))) = o_evals r) by reflexivity.
    constructor.
    - auto.
    - exists [nudge C x0]. reflexivity.
    - change (List.length (o_heap st) <= List.length (o_heap st) < List.length (o_heap st ++ [nudge C x0]))%nat.
      rewrite app_length. simpl. lia.
    - change (List.length (o_heap st) <= fo_x f < List.length (o_heap st ++ [nudge C x0]))%nat.
      rewrite Hx, app_length. simpl. lia.
    - rewrite Hx. split; [|split]; reflexivity.
    - change (List.length (nth (List.length (o_heap st)) (o_heap st ++ [nudge C x0]) []) = List.length x0).
      rewrite nth_middle. now apply nudge_length.
    - exists (fo_fval f), (pr_ret E C x0 st), []. split; [rewrite Kev; exact Hev|].
      split; [unfold pr_s3, pr_s2, pr_s1, pr_s0; destruct (pr_id sid); reflexivity|].
      split; [exact Hv|]. split; [exact Hf1|]. left. reflexivity.
    - exists (nudge C x0), (pr_ret E C x0 st).
      split; [|split; [exact Hv|split; [exact Hg|split; [exact Hb|split]]]].
      + rewrite Kev, Hev, skipn_app_exact. now left.
      + now apply nudge_length.
      + left. change (nth (List.length (o_heap st)) (o_heap st ++ [nudge C x0]) [] = nudge C x0).
        apply nth_middle.
    - split; auto.
    - intros p r v. 
      rewrite Kev, Hev, skipn_app_exact. intros [H|[]] Hv' _. injection H as <- <-.
      rewrite Hv in Hv'. injection Hv' as <-. apply lt_irrefl.
    - exists (nudge C x0), (pr_ret E C x0 st).
      split; [|split; [exact Hv|split; [exact Hg|split; [exact Hf1|]]]].
      + rewrite Kev, Hev, skipn_app_exact. now left.
      + left. change (nth (fo_x f) (o_heap st ++ [nudge C x0]) [] = nudge C x0). rewrite Hx.
        apply nth_middle.
    - assert (Ei : o_iter s0 = 0%Z) by (unfold s0, pr_s0; destruct (pr_id sid); reflexivity).
      match goal with |- (0 <= ?i <= _)%Z => change i with (o_iter s0) end. lia.
    - match goal with |- ?i = _ => change i with (o_files s0) end.
      unfold s0, pr_s0; destruct (pr_id sid); reflexivity.
    - assert (Eh : o_hist s0 = []) by (unfold s0, pr_s0; destruct (pr_id sid); reflexivity).
      assert (Ei : o_iter s0 = 0%Z) by (unfold s0, pr_s0; destruct (pr_id sid); reflexivity).
      destruct (has_history C).
      + split.
        * match goal with |- NoDup (map fst ?i) => change i with (o_hist s0) end. rewrite Eh. constructor.
        * intros k. match goal with |- series_length ?i _ = (if _ then Z.to_nat ?j else _) =>
            change i with (o_hist s0); change j with (o_iter s0) end.
          rewrite Eh, Ei. destruct in_dec; reflexivity.
      + exact Eh.
    - match goal with |- ?i = _ => change i with (o_start_id s0) end.
      unfold s0, pr_s0; destruct (pr_id sid); reflexivity.
  Qed.

  Lemma Inv_clk x0 sid st0 f s k : Inv x0 sid st0 f s -> Inv x0 sid st0 f (set_o_clk k s).
  Proof. intros []. constructor; assumption. Qed.

  Lemma deref_app_old (s s' : opt) v i :
    o_heap s' = o_heap s ++ [v] -> (i < List.length (o_heap s))%nat -> deref s' i = deref s i.
  Proof. intros H Hi. unfold deref. rewrite H. now apply app_nth1. Qed.
  Lemma deref_app_new (s s' : opt) v :
    o_heap s' = o_heap s ++ [v] -> deref s' (List.length (o_heap s)) = v.
  Proof. intros H. unfold deref. rewrite H. apply nth_middle. Qed.

  Lemma iteration_Inv x0 sid st0 f s f' s' :
    Inv x0 sid st0 f s -> (o_iter s < op_maxiter O)%Z ->
    iteration E C f s = (Ok f', s') -> Inv x0 sid st0 f' s'.
  Proof.
    intros I Hlt H. apply iteration_ok in H as (sp & fn & K).
    destruct I as [Idims [ext Iheap] Ix Ixmin (Ifx & Ifv & Igr) Ilen Ilog Icur Ifin Imin Ibest Iiter Ifiles Ihist Isid].
    destruct K as [Kev Kfx Kf Kb Kh Kheap Kx Kfv Kgr Kxm Kfm Kgm _ _ _ _ _ Kit _ _ Kevs Kfi Ksid _ _ _ Khi].
    destruct (ev_pf _ _ _ _ _ Kev) as (pf & Hpf & Hty).
    destruct (value_typed _ _ _ _ _ Hpf Hty) as [Hv Hg].
    pose proof (ev_tr _ _ _ _ _ Kev) as Htr.
    assert (Hacc : it_acc E C s sp fn = true ->
        nisfin (fo_fval fn) = true /\ vfinite (fo_grad fn) = true /\ fo_fval fn <? o_fval s = true).
    { intros Ha. apply acc_decrease in Ha as (H1 & H2 & _); [|apply affine_dv_nn].
      split; auto. split; auto.
      apply (ev_fin _ _ _ _ _ Kev) in H1. unfold all_finite in H1.
      apply andb_true_iff in H1 as [H1 _]. now apply andb_true_iff in H1 as [_ H1]. }
    assert (Hlen : List.length (it_trial s sp) = List.length x0).
    { rewrite <- Ilen. now apply it_tr_length. }
    assert (Hhl : List.length (o_heap s') = S (List.length (o_heap s))).
    { rewrite Kheap, app_length. simpl. lia. }
    assert (Hhg : (List.length (o_heap st0) <= List.length (o_heap s))%nat).
    { rewrite Iheap, app_length. lia. }
    destruct Ilog as (v0 & r0 & rest & L1 & L2 & L3 & L4 & L5).
    assert (Hsk : skipn (List.length (o_evals st0)) (o_evals s')
      = skipn (List.length (o_evals st0)) (o_evals s) ++ [(it_trial s sp, it_ret E s sp)]).
    { rewrite Kevs, L1, <- app_assoc, !skipn_app_exact. reflexivity. }
    constructor.
    - exact Idims.
    - eexists. rewrite Kheap, Iheap, <- app_assoc. reflexivity.
    - rewrite Kx, Hhl. destruct it_acc; lia.
    - rewrite Kxm, Hhl. destruct better; [rewrite Kfx|]; lia.
    - rewrite Kf, Kx, Kfv, Kgr. destruct it_acc; auto.
    - rewrite Kx. destruct it_acc.
      + rewrite (deref_app_new _ _ _ Kheap), nudge_length; lia.
      + rewrite (deref_app_old _ _ _ _ Kheap); lia.
    - exists v0, r0, (rest ++ [(it_trial s sp, it_ret E s sp)]).
      split; [rewrite Kevs, L1, <- app_assoc; reflexivity|].
      split; [rewrite app_length, Kit; simpl List.length; lia|].
      split; auto. split; auto.
      rewrite Kfv. destruct it_acc; auto. right.
      destruct (Hacc eq_refl) as (_ & _ & Hd). destruct L5 as [<-|L5]; auto.
      eapply lt_trans; eauto.
    - destruct (it_acc E C s sp fn) eqn:Ea.
      + exists (it_trial s sp), (it_ret E s sp). rewrite Hsk, Kfv, Kgr, Kx.
        split; [apply in_or_app; right; now left|].
        split; auto. split; auto. split; auto. split; auto.
        right. apply (deref_app_new _ _ _ Kheap).
      + destruct Icur as (p & r & C1 & C2 & C3 & C4 & C5 & C6). exists p, r.
        rewrite Hsk, Kfv, Kgr, Kx.
        split; [apply in_or_app; now left|]. rewrite (deref_app_old _ _ _ _ Kheap) by lia. auto.
    - rewrite Kfv, Kgr. destruct it_acc; auto. destruct (Hacc eq_refl) as (? & ? & _). auto.
    - intros p r v. rewrite Hsk, Kfm. intros Hin Hvr Hfin.
      apply in_app_or in Hin as [Hin|[Hin|[]]].
      + specialize (Imin _ _ _ Hin Hvr Hfin).
        destruct better eqn:Eb; auto. unfold better in Eb. apply andb_true_iff in Eb as [_ Eb].
        eapply not_lt_trans; eauto.
      + injection Hin as <- <-. rewrite Hv in Hvr. injection Hvr as <-.
        destruct better eqn:Eb; [apply lt_irrefl|].
        unfold better in Eb. now rewrite Hfin in Eb.
    - destruct (better s fn) eqn:Eb.
      + exists (it_trial s sp), (it_ret E s sp). rewrite Hsk, Kfm, Kgm, Kxm, Kfx.
        split; [apply in_or_app; right; now left|]. split; auto. split; auto.
        unfold better in Eb. apply andb_true_iff in Eb as [Eb _]. split; auto.
        rewrite (deref_app_new _ _ _ Kheap). destruct it_acc; auto.
      + destruct Ibest as (p & r & C1 & C2 & C3 & C4 & C5). exists p, r.
        rewrite Hsk, Kfm, Kgm, Kxm.
        split; [apply in_or_app; now left|]. rewrite (deref_app_old _ _ _ _ Kheap) by lia. auto.
    - rewrite Kit. lia.
    - now rewrite Kfi.
    - destruct (has_history C).
      + destruct Khi as (vals & V1 & _ & _ & _ & _ & V2). destruct Ihist as [I1 I2].
        rewrite V2. split; [now apply append_all_nodup|].
        intros k. rewrite series_append_all, V1, I2, hist_keys_count, Kit.
        destruct in_dec; lia.
      + now rewrite Khi.
    - now rewrite Ksid.
  Qed.

  Lemma loop_head_Inv ndim x0 sid h0 st f s :
    loop_head E C ndim x0 sid h0 st f s -> Inv x0 sid st f s.
  Proof.
    induction 1 as [f s H|f s s1 f' s' _ IH Hc Hi].
    - eapply prepare_Inv; eauto.
    - apply check_continue_true in Hc as (-> & _ & Hlt & _).
      eapply iteration_Inv; [apply Inv_clk; exact IH| |exact Hi]. exact Hlt.
  Qed.
End RunInv.
