(** Properties of Optimizer.minimize proved for every number system satisfying [NumLaws]
    (binary64 included): C06 C07 C08 C09 C10 C15 C16 C18 C20 C22 C24 *)
From Coq Require Import ZArith List Bool String Lia Reals Lra.
From Flocq Require Import BinarySingleNaN.
From Verif Require Import Num Constants Subproblem HessApprox Steps TrustRegion Minimize
  ER F64 NumFacts MonadFacts MinFacts Spec Run RunInv TRErr RunFrame Witness.
Import ListNotations.
Local Open Scope num_scope.

Section RunProps.
  Context {T : Type} {N : Num T} {L : NumLaws T}.
  Local Notation vec := (list T).
  Local Notation mat := (list (list T)).
  Variable E : env T.                 (* any objective, clock, uuid source, linear algebra *)
  Variable C : cfg T.                 (* any options and bounds *)
  Variables (fuel ndim : nat) (x0 : vec) (sid : option string) (h0 : hess0_arg T).
  Variable st : opt T.                (* any state the optimizer is in when called *)
  Local Notation O := (c_opts C).
  Local Notation run := (minimize E C fuel ndim x0 sid h0 st).
  Local Notation head := (loop_head E C ndim x0 sid h0 st).

  (** ** C06  iteration budget *)
  Theorem C06_iteration_budget r st' :
    run = (r, st') ->
    (0 <= o_iter st' <= Z.max 0 (op_maxiter O))%Z /\
    exists new, o_evals st' = o_evals st ++ new
                /\ (Z.of_nat (List.length new) <= 1 + o_iter st')%Z.
  Proof.
    intros H.
    assert (Hcheck : forall s b s1, check_continue E C s = (Ok b, s1) ->
        o_iter s1 = o_iter s /\ o_evals s1 = o_evals s).
    { intros s [] s1 Hc.
      - apply check_continue_true in Hc as (-> & _). split; reflexivity.
      - apply check_continue_false in Hc as (fl & k & ->). split; reflexivity. }
    assert (Hw : forall s r1 s1, write_history C s = (r1, s1) ->
        o_iter s1 = o_iter s /\ o_evals s1 = o_evals s).
    { intros s r1 s1 Hw.
      apply write_history_inv in Hw as [(_ & _ & ->)|[(file & _ & _ & _ & ->)|(file & _ & _ & -> & _)]];
      split; reflexivity. }
    assert (Hh : forall f s, head f s -> (0 <= o_iter s <= Z.max 0 (op_maxiter O))%Z /\
       exists new, o_evals s = o_evals st ++ new /\ (Z.of_nat (List.length new) <= 1 + o_iter s)%Z).
    { intros f s Hs. pose proof (loop_head_Inv E C _ _ _ _ _ _ _ Hs) as I.
      apply loop_head_frame in Hs as [[(new & G1 & G2) _ _] Hn].
      split; [apply (iv_iter _ _ _ _ _ _ _ I)|]. exists new. split; auto. lia. }
    destruct r as [[[[fv x] g] h]|e].
    - apply minimize_ok_inv in H as (f & s & s1 & Hl & Hc & Hwr & _).
      apply Hcheck in Hc as [C1 C2]. apply Hw in Hwr as [W1 W2].
      rewrite W1, W2, C1, C2. eauto.
    - apply minimize_err_inv in H as [H|[[-> [f H]]|[(f & s & s1 & Hl & Hc & Hi)|(f & s & s1 & Hl & Hc & Hwr)]]].
      + apply prepare_frame in H as [[(new & G1 & G2) _ _] Hi]. rewrite Hi.
        split; [lia|]. exists new. split; auto. lia.
      + eauto.
      + pose proof (check_continue_true _ _ _ _ Hc) as (_ & _ & Hlt & _).
        apply Hcheck in Hc as [C1 C2].
        apply iteration_frame in Hi as [[(new & G1 & G2) _ _] Hi].
        destruct (Hh _ _ Hl) as [HI (new0 & N1 & N2)]. rewrite Hi, C1.
        split; [lia|]. exists (new0 ++ new). split.
        * rewrite G1, C2, N1. now rewrite app_assoc.
        * rewrite app_length. lia.
      + apply Hcheck in Hc as [C1 C2]. apply Hw in Hwr as [W1 W2].
        rewrite W1, W2, C1, C2. eauto.
  Qed.

  (** The main loop of the model never runs out of fuel: with fuel for the budget, more fuel
      does not change the outcome *)
  Lemma loop_fuel k : forall n f s, (Z.to_nat (op_maxiter O - o_iter s) < n)%nat -> 
    loop E C (n + k) f s = loop E C n f s.
  Proof.
    induction n as [|n IH]; intros f s Hn; [lia|].
    simpl. unfold bind. destruct (check_continue E C s) as [[[]|e] s1] eqn:Ec; auto.
    destruct (iteration E C f s1) as [[f'|e] s2] eqn:Ei; auto.
    apply IH. apply check_continue_true in Ec as (-> & _ & Hlt & _).
    apply iteration_frame in Ei as [_ Hi]. rewrite Hi.
    change (o_iter (set_o_clk (S (o_clk s)) s)) with (o_iter s). lia.
  Qed.
  (** a run that returns made exactly one evaluation per iteration, and one for the starting point *)
  Theorem C06_evaluations_counted fv x g h st' :
    run = (Ok (fv, x, g, h), st') ->
    exists new, o_evals st' = o_evals st ++ new /\ (Z.of_nat (List.length new) = 1 + o_iter st')%Z.
  Proof.
    intros H. apply minimize_ok_inv in H as (f & s & s1 & Hl & Hc & Hw & _).
    assert (Es : o_evals st' = o_evals s /\ o_iter st' = o_iter s).
    { apply check_continue_false in Hc as (fl & k & ->).
      apply write_history_inv in Hw as [(_ & _ & ->)|[(file & _ & _ & _ & ->)|(file & _ & _ & -> & _)]]; split; reflexivity. }
    destruct Es as [-> ->]. pose proof (loop_head_Inv E C _ _ _ _ _ _ _ Hl) as I.
    destruct (iv_log _ _ _ _ _ _ _ I) as (v0 & r0 & rest & L1 & L2 & _).
    exists ((nudge C x0, r0) :: rest). split; auto. cbn [List.length]. lia.
  Qed.

  Theorem C06_terminates k :
    (Z.to_nat (op_maxiter O) < fuel)%nat ->
    minimize E C (fuel + k) ndim x0 sid h0 st = run.
  Proof.
    intros Hf. unfold minimize, bind.
    destruct (prepare E C ndim x0 sid h0 st) as [[f|e] s] eqn:Ep; auto.
    rewrite loop_fuel; auto. apply prepare_frame in Ep as [_ Hi]. rewrite Hi. now rewrite Z.sub_0_r.
  Qed.

  (** ... and without the two inner while loops (CG solver, recursive truncation) no run diverges *)
  Theorem C06_no_divergence st' :
    (Z.to_nat (op_maxiter O) < fuel)%nat ->
    op_subspace_dim O <> "scg"%string ->
    op_stepback O <> "truncate"%string -> op_stepback O <> "mixed"%string ->
    roots_raise (so_sub (e_la E)) (fun e => e <> EDiverge) ->
    run <> (Err EDiverge, st').
  Proof.
    intros Hf Hd H1 H2 Hr H.
    assert (Hdiv : forall n f s s', (Z.to_nat (op_maxiter O - o_iter s) < n)%nat ->
       loop E C n f s <> (Err EDiverge, s')).
    { induction n as [|n IH]; intros f s s' Hn Hl; [lia|].
      simpl in Hl. unfold bind in Hl. destruct (check_continue E C s) as [[[]|e] s1] eqn:Ec.
      - destruct (iteration E C f s1) as [[f'|e] s2] eqn:Ei.
        + apply IH in Hl; auto. apply check_continue_true in Ec as (-> & _ & Hlt & _).
          apply iteration_frame in Ei as [_ Hi]. rewrite Hi.
          change (o_iter (set_o_clk (S (o_clk s)) s)) with (o_iter s). lia.
        + apply pair_equal_spec in Hl as [He _]. injection He as ->.
          apply iteration_inv in Ei.
          inversion Ei as [|e' Ht|sp e' Ht He|sp pf e' Ht He Hy|sp pf f0 Ht He Hy A1 A2
            |sp f0 e' st0 Hev Ha Hu|sp f0 st0 Hev Hu Hh|]; subst.
          * unfold it_tr in Ht. destruct trust_region eqn:Etr in Ht; cbn [rbind] in Ht.
            -- unfold check_shape in Ht. destruct (_ && _) in Ht; discriminate.
            -- injection Ht as ->. revert Etr. intros Etr.
               eapply (trust_region_err (e_la E) (fun e => e <> EDiverge)) in Etr; try congruence.
               intuition congruence.
          * apply fun_evaluate_err in He as [He|He]; discriminate.
          * apply typed_fout_err in Hy. discriminate.
          * rewrite update_run in Hu. destruct new_hess as [[? ?]|e1] eqn:En.
            -- destruct in_bounds; [discriminate Hu|]. apply pair_equal_spec in Hu as [Hu _]. discriminate.
            -- apply pair_equal_spec in Hu as [Hu _]. injection Hu as ->.
               apply new_hess_err in En as [En|[En|En]]; discriminate.
      - discriminate Hl.
      - rewrite check_continue_run in Ec.
        destruct o_conv; [discriminate|]. destruct (_ <=? _)%Z; [discriminate|].
        cbv zeta in Ec. destruct out_of_time; [discriminate|]. destruct (_ <? _); discriminate. }
    unfold minimize in H.
    apply bind_inv in H as [(f & s1 & H3 & H)|(e & H3 & He)].
    - apply bind_inv in H as [([] & s2 & H4 & H)|(e & H4 & He)].
      + apply bind_inv in H as [([] & s3 & H5 & H)|(e & H5 & He)].
        * rewrite (bind_ok get _ s3 s3 s3 eq_refl) in H. discriminate H.
        * injection He as <-.
          apply write_history_inv in H5 as [(H5 & _)|[(file & _ & H5 & _)|(file & _ & H5 & _)]]; discriminate.
      + injection He as <-. apply Hdiv in H4; auto.
        apply prepare_frame in H3 as [_ Hi]. rewrite Hi. now rewrite Z.sub_0_r.
    - injection He as <-. apply prepare_inv in H3.
      inversion H3 as [| |e A1 A2 A3|pf e A1 A2 A3 A4|pf hess h' e A1 A2 A3 A4 A5| |]; subst.
      + apply fun_evaluate_err in A3 as [A3|A3]; discriminate.
      + apply pr_hess_err in A4 as [A4|A4]; discriminate.
      + destruct A5 as [A5|A5].
        * apply checkdims_err in A5 as [A5|A5]; discriminate.
        * apply typed_fout_err in A5. discriminate.
  Qed.

  (** ** C07  the exit flag *)
  (** why a run that returned in state [s'] stopped, flag by flag *)
  Definition stop_reason (s' : opt T) (fl : exit_flag) : Prop :=
    match fl with
    | XF_MAXITER => o_conv s' = false /\ (op_maxiter O <= o_iter s')%Z
    | XF_MAXTIME =>
        (* t: the last reading of the clock *)
        let t := e_clock E (pred (o_clk s')) in
        o_conv s' = false /\ (o_iter s' < op_maxiter O)%Z
        /\ (op_maxtime O - (t - o_starttime s'))
            <? ((t - o_starttime s') / nofZ (Z.max 1 (o_iter s'))) = true
    | DELTA_TOO_SMALL =>
        o_conv s' = false /\ (o_iter s' < op_maxiter O)%Z /\ o_delta s' <? spacing1 = true
    | FTOL | XF_XTOL | GTOL =>
        o_conv s' = true /\
        (* s: the state at the start of the last iteration; sp: the step it proposed; v, g: value and
           gradient of the trial point p, the last point evaluated *)
        exists f s sp p r v g evals,
          head f s /\ proposes E C s sp /\ p = trial_point s sp
          /\ o_evals s' = evals ++ [(p, r)]
          /\ value_of C r = Some v /\ gradient_of C r = Some g
          /\ o_iter s' = (o_iter s + 1)%Z
          /\ match fl with
             | FTOL => nabs (v - o_fval s) <? (op_fatol O + op_frtol O * nabs (o_fval s)) = true
                       /\ op_mu O <? o_tr_ratio s' = true
             | XF_XTOL => scaled_length sp <? op_xtol O = true /\ (1 < o_iter s')%Z
             | _ => norm g <=? op_gatol O = true
                    \/ norm g <=? op_grtol O * nabs (o_fval s) = true
             end
    | _ => False
    end.

  Lemma head_last f s : head f s ->
    o_conv s = false \/
    exists f0 s0 s1 sp fn, head f0 s0 /\ check_continue E C s0 = (Ok true, s1)
      /\ iter_ok E C f0 s1 f s sp fn.
  Proof.
    intros H. inversion H as [f' s' Hp|f0 s0 s1 f' s' Hl Hc Hi]; subst.
    - left. apply prepare_inv in Hp. inversion Hp. reflexivity.
    - right. apply iteration_ok in Hi as (sp & fn & K). exists f0, s0, s1, sp, fn. auto.
  Qed.

  Theorem C07_exit_flag fv x g h st' :
    run = (Ok (fv, x, g, h), st') -> stop_reason st' (o_flag st').
  Proof.
    intros H. apply minimize_ok_inv in H as (f & s & s1 & Hl & Hc & Hw & _).
    assert (Hsame : forall fl, stop_reason s1 fl -> stop_reason st' fl).
    { intros fl. apply write_history_inv in Hw as [(_ & _ & ->)|[(file & _ & _ & _ & ->)|(file & _ & _ & -> & _)]];
      auto. }
    assert (Hfl : o_flag st' = o_flag s1).
    { apply write_history_inv in Hw as [(_ & _ & ->)|[(file & _ & _ & _ & ->)|(file & _ & _ & -> & _)]];
      reflexivity. }
    rewrite Hfl. apply Hsame. clear Hsame Hfl Hw.
    rewrite check_continue_run in Hc.
    destruct (o_conv s) eqn:Ecv.
    { apply pair_equal_spec in Hc as [_ <-].
      destruct (head_last _ _ Hl) as [E0|(f0 & s0 & s2 & sp & fn & Hl0 & Hc0 & K)]; [congruence|].
      destruct K as [Kev Kfx Kf Kb Kh Kheap Kx Kfv Kgr Kxm Kfm Kgm Kd Kdi Kra _ _ Kit Kcv Kfl Kevs Kfi Ksid _ _ _ Khi].
      apply check_continue_true in Hc0 as (-> & _ & Hlt & _).
      rewrite Ecv in Kcv.
      destruct (ev_pf _ _ _ _ _ Kev) as (pf & Hpf & Hty).
      destruct (value_typed C _ _ _ _ _ Hpf Hty) as [Hv Hg].
      pose proof (ev_tr _ _ _ _ _ Kev) as Htr. apply proposes_it_tr in Htr.
      assert (Hex : forall P : T -> vec -> Prop, P (fo_fval fn) (fo_grad fn) ->
        exists f s3 sp0 p r v g evals,
          head f s3 /\ proposes E C s3 sp0 /\ p = trial_point s3 sp0
          /\ o_evals s = evals ++ [(p, r)]
          /\ value_of C r = Some v /\ gradient_of C r = Some g
          /\ o_iter s = (o_iter s3 + 1)%Z /\ (P v g /\ s3 = s0 /\ sp0 = sp)).
      { intros P HP. exists f0, s0, sp, (trial_point s0 sp), (it_ret E (set_o_clk (S (o_clk s0)) s0) sp),
          (fo_fval fn), (fo_grad fn), (o_evals s0).
        split; auto. split; [exact Htr|]. split; auto. split; [exact Kevs|]. split; auto. }
      assert (Hr3 : o_tr_ratio (it_s3 E C (set_o_clk (S (o_clk s0)) s0) sp fn) = o_tr_ratio s).
      { rewrite Kra. reflexivity. }
      unfold conv_result in Kcv, Kfl. rewrite Hr3 in Kcv, Kfl.
      change (o_fval (it_s3 E C (set_o_clk (S (o_clk s0)) s0) sp fn)) with (o_fval s0) in Kcv, Kfl.
      change (o_iter (it_s3 E C (set_o_clk (S (o_clk s0)) s0) sp fn)) with (o_iter s0 + 1)%Z in Kcv, Kfl.
      destruct (_ && _) eqn:E1.
      { apply andb_true_iff in E1 as [E1 E2].
        rewrite Kfl. simpl oflag. split; auto.
        destruct (Hex (fun v _ => nabs (v - o_fval s0) <? (op_fatol O + op_frtol O * nabs (o_fval s0)) = true
                       /\ op_mu O <? o_tr_ratio s = true)) as (f1 & s3 & sp0 & p & r & v & gg & evs & B1 & B2 & B3 & B4 & B5 & B6 & B7 & B8 & B9 & B10); auto.
        subst s3 sp0. exists f1, s0, sp, p, r, v, gg, evs. auto 10. }
      destruct (_ && _) eqn:E2 in Kcv.
      { rewrite E2 in Kfl. apply andb_true_iff in E2 as [E2 E3]. apply Z.ltb_lt in E2.
        rewrite Kfl. simpl oflag. split; auto.
        destruct (Hex (fun _ _ => scaled_length sp <? op_xtol O = true /\ (1 < o_iter s)%Z)) as (f1 & s3 & sp0 & p & r & v & gg & evs & B1 & B2 & B3 & B4 & B5 & B6 & B7 & B8 & B9 & B10).
        { split; [exact E3|]. rewrite Kit. exact E2. }
        subst s3 sp0. exists f1, s0, sp, p, r, v, gg, evs. auto 10. }
      rewrite E2 in Kfl.
      destruct (norm (fo_grad fn) <=? op_gatol O) eqn:E3.
      { rewrite Kfl. simpl oflag. split; auto.
        destruct (Hex (fun _ g => norm g <=? op_gatol O = true \/ norm g <=? op_grtol O * nabs (o_fval s0) = true))
          as (f1 & s3 & sp0 & p & r & v & gg & evs & B1 & B2 & B3 & B4 & B5 & B6 & B7 & B8 & B9 & B10); auto.
        subst s3 sp0. exists f1, s0, sp, p, r, v, gg, evs. auto 10. }
      destruct (norm (fo_grad fn) <=? op_grtol O * nabs (o_fval s0)) eqn:E4.
      { rewrite Kfl. simpl oflag. split; auto.
        destruct (Hex (fun _ g => norm g <=? op_gatol O = true \/ norm g <=? op_grtol O * nabs (o_fval s0) = true))
          as (f1 & s3 & sp0 & p & r & v & gg & evs & B1 & B2 & B3 & B4 & B5 & B6 & B7 & B8 & B9 & B10); auto.
        subst s3 sp0. exists f1, s0, sp, p, r, v, gg, evs. auto 10. }
      discriminate Kcv. }
    destruct (op_maxiter O <=? o_iter s)%Z eqn:Ei.
    { apply pair_equal_spec in Hc as [_ <-]. apply Z.leb_le in Ei. split; auto. }
    apply Z.leb_gt in Ei. cbv zeta in Hc.
    destruct (out_of_time E C s) eqn:Eo.
    { apply pair_equal_spec in Hc as [_ <-]. split; [exact Ecv|]. split; [exact Ei|].
      unfold out_of_time, elapsed in Eo.
      apply loop_head_frame in Hl as [_ Hn].
      replace (o_iter s + (if (o_iter s =? 0)%Z then 1 else 0))%Z with (Z.max 1 (o_iter s)) in Eo.
      - exact Eo.
      - destruct (Z.eqb_spec (o_iter s) 0); lia. }
    destruct (o_delta s <? spacing1) eqn:Ed; [|discriminate Hc].
    apply pair_equal_spec in Hc as [_ <-]. split; [exact Ecv|]. split; [exact Ei|]. exact Ed.
  Qed.

  (** positive flags exactly when [converged] is set *)
  Corollary C07_converged_iff fv x g h st' :
    run = (Ok (fv, x, g, h), st') ->
    (o_conv st' = true <-> (0 < exit_flag_code (o_flag st'))%Z)
    /\ In (o_flag st') [XF_MAXITER; XF_MAXTIME; DELTA_TOO_SMALL; FTOL; XF_XTOL; GTOL].
  Proof.
    intros H. apply C07_exit_flag in H. destruct (o_flag st'); simpl in H; try contradiction;
    destruct H as [-> _]; simpl; split; try tauto; split; try discriminate; lia.
  Qed.

  (** the integer value of [exitflag] (an int enum) says which reason it was: 1 ftol, 2 xtol, 3 gtol,
      -1 maxiter, -2 maxtime, -5 radius too small; no other value is returned *)
  Corollary C07_flag_numbers fv x g h st' :
    run = (Ok (fv, x, g, h), st') ->
    let c := exit_flag_code (o_flag st') in
    (c = (1)%Z /\ stop_reason st' FTOL) \/ (c = (2)%Z /\ stop_reason st' XF_XTOL) \/ (c = (3)%Z /\ stop_reason st' GTOL)
    \/ (c = (-1)%Z /\ stop_reason st' XF_MAXITER) \/ (c = (-2)%Z /\ stop_reason st' XF_MAXTIME)
    \/ (c = (-5)%Z /\ stop_reason st' DELTA_TOO_SMALL).
  Proof.
    intros H. apply C07_exit_flag in H. cbv zeta.
    destruct (o_flag st') eqn:Ef; try (exfalso; exact H); cbn [exit_flag_code].
    - do 3 right. left. split; [reflexivity|exact H].
    - do 4 right. left. split; [reflexivity|exact H].
    - do 5 right. split; [reflexivity|exact H].
    - left. split; [reflexivity|exact H].
    - right. left. split; [reflexivity|exact H].
    - do 2 right. left. split; [reflexivity|exact H].
  Qed.

  (** the step is accepted: finite value, positive predicted decrease, positive ratio *)
  Definition accepts (s : opt T) (sp : step T) (v : T) (g : vec) : bool :=
    nisfin v && (n0 <? predicted_decrease sp)
    && (n0 <? actual_decrease sp (scaling_derivative C s) (o_fval s) v g / predicted_decrease sp).

  Lemma div_nan_r (a b : T) : nisnan b = true -> nisnan (a / b) = true.
  Proof.
    rewrite !emb_isnan. intros Hb. rewrite emb_div.
    - rewrite rnd_isnan. destruct (emb a), (emb b); simpl in *; auto; discriminate.
    - intros Hz. rewrite Hz in Hb. discriminate.
  Qed.
  Lemma it_acc_accepts s sp f k :
    it_acc E C (set_o_clk k s) sp f = accepts s sp (fo_fval f) (fo_grad f).
  Proof.
    unfold it_acc, tru_acc, accepts, tru_ratio, predicted_decrease, actual_decrease, scaling_derivative.
    cbv zeta. change (o_fval (it_s2 E (set_o_clk k s) sp)) with (o_fval s).
    change (it_dv C (set_o_clk k s))
      with (map snd (affine_scaling (deref s (o_x s)) (o_grad s) (c_lb C) (c_ub C))).
    destruct (nisfin (fo_fval f)); simpl; auto.
    destruct (- st_qpval sp <=? n0) eqn:Ep.
    - rewrite lt_irrefl. rewrite (le_not_lt _ _ Ep). reflexivity.
    - destruct (n0 <? - st_qpval sp) eqn:Eq; auto.
      destruct (nisnan (- st_qpval sp)) eqn:En.
      + simpl. apply nan_lt_r. now apply div_nan_r.
      + exfalso. assert (nisnan (n0 : T) = false) by (rewrite emb_isnan, emb_0; reflexivity).
        apply not_lt_le in Eq; auto. congruence.
  Qed.

  (** a RuntimeError comes with the flag that explains it *)
  Theorem C07_runtime_error st' :
    roots_raise (so_sub (e_la E)) (fun e => e <> ERuntime) ->
    run = (Err ERuntime, st') ->
    (o_flag st' = EXCEEDED_BOUNDARY /\
       ((* the start, after make_non_degenerate *) in_bounds C (nudge C x0) = false
        \/ (* a trial point that was about to be accepted *)
           exists f s sp v g, head f s /\ proposes E C s sp
             /\ value_of C (e_obj E (List.length (o_evals s)) (trial_point s sp)) = Some v
             /\ gradient_of C (e_obj E (List.length (o_evals s)) (trial_point s sp)) = Some g
             /\ accepts s sp v g = true
             /\ in_bounds C (trial_point s sp) = false))
    \/ (o_flag st' = NOT_FINITE /\
         ((* the last evaluation of the log *)
          (exists p r evals pf, o_evals st' = evals ++ [(p, r)]
             /\ fun_evaluate (c_nargout C) (c_resfun C) r = Ok pf
             /\ exists v g, value_of C r = Some v /\ gradient_of C r = Some g
                 /\ (nisfin v = false \/ vfinite g = false
                     \/ exists nc hs, pf_hess pf = PMat nc hs /\ mfinite hs = false))
          \/ (* the current Hessian (approximation) *) mfinite (o_hess st') = false)).
  Proof.
    intros Hr H.
    assert (Hnf : forall r pf f n x, fun_evaluate (c_nargout C) (c_resfun C) r = Ok pf ->
       typed_fout n pf x = Ok f -> all_finite (fo_fval f) (fo_grad f) (fo_hess f) = false ->
       exists v g, value_of C r = Some v /\ gradient_of C r = Some g
                 /\ (nisfin v = false \/ vfinite g = false
                     \/ exists nc hs, pf_hess pf = PMat nc hs /\ mfinite hs = false)).
    { intros r pf f n x Hpf Hty Hall. exists (fo_fval f), (fo_grad f).
      destruct (value_typed C _ _ _ _ _ Hpf Hty) as [Hv Hg]. split; auto. split; auto.
      apply typed_fout_inv in Hty as (_ & _ & _ & _ & _ & _ & Hh).
      unfold all_finite in Hall. apply andb_false_iff in Hall as [Hall|Hall].
      - apply andb_false_iff in Hall as [Hall|Hall]; auto.
      - destruct (fo_hess f) as [hs|]; [|discriminate]. destruct Hh as (nc & Hh & _). eauto 10. }
    apply minimize_err_inv in H as [H|[[He _]|[(f & s & s1 & Hl & Hc & Hi)|(f & s & s1 & Hl & Hc & Hwr)]]].
    - apply prepare_inv in H.
      inversion H as [|A1 A2|e A1 A2 A3|pf e A1 A2 A3 A4|pf hess h' e A1 A2 A3 A4 A5|pf hess h' f A1 A2 A3 A4 A5 A6 A7|]; subst.
      + left. auto.
      + apply fun_evaluate_err in A3 as [A3|A3]; discriminate.
      + apply pr_hess_err in A4 as [A4|A4]; discriminate.
      + destruct A5 as [A5|A5].
        * apply checkdims_err in A5 as [A5|A5]; discriminate.
        * apply typed_fout_err in A5. discriminate.
      + right. split; [reflexivity|]. left.
        exists (nudge C x0), (pr_ret E C x0 st), (o_evals st), pf.
        split; [|split; eauto].
        unfold pr_s4. match goal with |- context [better ?a ?b] => destruct (better a b) end; reflexivity.
    - discriminate.
    - pose proof (loop_head_Inv E C _ _ _ _ _ _ _ Hl) as I.
      pose proof (iv_fin _ _ _ _ _ _ _ I) as [If Ig].
      apply check_continue_true in Hc as (-> & _).
      apply iteration_inv in Hi.
      inversion Hi as [Hcur Er Es|e' Ht|sp e' Ht He|sp pf e' Ht He Hy|sp pf fn Ht He Hy A1 A2
            |sp fn e' st0 Hev Ha Hu|sp fn st0 Hev Hu Hh|]; subst.
      + right. split; [reflexivity|]. right.
        unfold all_finite in Hcur.
        change (nisfin (o_fval s) && vfinite (o_grad s) && mfinite (o_hess s) = false) in Hcur.
        rewrite If, Ig in Hcur. exact Hcur.
      + unfold it_tr in Ht. destruct trust_region eqn:Etr in Ht; cbn [rbind] in Ht.
        * unfold check_shape in Ht. destruct (_ && _) in Ht; discriminate.
        * injection Ht as ->. exfalso.
          eapply (trust_region_err (e_la E) (fun e => e <> ERuntime)) in Etr; intuition congruence.
      + apply fun_evaluate_err in He as [He|He]; discriminate.
      + apply typed_fout_err in Hy. discriminate.
      + right. split; [reflexivity|]. left. eexists _, _, _, pf.
        split; [|split; [exact He|eauto]]. reflexivity.
      + left. rewrite update_run in Hu. destruct new_hess as [[? ?]|e1] eqn:En.
        * assert (Hd : deref (it_s5 E C (set_o_clk (S (o_clk s)) s) sp fn) (fo_x fn)
                       = trial_point s sp).
          { destruct (ev_pf _ _ _ _ _ Hev) as (pf & _ & Hty).
            apply typed_fout_inv in Hty as (_ & _ & Hx & _).
            unfold deref. rewrite s5_heap, Hx. apply nth_middle. }
          rewrite Hd in Hu. destruct in_bounds eqn:Eb; [discriminate Hu|].
          cbv zeta in Hu. apply pair_equal_spec in Hu as [_ <-].
          split; [reflexivity|]. right. exists f, s, sp, (fo_fval fn), (fo_grad fn). split; auto. split.
          { pose proof (ev_tr _ _ _ _ _ Hev) as Htr. apply proposes_it_tr in Htr. exact Htr. }
          destruct (ev_pf _ _ _ _ _ Hev) as (pf & Hpf & Hty).
          destruct (value_typed C _ _ _ _ _ Hpf Hty) as [Hv Hg].
          split; [exact Hv|]. split; [exact Hg|]. split; [|exact Eb].
          now rewrite <- (it_acc_accepts s sp fn (S (o_clk s))).
        * apply pair_equal_spec in Hu as [Hu _]. injection Hu as ->.
          apply new_hess_err in En as [En|[En|En]]; discriminate.
    - apply write_history_inv in Hwr as [(Hwr & _)|[(file & _ & Hwr & _)|(file & _ & Hwr & _)]]; discriminate.
  Qed.

  (** ** C08  monotone decrease, in the machine's own comparison *)
  Theorem C08_step_decreases f s s1 f' s' :
    head f s -> check_continue E C s = (Ok true, s1) -> iteration E C f s1 = (Ok f', s') ->
    (o_x s' = o_x s /\ deref s' (o_x s') = deref s (o_x s) /\ o_fval s' = o_fval s)
    \/ o_fval s' <? o_fval s = true.
  Proof.
    intros Hl Hc Hi. pose proof (loop_head_Inv E C _ _ _ _ _ _ _ Hl) as I.
    apply check_continue_true in Hc as (-> & _).
    apply iteration_ok in Hi as (sp & fn & K).
    pose proof (ik_x _ _ _ _ _ _ _ _ K) as Kx. pose proof (ik_fval _ _ _ _ _ _ _ _ K) as Kf.
    pose proof (ik_heap _ _ _ _ _ _ _ _ K) as Kh.
    destruct it_acc eqn:Ea.
    - right. rewrite Kf. apply acc_decrease in Ea as (_ & H & _); [exact H|apply affine_dv_nn].
    - left. split; [exact Kx|]. split; [|exact Kf]. rewrite Kx.
      apply (deref_app_old _ _ _ _ Kh). apply (iv_x _ _ _ _ _ _ _ I).
  Qed.

  Theorem C08_never_worse_than_start fv x g h st' :
    run = (Ok (fv, x, g, h), st') ->
    exists r0 v0 rest,
      o_evals st' = o_evals st ++ (nudge C x0, r0) :: rest /\ value_of C r0 = Some v0
      /\ nisfin v0 = true /\ fv <=? v0 = true.
  Proof.
    intros H. apply minimize_ok_inv in H as (f & s & s1 & Hl & Hc & Hw & -> & _).
    pose proof (loop_head_Inv E C _ _ _ _ _ _ _ Hl) as I.
    destruct (iv_log _ _ _ _ _ _ _ I) as (v0 & r0 & rest & L1 & _ & L3 & L4 & L5).
    assert (Hs : o_evals st' = o_evals s /\ o_fval st' = o_fval s).
    { apply check_continue_false in Hc as (fl & k & ->).
      apply write_history_inv in Hw as [(_ & _ & ->)|[(file & _ & _ & _ & ->)|(file & _ & _ & -> & _)]];
      split; reflexivity. }
    destruct Hs as [-> ->]. exists r0, v0, rest. split; auto. split; auto. split; auto.
    destruct L5 as [->|L5].
    - apply le_refl. now apply fin_nan.
    - now apply lt_le.
  Qed.

  (** ** C09  the best point is tracked *)
  Theorem C09_best_point f s :
    head f s ->
    exists new, o_evals s = o_evals st ++ new
      /\ (* no finite value of this run is smaller than fval_min *)
         (forall p r v, In (p, r) new -> value_of C r = Some v -> nisfin v = true ->
            o_fval_min s <=? v = true)
      /\ (* and it is attained, with that gradient, at x_min up to the boundary nudge *)
         (exists p r, In (p, r) new /\ value_of C r = Some (o_fval_min s)
            /\ gradient_of C r = Some (o_grad_min s) /\ nisfin (o_fval_min s) = true
            /\ (deref s (o_xmin s) = p \/ deref s (o_xmin s) = nudge C p))
      /\ o_fval_min s <=? o_fval s = true.
  Proof.
    intros Hl. pose proof (loop_head_Inv E C _ _ _ _ _ _ _ Hl) as I.
    destruct (iv_log _ _ _ _ _ _ _ I) as (v0 & r0 & rest & L1 & _).
    pose proof (iv_min _ _ _ _ _ _ _ I) as Hm. pose proof (iv_best _ _ _ _ _ _ _ I) as Hb.
    pose proof (iv_cur _ _ _ _ _ _ _ I) as Hcu. pose proof (iv_fin _ _ _ _ _ _ _ I) as [Hf _].
    rewrite L1, skipn_app_exact in Hm, Hb, Hcu.
    exists ((nudge C x0, r0) :: rest). split; auto.
    assert (Hle : forall p r v, In (p, r) ((nudge C x0, r0) :: rest) -> value_of C r = Some v ->
              nisfin v = true -> o_fval_min s <=? v = true).
    { intros p r v Hin Hv Hfin. destruct Hb as (p' & r' & _ & _ & _ & Hfm & _).
      apply not_lt_le; try (now apply fin_nan). eauto. }
    split; auto. split; auto.
    destruct Hcu as (p & r & C1 & C2 & _). eauto.
  Qed.
  Theorem C09_best_point_returned fv x g h st' :
    run = (Ok (fv, x, g, h), st') ->
    exists new, o_evals st' = o_evals st ++ new
      /\ (forall p r v, In (p, r) new -> value_of C r = Some v -> nisfin v = true ->
            o_fval_min st' <=? v = true)
      /\ (exists p r, In (p, r) new /\ value_of C r = Some (o_fval_min st')
            /\ gradient_of C r = Some (o_grad_min st') /\ nisfin (o_fval_min st') = true
            /\ (deref st' (o_xmin st') = p \/ deref st' (o_xmin st') = nudge C p))
      /\ o_fval_min st' <=? fv = true.
  Proof.
    intros H. apply minimize_ok_inv in H as (f & s & s1 & Hl & Hc & Hw & -> & _).
    apply C09_best_point in Hl.
    apply check_continue_false in Hc as (fl & k & ->).
    apply write_history_inv in Hw as [(_ & _ & ->)|[(file & _ & _ & _ & ->)|(file & _ & _ & -> & _)]];
    exact Hl.
  Qed.

  (** ** C10  bounds, as checked in machine arithmetic *)
  Lemma in_bounds_box x : List.length x = List.length (c_lb C) -> List.length x = List.length (c_ub C) ->
    in_bounds C x = true -> in_box (c_lb C) (c_ub C) x.
  Proof.
    unfold in_bounds. intros H1 H2 H. apply andb_true_iff in H as [Hu Hl].
    split; auto. split; auto.
    revert H1 H2 Hu Hl. generalize (c_lb C) (c_ub C). induction x as [|a x IH]; intros [|l lb] [|u ub];
      simpl; try lia. intros H1 H2 Hu Hl i Hi.
    apply andb_true_iff in Hu as [Hu Hu']. apply andb_true_iff in Hl as [Hl Hl'].
    destruct i as [|i].
    - split; [|now apply negsub_nonpos_le].
      apply sub_nonpos_le.
      rewrite emb_leb, emb_mul, emb_1 in Hl. rewrite emb_leb.
      destruct (emb (l - a)) eqn:Ed; simpl in *.
      + assert (E2 : Fin (1 * r)%R = emb (l - a)) by (rewrite Ed; f_equal; ring).
        rewrite E2, rnd_emb, Ed in Hl. exact Hl.
      + unfold er_infmul in Hl. destruct (Rltb_spec 0 1); [|exfalso; Lra.lra].
        rewrite rnd_pinf in Hl. exact Hl.
      + rewrite emb_0. reflexivity.
      + rewrite rnd_nan in Hl. exact Hl.
    - apply IH; auto; lia.
  Qed.
  Lemma box_in_bounds x : in_box (c_lb C) (c_ub C) x -> vfinite x = true -> in_bounds C x = true.
  Proof.
    unfold in_bounds. intros (H1 & H2 & H) Hf. apply andb_true_iff.
    revert H1 H2 H Hf. generalize (c_lb C) (c_ub C). induction x as [|a x IH]; intros [|l lb] [|u ub];
      simpl; try lia; auto. intros H1 H2 H Hf. apply andb_true_iff in Hf as [Ha Hf].
    destruct (IH lb ub) as [I1 I2]; auto.
    { intros i Hi. apply (H (S i)). lia. }
    destruct (H 0%nat) as [B1 B2]; [lia|].
    split; apply andb_true_iff; split; auto.
    - apply le_negsub_nonpos; auto.
    - assert (Hs : l - a <=? n0 = true) by (apply le_sub_nonpos; auto).
      rewrite emb_leb, emb_0 in Hs. rewrite emb_leb, emb_mul, emb_1, emb_0.
      destruct (emb (l - a)) eqn:Ed; simpl in *.
      + assert (E2 : Fin (1 * r)%R = emb (l - a)) by (rewrite Ed; f_equal; ring).
        rewrite E2, rnd_emb, Ed. exact Hs.
      + discriminate.
      + unfold er_infmul. destruct (Rltb_spec 0 1); [|exfalso; Lra.lra].
        rewrite rnd_ninf. reflexivity.
      + discriminate.
  Qed.

  (** the check performed on iterates is exactly membership in the box *)
  Theorem C10_check_is_membership x :
    List.length x = List.length (c_lb C) -> List.length x = List.length (c_ub C) -> vfinite x = true ->
    (in_bounds C x = true <-> in_box (c_lb C) (c_ub C) x).
  Proof. split; [now apply in_bounds_box|intros; now apply box_in_bounds]. Qed.

  (** every current iterate was, before the boundary nudge, an evaluated point in the box *)
  Theorem C10_iterates_in_box f s :
    head f s ->
    exists p, in_box (c_lb C) (c_ub C) p
      /\ (deref s (o_x s) = p \/ deref s (o_x s) = nudge C p)
      /\ exists r, In (p, r) (o_evals s).
  Proof.
    intros Hl. pose proof (loop_head_Inv E C _ _ _ _ _ _ _ Hl) as I.
    destruct (iv_cur _ _ _ _ _ _ _ I) as (p & r & C1 & _ & _ & C4 & C5 & C6).
    destruct (iv_dims _ _ _ _ _ _ _ I) as [D1 D2].
    exists p. split; [apply in_bounds_box; auto; congruence|]. split; auto. exists r.
    destruct (iv_log _ _ _ _ _ _ _ I) as (v0 & r0 & rest & L1 & _).
    rewrite L1 in *. rewrite skipn_app_exact in C1. apply in_or_app. now right.
  Qed.
  Theorem C10_returned_in_box fv x g h st' :
    run = (Ok (fv, x, g, h), st') ->
    exists p, in_box (c_lb C) (c_ub C) p /\ (deref st' x = p \/ deref st' x = nudge C p).
  Proof.
    intros H. apply minimize_ok_inv in H as (f & s & s1 & Hl & Hc & Hw & _ & -> & _).
    apply C10_iterates_in_box in Hl as (p & H1 & H2 & _). exists p. split; auto.
    apply check_continue_false in Hc as (fl & k & ->).
    apply write_history_inv in Hw as [(_ & _ & ->)|[(file & _ & _ & _ & ->)|(file & _ & _ & -> & _)]];
    exact H2.
  Qed.

  (** ** C14/C15  one pass of the loop from any reachable loop head *)
  (** everything a pass does to the optimizer *)
  Theorem C15_pass f s s1 f' s' :
    head f s -> check_continue E C s = (Ok true, s1) -> iteration E C f s1 = (Ok f', s') ->
    exists sp r v g,
      proposes E C s sp
      /\ o_evals s' = o_evals s ++ [(trial_point s sp, r)]
      /\ r = e_obj E (List.length (o_evals s)) (trial_point s sp)
      /\ value_of C r = Some v /\ gradient_of C r = Some g
      /\ if accepts s sp v g
         then o_fval s' = v /\ o_grad s' = g /\ deref s' (o_x s') = nudge C (trial_point s sp)
              /\ in_box (c_lb C) (c_ub C) (trial_point s sp)
         else o_fval s' = o_fval s /\ o_grad s' = o_grad s /\ o_hess s' = o_hess s
              /\ o_happ s' = o_happ s /\ o_x s' = o_x s
              /\ deref s' (o_x s') = deref s (o_x s) /\ f' = f.
  Proof.
    intros Hl Hc Hi. pose proof (loop_head_Inv E C _ _ _ _ _ _ _ Hl) as I.
    apply check_continue_true in Hc as (-> & _).
    apply iteration_ok in Hi as (sp & fn & K).
    pose proof (ik_x _ _ _ _ _ _ _ _ K) as Kx. pose proof (ik_fval _ _ _ _ _ _ _ _ K) as Kf.
    pose proof (ik_heap _ _ _ _ _ _ _ _ K) as Kh. pose proof (ik_ev _ _ _ _ _ _ _ _ K) as Kev.
    pose proof (ik_grad _ _ _ _ _ _ _ _ K) as Kg. pose proof (ik_hess _ _ _ _ _ _ _ _ K) as Khe.
    pose proof (ik_bounds _ _ _ _ _ _ _ _ K) as Kb. pose proof (ik_f' _ _ _ _ _ _ _ _ K) as Kf'.
    pose proof (ik_evals _ _ _ _ _ _ _ _ K) as Ke.
    destruct (ev_pf _ _ _ _ _ Kev) as (pf & Hpf & Hty).
    destruct (value_typed C _ _ _ _ _ Hpf Hty) as [Hv Hg].
    pose proof (ev_tr _ _ _ _ _ Kev) as Htr.
    assert (Hlen : List.length (trial_point s sp) = List.length x0).
    { rewrite <- (iv_len _ _ _ _ _ _ _ I). apply (it_tr_length E C _ _ Htr). }
    apply proposes_it_tr in Htr.
    exists sp, (it_ret E (set_o_clk (S (o_clk s)) s) sp), (fo_fval fn), (fo_grad fn).
    split; [exact Htr|]. split; [exact Ke|]. split; [reflexivity|]. split; auto. split; auto.
    rewrite <- (it_acc_accepts s sp fn (S (o_clk s))).
    destruct it_acc.
    - split; auto. split; auto. split.
      + rewrite Kx. apply (deref_app_new _ _ _ Kh).
      + destruct (iv_dims _ _ _ _ _ _ _ I) as [D1 D2].
        apply in_bounds_box; [congruence|congruence|]. apply Kb. reflexivity.
    - destruct Khe as [Khe1 Khe2].
      split; auto. split; auto. split; auto. split; auto. split; auto. split; auto.
      rewrite Kx. apply (deref_app_old _ _ _ _ Kh). apply (iv_x _ _ _ _ _ _ _ I).
  Qed.

  (** ** C14  the radius update *)
  (** ratio as computed, and the documented rule *)
  Definition tr_ratio_of (s : opt T) (sp : step T) (v : T) (g : vec) : T :=
    if negb (nisfin v) then n0
    else if predicted_decrease sp <=? n0 then n0
    else actual_decrease sp (scaling_derivative C s) (o_fval s) v g / predicted_decrease sp.
  Definition radius_rule (delta : T) (ratio : T) (sp : step T) (v : T) : T :=
    if nisfin v && ((op_eta O <=? ratio) && negb (scaled_length sp <? delta * nfrac 9 10))
    then op_gamma2 O * delta
    else if negb (nisfin v) || (ratio <=? op_mu O)
    then nanmin2 (delta * op_gamma1 O) (scaled_length sp / nofZ 4)
    else delta.

  Theorem C14_radius_rule f s s1 f' s' :
    head f s -> check_continue E C s = (Ok true, s1) -> iteration E C f s1 = (Ok f', s') ->
    exists sp r v g,
      proposes E C s sp /\ o_evals s' = o_evals s ++ [(trial_point s sp, r)]
      /\ value_of C r = Some v /\ gradient_of C r = Some g
      /\ o_tr_ratio s' = tr_ratio_of s sp v g
      /\ o_delta s' = radius_rule (o_delta s) (tr_ratio_of s sp v g) sp v.
  Proof.
    intros Hl Hc Hi. apply check_continue_true in Hc as (-> & _).
    apply iteration_ok in Hi as (sp & fn & K).
    pose proof (ik_ev _ _ _ _ _ _ _ _ K) as Kev. pose proof (ik_evals _ _ _ _ _ _ _ _ K) as Ke.
    pose proof (ik_delta _ _ _ _ _ _ _ _ K) as Kd. pose proof (ik_ratio _ _ _ _ _ _ _ _ K) as Kr.
    destruct (ev_pf _ _ _ _ _ Kev) as (pf & Hpf & Hty).
    destruct (value_typed C _ _ _ _ _ Hpf Hty) as [Hv Hg].
    pose proof (ev_tr _ _ _ _ _ Kev) as Htr. apply proposes_it_tr in Htr.
    exists sp, (it_ret E (set_o_clk (S (o_clk s)) s) sp), (fo_fval fn), (fo_grad fn).
    split; [exact Htr|]. split; [exact Ke|]. split; auto. split; auto.
    assert (Hr : o_tr_ratio s' = tr_ratio_of s sp (fo_fval fn) (fo_grad fn)) by (rewrite Kr; reflexivity).
    split; auto. rewrite Kd.
    unfold tru_delta, tru_which. rewrite <- Kr, Hr. cbv zeta.
    unfold radius_rule, tru_shrunk, scaled_length.
    change (o_delta (it_s2 E (set_o_clk (S (o_clk s)) s) sp)) with (o_delta s).
    change (o_delta_iter (it_s2 E (set_o_clk (S (o_clk s)) s) sp)) with (o_delta s).
    destruct (nisfin (fo_fval fn)); simpl; auto.
    destruct (_ && negb _); auto. destruct (_ <=? op_mu O); auto. destruct (_ && _); auto.
  Qed.

  (** consequences for sensible parameters: a positive radius stays non-negative (or NaN), and is
      larger than before only after a very successful step that reached 0.9 of the radius *)
  Lemma nanmin2_cases (a b : T) : nanmin2 a b = a \/ nanmin2 a b = b.
  Proof. unfold nanmin2. destruct (nisnan a), (nisnan b), (b <? a); auto. Qed.
  Lemma norm_nn (v : vec) : nn (norm v).
  Proof.
    unfold norm. apply nn_emb. rewrite emb_sqrt, rnd_isnan.
    destruct (er_isnan (er_sqrt (emb (dot v v)))) eqn:En; auto. right. apply rnd_nonneg.
    destruct (emb (dot v v)); simpl in *; auto; try discriminate.
    destruct (Rltb r 0) eqn:Er; simpl in *; try discriminate.
    destruct (Rleb_spec 0 (sqrt r)); auto. exfalso. apply n. apply sqrt_pos.
  Qed.
  Lemma radius_rule_nn delta ratio sp v :
    nn delta -> nn (op_gamma1 O) -> nn (op_gamma2 O) -> nn (radius_rule delta ratio sp v).
  Proof.
    intros Hd H1 H2. unfold radius_rule. destruct (_ && _); [now apply nn_mul|].
    destruct (_ || _); auto.
    destruct (nanmin2_cases (delta * op_gamma1 O) (scaled_length sp / nofZ 4)) as [->| ->].
    - now apply nn_mul.
    - apply nn_div; [apply norm_nn|]. rewrite emb_ltb, emb_0, emb_ofZ by (simpl; lia). er_cases.
  Qed.
  Lemma mul_le_r (d c : T) : n0 <=? d = true -> n0 <=? c = true -> c <=? n1 = true ->
    nisnan (d * c) = false -> d * c <=? d = true.
  Proof.
    rewrite !emb_leb, emb_isnan, emb_mul, rnd_isnan, emb_0, emb_1. intros Hd H0 H1 Hn.
    rewrite <- (rnd_emb d) at 2. apply rnd_mono.
    destruct (emb d), (emb c); simpl in *; try discriminate; unfold er_infmul in *; er_cases; auto; try nra.
  Qed.
  Lemma radius_rule_grows delta ratio sp v :
    n0 <=? delta = true -> n0 <=? op_gamma1 O = true -> op_gamma1 O <=? n1 = true ->
    nisnan (delta * op_gamma1 O) = false ->
    delta <? radius_rule delta ratio sp v = true ->
    nisfin v = true /\ op_eta O <=? ratio = true /\ scaled_length sp <? delta * nfrac 9 10 = false.
  Proof.
    intros Hd H0 H1 Hn. unfold radius_rule.
    destruct (nisfin v && _) eqn:Eg.
    - intros _. apply andb_true_iff in Eg as [E1 E2]. apply andb_true_iff in E2 as [E2 E3].
      apply negb_true_iff in E3. auto.
    - intros H. exfalso. destruct (_ || _); [|rewrite lt_irrefl in H; discriminate].
      pose proof (mul_le_r _ _ Hd H0 H1 Hn) as Hle.
      assert (Hm : nanmin2 (delta * op_gamma1 O) (scaled_length sp / nofZ 4) <=? delta * op_gamma1 O = true).
      { unfold nanmin2. rewrite Hn. destruct (nisnan (scaled_length sp / nofZ 4)); [now apply le_refl|].
        destruct (scaled_length sp / nofZ 4 <? delta * op_gamma1 O) eqn:El; [now apply lt_le|now apply le_refl]. }
      rewrite (le_not_lt _ _ (le_trans _ _ _ Hm Hle)) in H. discriminate.
  Qed.

  Lemma prepare_delta f s : prepare E C ndim x0 sid h0 st = (Ok f, s) -> o_delta s = op_delta_init O.
  Proof.
    intros H. apply prepare_inv in H. inversion H as [| | | | | |pf hess h' f1 D1 D2 D3 D4 D5 D6 D7 Ef Es0].
    unfold pr_s4. destruct better; unfold pr_s3, pr_s2, pr_s1, pr_s0; destruct pr_id; reflexivity.
  Qed.
  (** the radius of every state a run passes through is non-negative (or NaN: see C19_nan_ratio_keeps_radius) *)
  Theorem C14_radius_stays_nonnegative f s :
    nn (op_delta_init O) -> nn (op_gamma1 O) -> nn (op_gamma2 O) ->
    head f s -> nn (o_delta s).
  Proof.
    intros Hd H1 H2 Hl. induction Hl as [f s Hp|f s s1 f' s' Hl IH Hc Hi].
    - apply prepare_delta in Hp. now rewrite Hp.
    - destruct (C14_radius_rule _ _ _ _ _ Hl Hc Hi) as (sp & r & v & g & _ & _ & _ & _ & _ & ->).
      now apply radius_rule_nn.
  Qed.
  (** if a pass of the loop enlarges the radius, its trial value was finite, the ratio was at least eta and the step
      had reached 0.9 of the radius *)
  Theorem C14_radius_grows_only_when f s s1 f' s' :
    head f s -> check_continue E C s = (Ok true, s1) -> iteration E C f s1 = (Ok f', s') ->
    n0 <=? o_delta s = true -> n0 <=? op_gamma1 O = true -> op_gamma1 O <=? n1 = true ->
    nisnan (o_delta s * op_gamma1 O) = false ->
    o_delta s <? o_delta s' = true ->
    exists sp r v g,
      proposes E C s sp /\ o_evals s' = o_evals s ++ [(trial_point s sp, r)]
      /\ value_of C r = Some v /\ gradient_of C r = Some g /\ nisfin v = true
      /\ o_tr_ratio s' = (if predicted_decrease sp <=? n0 then n0
                          else actual_decrease sp (scaling_derivative C s) (o_fval s) v g / predicted_decrease sp)
      /\ op_eta O <=? o_tr_ratio s' = true
      /\ scaled_length sp <? o_delta s * nfrac 9 10 = false
      /\ o_delta s' = op_gamma2 O * o_delta s.
  Proof.
    intros Hl Hc Hi Hd H1 H2 Hn Hg.
    destruct (C14_radius_rule _ _ _ _ _ Hl Hc Hi) as (sp & r & v & g & A1 & A2 & A3 & A4 & A5 & A6).
    exists sp, r, v, g. rewrite A6 in Hg.
    destruct (radius_rule_grows _ _ _ _ Hd H1 H2 Hn Hg) as (B1 & B2 & B3).
    do 5 (split; auto). split; [rewrite A5; unfold tr_ratio_of; now rewrite B1|].
    split; [now rewrite A5|]. split; auto.
    rewrite A6. unfold radius_rule. now rewrite B1, B2, B3.
  Qed.
  (** the two counters handed to the hybrid schemes: iterations since the radius was last changed, and number of
      iterations whose ratio lay strictly between mu and eta *)
  Theorem C14_counters f s s1 f' s' :
    head f s -> check_continue E C s = (Ok true, s1) -> iteration E C f s1 = (Ok f', s') ->
    exists sp r v g,
      proposes E C s sp /\ o_evals s' = o_evals s ++ [(trial_point s sp, r)]
      /\ value_of C r = Some v /\ gradient_of C r = Some g
      /\ let ratio := tr_ratio_of s sp v g in
         let grown := nisfin v && ((op_eta O <=? ratio) && negb (scaled_length sp <? o_delta s * nfrac 9 10)) in
         let shrunk := negb (nisfin v) || (ratio <=? op_mu O) in
         o_since s' = (if grown || shrunk then 0%Z else (o_since s + 1)%Z)
         /\ o_ninter s' = (if negb grown && negb shrunk && ((op_mu O <? ratio) && (ratio <? op_eta O))
                           then (o_ninter s + 1)%Z else o_ninter s)
         /\ o_iter s' = (o_iter s + 1)%Z.
  Proof.
    intros Hl Hc Hi. apply check_continue_true in Hc as (-> & _).
    apply iteration_ok in Hi as (sp & fn & K).
    pose proof (ik_ev _ _ _ _ _ _ _ _ K) as Kev. pose proof (ik_evals _ _ _ _ _ _ _ _ K) as Ke.
    pose proof (ik_since _ _ _ _ _ _ _ _ K) as Kd. pose proof (ik_ratio _ _ _ _ _ _ _ _ K) as Kr.
    pose proof (ik_ninter _ _ _ _ _ _ _ _ K) as Kn. pose proof (ik_iter _ _ _ _ _ _ _ _ K) as Kit.
    destruct (ev_pf _ _ _ _ _ Kev) as (pf & Hpf & Hty).
    destruct (value_typed C _ _ _ _ _ Hpf Hty) as [Hv Hg].
    pose proof (ev_tr _ _ _ _ _ Kev) as Htr. apply proposes_it_tr in Htr.
    exists sp, (it_ret E (set_o_clk (S (o_clk s)) s) sp), (fo_fval fn), (fo_grad fn).
    split; [exact Htr|]. split; [exact Ke|]. split; auto. split; auto.
    assert (Hr : o_tr_ratio s' = tr_ratio_of s sp (fo_fval fn) (fo_grad fn)) by (rewrite Kr; reflexivity).
    cbv zeta. split; [|split; [|exact Kit]].
    - rewrite Kd. unfold tru_since, tru_which. rewrite <- Kr, Hr. cbv zeta. unfold scaled_length.
      change (o_since (it_s2 E (set_o_clk (S (o_clk s)) s) sp)) with (o_since s).
      change (o_delta_iter (it_s2 E (set_o_clk (S (o_clk s)) s) sp)) with (o_delta s).
      destruct (nisfin (fo_fval fn)); simpl; auto.
      destruct (_ && negb _); auto. simpl. destruct (_ <=? op_mu O); auto. destruct (_ && _); auto.
    - rewrite Kn. unfold tru_ninter, tru_which. rewrite <- Kr, Hr. cbv zeta. unfold scaled_length.
      change (o_ninter (it_s2 E (set_o_clk (S (o_clk s)) s) sp)) with (o_ninter s).
      change (o_delta_iter (it_s2 E (set_o_clk (S (o_clk s)) s) sp)) with (o_delta s).
      destruct (nisfin (fo_fval fn)); simpl; auto.
      destruct (_ && negb _); auto. simpl. destruct (_ <=? op_mu O); auto. simpl. destruct (_ && _); auto.
  Qed.

  (** ** C16  the returned triple comes from one evaluation *)
  Theorem C16_returned_is_evaluated fv x g h st' :
    run = (Ok (fv, x, g, h), st') ->
    exists p r new, o_evals st' = o_evals st ++ new /\ In (p, r) new
      /\ value_of C r = Some fv /\ gradient_of C r = Some g
      /\ (deref st' x = p \/ deref st' x = nudge C p).
  Proof.
    intros H. apply minimize_ok_inv in H as (f & s & s1 & Hl & Hc & Hw & -> & -> & -> & _).
    pose proof (loop_head_Inv E C _ _ _ _ _ _ _ Hl) as I.
    destruct (iv_cur _ _ _ _ _ _ _ I) as (p & r & C1 & C2 & C3 & _ & _ & C6).
    destruct (iv_log _ _ _ _ _ _ _ I) as (v0 & r0 & rest & L1 & _).
    rewrite L1, skipn_app_exact in C1.
    apply check_continue_false in Hc as (fl & k & ->).
    exists p, r, ((nudge C x0, r0) :: rest).
    apply write_history_inv in Hw as [(_ & _ & ->)|[(file & _ & _ & _ & ->)|(file & _ & _ & -> & _)]];
    auto.
  Qed.

  (** ** C18  non-finite values *)
  Theorem C18_returned_finite fv x g h st' :
    run = (Ok (fv, x, g, h), st') -> nisfin fv = true /\ vfinite g = true.
  Proof.
    intros H. apply minimize_ok_inv in H as (f & s & s1 & Hl & Hc & Hw & -> & _ & -> & _).
    pose proof (loop_head_Inv E C _ _ _ _ _ _ _ Hl) as I. pose proof (iv_fin _ _ _ _ _ _ _ I) as Hf.
    apply check_continue_false in Hc as (fl & k & ->).
    apply write_history_inv in Hw as [(_ & _ & ->)|[(file & _ & _ & _ & ->)|(file & _ & _ & -> & _)]];
    exact Hf.
  Qed.
  (** a pass whose trial value is not finite: nothing but the radius (and counters) changes, and the radius shrinks *)
  Theorem C18_nonfinite_trial_rejected f s s1 f' s' p r v :
    head f s -> check_continue E C s = (Ok true, s1) -> iteration E C f s1 = (Ok f', s') ->
    o_evals s' = o_evals s ++ [(p, r)] -> value_of C r = Some v -> nisfin v = false ->
    f' = f /\ o_x s' = o_x s /\ deref s' (o_x s') = deref s (o_x s) /\ o_fval s' = o_fval s
    /\ o_grad s' = o_grad s /\ o_hess s' = o_hess s /\ o_happ s' = o_happ s
    /\ exists sp, proposes E C s sp /\ p = trial_point s sp
         /\ o_delta s' = nanmin2 (o_delta s * op_gamma1 O) (scaled_length sp / nofZ 4).
  Proof.
    intros Hl Hc Hi He Hv Hn.
    destruct (C15_pass _ _ _ _ _ Hl Hc Hi) as (sp & r1 & v1 & g1 & A1 & A2 & A3 & A4 & A5 & A6).
    destruct (C14_radius_rule _ _ _ _ _ Hl Hc Hi) as (sp2 & r2 & v2 & g2 & B1 & B2 & B3 & B4 & B5 & B6).
    rewrite He in A2. apply app_inj_tail in A2 as [_ A2]. injection A2 as -> ->.
    rewrite He in B2. apply app_inj_tail in B2 as [_ B2]. injection B2 as Ep ->.
    rewrite Hv in A4. injection A4 as <-. rewrite Hv in B3. injection B3 as <-.
    unfold accepts in A6. rewrite Hn in A6. cbn [andb] in A6.
    destruct A6 as (C1 & C2 & C3 & C4 & C5 & C6 & C7).
    do 7 (split; auto). exists sp2. split; auto. split; auto.
    rewrite B6. unfold radius_rule. now rewrite Hn.
  Qed.
  (** a first evaluation that is not finite raises *)
  Theorem C18_nonfinite_start_raises fv x g h st' p r rest pf :
    o_evals st' = o_evals st ++ (p, r) :: rest ->
    fun_evaluate (c_nargout C) (c_resfun C) r = Ok pf ->
    ((exists v, value_of C r = Some v /\ nisfin v = false)
     \/ (exists gr, gradient_of C r = Some gr /\ vfinite gr = false)
     \/ (exists nc hs, pf_hess pf = PMat nc hs /\ mfinite hs = false)) ->
    run <> (Ok (fv, x, g, h), st').
  Proof.
    intros He Hpf Hbad H. apply minimize_ok_inv in H as (f & s & s1 & Hl & Hc & Hw & _).
    assert (Es : o_evals st' = o_evals s).
    { apply check_continue_false in Hc as (fl & k & ->).
      apply write_history_inv in Hw as [(_ & _ & ->)|[(file & _ & _ & _ & ->)|(file & _ & _ & -> & _)]]; reflexivity. }
    assert (Hst : exists f0 s0 tl, prepare E C ndim x0 sid h0 st = (Ok f0, s0) /\ o_evals s = o_evals s0 ++ tl).
    { clear - Hl. induction Hl as [f s Hp|f s s1 f' s' Hl IH Hc Hi].
      - exists f, s, []. now rewrite app_nil_r.
      - destruct IH as (f0 & s0 & tl & Hp & Ht). apply check_continue_true in Hc as (-> & _).
        apply iteration_frame in Hi as [[(new & G1 & _) _ _] _].
        exists f0, s0, (tl ++ new). split; auto. rewrite G1, app_assoc, <- Ht. reflexivity. }
    destruct Hst as (f0 & s0 & tl & Hp & Ht).
    apply prepare_inv in Hp. inversion Hp as [| | | | | |pf0 hess h' f1 D1 D2 D3 D4 D5 D6 D7 Ef Es0]. subst f1. clear Hp.
    assert (Ee : o_evals s0 = o_evals st ++ [(nudge C x0, pr_ret E C x0 st)]).
    { rewrite <- Es0. unfold pr_s4. destruct better; reflexivity. }
    rewrite Es, Ht, Ee, <- app_assoc in He. apply app_inv_head in He. injection He as _ Er _.
    rewrite <- Er in *. rewrite D3 in Hpf. injection Hpf as ->.
    destruct (value_typed C _ _ _ _ _ D3 D6) as [Hv Hg].
    unfold all_finite in D7. apply andb_true_iff in D7 as [D7 D9]. apply andb_true_iff in D7 as [D7 D8].
    destruct Hbad as [(v & V1 & V2)|[(gr & V1 & V2)|(nc & hs & V1 & V2)]].
    - rewrite Hv in V1. injection V1 as <-. congruence.
    - rewrite Hg in V1. injection V1 as <-. congruence.
    - apply typed_fout_inv in D6 as (_ & _ & _ & _ & _ & _ & Dh). revert D9 Dh.
      destruct (fo_hess f0) as [hm|]; intros D9 Dh; [destruct Dh as (nc1 & Dh & _)|]; rewrite V1 in Dh; [|discriminate].
      injection Dh as _ ->. congruence.
  Qed.
  (** finite trial value with non-finite gradient or Hessian: RuntimeError and NOT_FINITE *)
  Theorem C18_nonfinite_derivative_raises f s s1 sp pf v g :
    head f s -> check_continue E C s = (Ok true, s1) ->
    all_finite (o_fval s) (o_grad s) (Some (o_hess s)) = true ->
    proposes E C s sp ->
    fun_evaluate (c_nargout C) (c_resfun C) (e_obj E (List.length (o_evals s)) (trial_point s sp)) = Ok pf ->
    typed_fout (List.length x0) pf 0 = Ok (mkFout v g
       (match pf_hess pf with PMat _ h => Some h | _ => None end) 0 (pf_res pf) (pf_sres pf)) ->
    nisfin v = true ->
    (vfinite g = false \/ exists nc h, pf_hess pf = PMat nc h /\ mfinite h = false) ->
    exists s', iteration E C f s1 = (Err ERuntime, s') /\ o_flag s' = NOT_FINITE.
  Proof.
    intros Hl Hc Hcur Hp Hpf Hty Hv Hbad.
    pose proof (loop_head_Inv E C _ _ _ _ _ _ _ Hl) as I.
    apply check_continue_true in Hc as (-> & _).
    destruct (iteration E C f (set_o_clk (S (o_clk s)) s)) as [r s'] eqn:Ei.
    apply iteration_inv in Ei.
    apply proposes_it_tr in Hp.
    assert (Hdet : forall sp', it_tr E C (set_o_clk (S (o_clk s)) s) = Ok sp' -> sp' = sp).
    { intros sp' H'. change (it_tr E C s = Ok sp') in H'. congruence. }
    assert (Hpf' : forall pf', fun_evaluate (c_nargout C) (c_resfun C) (it_ret E (set_o_clk (S (o_clk s)) s) sp) = Ok pf'
              -> pf' = pf).
    { intros pf' H'. change (fun_evaluate (c_nargout C) (c_resfun C)
        (e_obj E (List.length (o_evals s)) (trial_point s sp)) = Ok pf') in H'. congruence. }
    assert (Hty' : forall k fn, typed_fout (List.length (deref (set_o_clk (S (o_clk s)) s) (o_x s))) pf k = Ok fn ->
       fo_fval fn = v /\ fo_grad fn = g /\ fo_hess fn = (match pf_hess pf with PMat _ h => Some h | _ => None end)).
    { intros k fn. change (deref (set_o_clk (S (o_clk s)) s) (o_x s)) with (deref s (o_x s)).
      rewrite (iv_len _ _ _ _ _ _ _ I). revert Hty. unfold typed_fout.
      destruct (pf_fval pf); try discriminate. destruct (pf_grad pf); try discriminate.
      destruct (Nat.eqb _ _); try discriminate. destruct (pf_hess pf); try discriminate.
      - intros H1 H2. injection H1 as <- <-. injection H2 as <-. auto.
      - destruct rect; try discriminate. intros H1 H2. injection H1 as <- <-. injection H2 as <-. auto. }
    assert (Hnf : forall fn, fo_fval fn = v /\ fo_grad fn = g /\ fo_hess fn = (match pf_hess pf with PMat _ h => Some h | _ => None end) ->
       all_finite (fo_fval fn) (fo_grad fn) (fo_hess fn) = false).
    { intros fn (-> & -> & ->). unfold all_finite. rewrite Hv.
      destruct Hbad as [->|(nc & h & -> & ->)]; auto. now destruct (vfinite g). }
    inversion Ei as [Hcu Er Es|e' Ht|sp' e' Ht He|sp' pf' e' Ht He Hy|sp' pf' fn Ht He Hy A1 A2
            |sp' fn e' st0 Hev Ha Hu|sp' fn st0 Hev Hu Hh|sp' fn st0 st2 Hev Hu Hh]; subst.
    - exfalso. change (all_finite (o_fval s) (o_grad s) (Some (o_hess s)) = false) in Hcu. congruence.
    - change (it_tr E C s = Err e') in Ht. congruence.
    - apply Hdet in Ht. subst sp'. 
      change (fun_evaluate (c_nargout C) (c_resfun C)
        (e_obj E (List.length (o_evals s)) (trial_point s sp)) = Err e') in He. congruence.
    - apply Hdet in Ht. subst sp'. apply Hpf' in He. subst pf'. exfalso.
      change (o_x (set_o_clk (S (o_clk s)) s)) with (o_x s) in Hy.
      change (deref (set_o_clk (S (o_clk s)) s) (o_x s)) with (deref s (o_x s)) in Hy.
      rewrite (iv_len _ _ _ _ _ _ _ I) in Hy. revert Hy Hty. unfold typed_fout.
      destruct (pf_fval pf); try discriminate. destruct (pf_grad pf); try discriminate.
      destruct (Nat.eqb _ _); try discriminate. destruct (pf_hess pf); try discriminate.
      destruct rect; discriminate.
    - eexists. split; reflexivity.
    - exfalso. pose proof (ev_tr _ _ _ _ _ Hev) as Htr. apply Hdet in Htr. subst sp'.
      destruct (ev_pf _ _ _ _ _ Hev) as (pf' & He & Hy). apply Hpf' in He. subst pf'.
      apply Hty' in Hy. pose proof (Hnf _ Hy) as Hn. destruct Hy as (Hy & _).
      rewrite (ev_fin _ _ _ _ _ Hev) in Hn; congruence.
    - exfalso. pose proof (ev_tr _ _ _ _ _ Hev) as Htr. apply Hdet in Htr. subst sp'.
      destruct (ev_pf _ _ _ _ _ Hev) as (pf' & He & Hy). apply Hpf' in He. subst pf'.
      apply Hty' in Hy. pose proof (Hnf _ Hy) as Hn. destruct Hy as (Hy & _).
      rewrite (ev_fin _ _ _ _ _ Hev) in Hn; congruence.
    - exfalso. pose proof (ev_tr _ _ _ _ _ Hev) as Htr. apply Hdet in Htr. subst sp'.
      destruct (ev_pf _ _ _ _ _ Hev) as (pf' & He & Hy). apply Hpf' in He. subst pf'.
      apply Hty' in Hy. pose proof (Hnf _ Hy) as Hn. destruct Hy as (Hy & _).
      rewrite (ev_fin _ _ _ _ _ Hev) in Hn; congruence.
  Qed.
End RunProps.
