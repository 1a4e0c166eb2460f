(** C07, the converse: no stopping criterion that is met goes unnoticed;
    C72: the stopping inequalities as the documentation of minimize writes them *)
From Coq Require Import ZArith List Bool String Reals Lra Lia.
From Verif Require Import Num ER NumFacts Constants Subproblem HessApprox Steps TrustRegion Minimize MonadFacts MinFacts Spec Run RunInv RunFrame Prop_Run.
Import ListNotations.
Local Open Scope num_scope.

Section Stops.
  Context {T : Type} {N : Num T} {L : NumLaws T}.
  Variables (E : env T) (C : cfg T) (ndim : nat) (x0 : list T) (sid : option string) (h0 : hess0_arg T) (st : opt T).
  Notation O := (c_opts C).

  (** the three convergence criteria of an iteration: [fk] the value before it, [v] and [g] value and gradient of the trial point,
      [len] the length of the step in scaled variables, [ratio] the ratio of actual and predicted reduction, [it] its number *)
  Definition ftol_met (fk v ratio : T) : bool :=
    (op_mu O <? ratio) && (nabs (v - fk) <? op_fatol O + op_frtol O * nabs fk).
  Definition xtol_met (len : T) (it : Z) : bool := (1 <? it)%Z && (len <? op_xtol O).
  Definition gtol_met (fk : T) (g : list T) : bool := (norm g <=? op_gatol O) || (norm g <=? op_grtol O * nabs fk).

  (** every iteration sets [converged] exactly when one of the criteria is met, and the flag names the first that is met *)
  Theorem C07_criteria f0 s0 s1 f s :
    check_continue E C s0 = (Ok true, s1) -> iteration E C f0 s1 = (Ok f, s) ->
    exists sp r v g,
      proposes E C s0 sp /\ o_evals s = o_evals s0 ++ [(trial_point s0 sp, r)]
      /\ value_of C r = Some v /\ gradient_of C r = Some g /\ o_iter s = (o_iter s0 + 1)%Z
      /\ let ft := ftol_met (o_fval s0) v (o_tr_ratio s) in
         let xt := xtol_met (scaled_length sp) (o_iter s) in
         let gt := gtol_met (o_fval s0) g in
         o_conv s = ft || xt || gt
         /\ (o_conv s = true -> o_flag s = if ft then FTOL else if xt then XF_XTOL else GTOL).
  Proof.
    intros Hc0 Hi. apply iteration_ok in Hi as (sp & fn & K).
    destruct K as [Kev Kfx Kf Kb Kh Kheap Kx Kfv Kgr Kxm Kfm Kgm Kd Kdi Kra _ _ Kit Kcv Kfl Kevs Kfi Ksid _ _ _ Khi].
    apply check_continue_true in Hc0 as (-> & _ & Hlt & _).
    destruct (ev_pf _ _ _ _ _ Kev) as (pf & Hpf & Hty).
    destruct (value_typed C _ _ _ _ _ Hpf Hty) as [Hv Hg].
    pose proof (ev_tr _ _ _ _ _ Kev) as Htr. apply proposes_it_tr in Htr.
    exists sp, (it_ret E (set_o_clk (S (o_clk s0)) s0) sp), (fo_fval fn), (fo_grad fn).
    split; [exact Htr|]. split; [exact Kevs|]. split; [exact Hv|]. split; [exact Hg|]. split; [exact Kit|].
    assert (Hr3 : o_tr_ratio (it_s3 E C (set_o_clk (S (o_clk s0)) s0) sp fn) = o_tr_ratio s) by (rewrite Kra; reflexivity).
    unfold conv_result in Kcv, Kfl. rewrite Hr3 in Kcv, Kfl.
    change (o_fval (it_s3 E C (set_o_clk (S (o_clk s0)) s0) sp fn)) with (o_fval s0) in Kcv, Kfl.
    change (o_iter (it_s3 E C (set_o_clk (S (o_clk s0)) s0) sp fn)) with (o_iter s0 + 1)%Z in Kcv, Kfl.
    cbv zeta. change (o_iter (set_o_clk (S (o_clk s0)) s0)) with (o_iter s0) in Kit. rewrite Kit.
    unfold ftol_met, xtol_met, gtol_met, scaled_length.
    destruct ((op_mu O <? o_tr_ratio s) && (nabs (fo_fval fn - o_fval s0) <? op_fatol O + op_frtol O * nabs (o_fval s0))).
    { cbn [orb]. split; [exact Kcv|]. intros _. exact Kfl. }
    destruct ((1 <? o_iter s0 + 1)%Z && (norm (vadd (st_ss sp) (st_ss0 sp)) <? op_xtol O)).
    { cbn [orb]. split; [exact Kcv|]. intros _. exact Kfl. }
    destruct (norm (fo_grad fn) <=? op_gatol O).
    { cbn [orb]. split; [exact Kcv|]. intros _. exact Kfl. }
    destruct (norm (fo_grad fn) <=? op_grtol O * nabs (o_fval s0)).
    { cbn [orb]. split; [exact Kcv|]. intros _. exact Kfl. }
    cbn [orb]. split; [exact Kcv|]. rewrite Kcv. discriminate.
  Qed.

  (** so a run that goes on after an iteration met none of the criteria in it, has budget left and a radius of at least the spacing of 1 *)
  Corollary C07_none_missed f0 s0 s1 f s s2 :
    check_continue E C s0 = (Ok true, s1) -> iteration E C f0 s1 = (Ok f, s) -> check_continue E C s = (Ok true, s2) ->
    (o_iter s < op_maxiter O)%Z /\ o_delta s <? spacing1 = false
    /\ exists sp r v g,
      proposes E C s0 sp /\ o_evals s = o_evals s0 ++ [(trial_point s0 sp, r)]
      /\ value_of C r = Some v /\ gradient_of C r = Some g
      /\ ((op_mu O <? o_tr_ratio s = true -> nabs (v - o_fval s0) <? op_fatol O + op_frtol O * nabs (o_fval s0) = false)
      /\ ((1 < o_iter s)%Z -> scaled_length sp <? op_xtol O = false)
      /\ norm g <=? op_gatol O = false /\ norm g <=? op_grtol O * nabs (o_fval s0) = false).
  Proof.
    intros Hc Hi Hc2. destruct (C07_criteria _ _ _ _ _ Hc Hi) as (sp & r & v & g & A1 & A2 & A3 & A4 & A5 & A6 & _).
    apply check_continue_true in Hc2 as (_ & Hv & Hm & Hd). split; [exact Hm|]. split; [exact Hd|].
    exists sp, r, v, g. split; [exact A1|]. split; [exact A2|]. split; [exact A3|]. split; [exact A4|].
    rewrite Hv in A6. symmetry in A6. apply orb_false_iff in A6 as [A6 G]. apply orb_false_iff in A6 as [F X].
    unfold ftol_met in F. unfold xtol_met in X. unfold gtol_met in G. apply orb_false_iff in G as [G1 G2].
    split; [|split; [|split; assumption]].
    - intros Hr. rewrite Hr in F. exact F.
    - intros Hr. apply Z.ltb_lt in Hr. rewrite Hr in X. exact X.
  Qed.
End Stops.

(** ** C72  what the documentation of minimize says *)
Section Documented.
  Context {T : Type} {N : Num T}.
  Variable O : opts T.
  (** "Convergence with respect to function value is achieved when |f_{k+1} - f_k| < options[fatol] - f_k options[frtol]" *)
  Definition documented_f (fk fk1 : T) : bool := nabs (fk1 - fk) <? op_fatol O - fk * op_frtol O.
  (** "... when ||x_{k+1} - x_k|| < options[xtol] x_k" *)
  Definition documented_x (xk xk1 : list T) : bool := norm (vsub xk1 xk) <? op_xtol O * norm xk.
  (** "... when ||g_k|| < options[gatol] or ||g_k|| < options[grtol] * f_k" *)
  Definition documented_g (fk : T) (gk : list T) : bool := (norm gk <? op_gatol O) || (norm gk <? op_grtol O * fk).
End Documented.

Section DocumentedReal.
  Variables (E : env ER) (C : cfg ER) (ndim : nat) (x0 : list ER) (sid : option string) (h0 : hess0_arg ER) (st : opt ER).
  Notation O := (c_opts C).
  Variables (fa fr gr : R).
  Hypotheses (Hfa : op_fatol O = Fin fa) (Hfr : op_frtol O = Fin fr) (Hgr : op_grtol O = Fin gr).
  Hypotheses (Pfr : (0 <= fr)%R) (Pgr : (0 <= gr)%R).

  (** an iteration in which the documented criterion on values (for steps good enough to be taken without shrinking the radius) or the
      documented criterion on gradients holds is the last one *)
  Theorem C72_documented_stops f0 s0 s1 f s a :
    check_continue E C s0 = (Ok true, s1) -> iteration E C f0 s1 = (Ok f, s) -> o_fval s0 = Fin a ->
    exists sp r v g,
      proposes E C s0 sp /\ o_evals s = o_evals s0 ++ [(trial_point s0 sp, r)]
      /\ value_of C r = Some v /\ gradient_of C r = Some g
      /\ (documented_f O (o_fval s0) v = true -> op_mu O <? o_tr_ratio s = true ->
            o_conv s = true /\ o_flag s = FTOL /\ fst (check_continue E C s) = Ok false)
      /\ (documented_g O (o_fval s0) g = true ->
            o_conv s = true /\ (0 < exit_flag_code (o_flag s))%Z /\ fst (check_continue E C s) = Ok false).
  Proof using Hfa Hfr Hgr Pfr Pgr.
    intros Hc Hi Ea. destruct (C07_criteria E C _ _ _ _ _ Hc Hi) as (sp & r & v & g & A1 & A2 & A3 & A4 & A5 & A6 & A7).
    exists sp, r, v, g. split; [exact A1|]. split; [exact A2|]. split; [exact A3|]. split; [exact A4|].
    assert (Hstop : o_conv s = true -> fst (check_continue E C s) = Ok false).
    { intros H. rewrite check_continue_run, H. reflexivity. }
    split.
    - intros Hd Hr.
      assert (Hm : ftol_met C (o_fval s0) v (o_tr_ratio s) = true).
      { unfold ftol_met. rewrite Hr. cbn [andb]. unfold documented_f in Hd. rewrite Ea, Hfa, Hfr in *.
        cbn in Hd |- *. destruct (er_abs (er_sub v (Fin a))) as [q| | |]; cbn in Hd |- *; try discriminate; try reflexivity.
        revert Hd; destruct (Rltb_spec q (fa + - (a * fr))); [intros _|discriminate]. destruct (Rltb_spec q (fa + fr * Rabs a)); [reflexivity|].
        exfalso. pose proof (Rmult_le_compat_l fr (- a) (Rabs a) Pfr ltac:(rewrite <- Rabs_Ropp; apply Rle_abs)). lra. }
      rewrite Hm in A6, A7. cbn [orb] in A6. split; [exact A6|]. split; [exact (A7 A6)|exact (Hstop A6)].
    - intros Hd.
      assert (Hm : gtol_met C (o_fval s0) g = true).
      { unfold gtol_met. unfold documented_g in Hd. apply orb_true_iff in Hd as [Hd|Hd]; apply orb_true_iff; [left|right].
        - generalize dependent (norm g). intros q Hd. destruct q as [r0| | |], (op_gatol O) as [r1| | |]; cbn in Hd |- *; try discriminate; try reflexivity.
          revert Hd; destruct (Rltb_spec r0 r1); [intros _|discriminate]. destruct (Rleb_spec r0 r1); [reflexivity|lra].
        - rewrite Ea, Hgr in *. generalize dependent (norm g). intros q Hd. destruct q as [q| | |]; cbn in Hd |- *; try discriminate; try reflexivity.
          revert Hd; destruct (Rltb_spec q (gr * a)); [intros _|discriminate]. destruct (Rleb_spec q (gr * Rabs a)); [reflexivity|].
          exfalso. pose proof (Rmult_le_compat_l gr a (Rabs a) Pgr (Rle_abs a)). lra. }
      rewrite Hm in A6. rewrite orb_true_r in A6. split; [exact A6|]. split; [|exact (Hstop A6)].
      rewrite (A7 A6). destruct (ftol_met _ _ _ _); [reflexivity|]. destruct (xtol_met _ _ _); reflexivity.
  Qed.

  (** conversely, FTOL is reported under the documented inequality if the value before the last iteration was not positive, and GTOL
      under the documented (non-strict) inequality if it was not negative *)
  Theorem C72_reported fuel fv x g h st' :
    minimize E C fuel ndim x0 sid h0 st = (Ok (fv, x, g, h), st') ->
    (o_flag st' = FTOL \/ o_flag st' = GTOL) ->
    exists f s sp r v gt evals,
      loop_head E C ndim x0 sid h0 st f s /\ proposes E C s sp /\ o_evals st' = evals ++ [(trial_point s sp, r)]
      /\ value_of C r = Some v /\ gradient_of C r = Some gt
      /\ forall a, o_fval s = Fin a ->
           (o_flag st' = FTOL -> (a <= 0)%R -> documented_f O (o_fval s) v = true)
           /\ (o_flag st' = GTOL -> (0 <= a)%R -> norm gt <=? op_gatol O = true \/ norm gt <=? op_grtol O * o_fval s = true).
  Proof using Hfa Hfr.
    intros H Hf. apply C07_exit_flag in H. destruct Hf as [Hf|Hf]; rewrite Hf in H; cbn [stop_reason] in H;
      destruct H as (_ & f & s & sp & p & r & v & gt & evals & B1 & B2 & -> & B4 & B5 & B6 & _ & B8);
      exists f, s, sp, r, v, gt, evals; (split; [exact B1|]); (split; [exact B2|]); (split; [exact B4|]); (split; [exact B5|]); (split; [exact B6|]);
      intros a Ea; (split; [intros K Ha|intros K Ha]); try congruence.
    - destruct B8 as [B8 _]. unfold documented_f. rewrite Ea, Hfa, Hfr in *. cbn in B8 |- *.
      destruct (er_abs (er_sub v (Fin a))) as [q| | |]; cbn in B8 |- *; try discriminate; try reflexivity.
      rewrite Rabs_left1 in B8 by exact Ha. replace (fa + - (a * fr))%R with (fa + fr * - a)%R by ring. exact B8.
    - rewrite Ea in *. cbn [nabs ERNum er_abs] in B8. rewrite Rabs_pos_eq in B8 by exact Ha. exact B8.
  Qed.
End DocumentedReal.
