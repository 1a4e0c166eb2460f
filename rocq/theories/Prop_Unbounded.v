(** C55: without finite bounds the step-back strategy is irrelevant (every number system with the laws of ER.v, doubles included) *)
From Coq Require Import String ZArith List Bool Reals Lra Lia.
From Verif Require Import Num Constants Subproblem HessApprox Steps TrustRegion Minimize
  ER NumFacts MonadFacts MinFacts Spec Run RunInv Cand StepFacts F64 Witness.
Import ListNotations.
Local Open Scope num_scope.
Local Open Scope list_scope.

Section Irrelevant.
  Context {T : Type} {N : Num T} {LW : NumLaws T}.

  (** no coordinate has a finite bound *)
  Definition no_bounds (lb ub : list T) : Prop :=
    Forall (fun b => b <? n0 = true /\ nisfin b = false) lb /\ Forall (fun b => n0 <? b = true /\ nisfin b = false) ub.

  Lemma ninf_emb b : b <? n0 = true -> nisfin b = false -> emb b = NInf.
  Proof. rewrite emb_ltb, emb_isfin, emb_0. destruct (emb b); try reflexivity; discriminate. Qed.
  Lemma pinf_emb b : n0 <? b = true -> nisfin b = false -> emb b = PInf.
  Proof. rewrite emb_ltb, emb_isfin, emb_0. destruct (emb b); try reflexivity; discriminate. Qed.

  (** +inf or NaN *)
  Definition top (b : T) : Prop := emb b = PInf \/ emb b = NaN.

  Lemma div_inf a s : (emb a = PInf \/ emb a = NInf \/ emb a = NaN) -> n0 <? nabs s = true ->
    emb (a / s) = NaN \/ (emb s <> NaN /\
      ((exists r, emb s = Fin r /\ ((0 < r)%R /\ emb (a / s) = emb a \/ (r < 0)%R /\ emb (a / s) = er_opp (emb a))))).
  Proof.
    intros Ha Hs. rewrite emb_ltb, emb_0, emb_abs in Hs.
    assert (Hnz : emb s <> Fin 0) by (intros E; rewrite E in Hs; cbn in Hs; rewrite Rabs_R0 in Hs; destruct (Rltb_spec 0 0); [lra|discriminate]).
    rewrite (emb_div a s Hnz). destruct (emb s) as [r| | |]; try discriminate Hs.
    - destruct Ha as [->|[->| ->]]; cbn [er_div]; [| |left; apply rnd_nan]; right; (split; [discriminate|]); exists r; (split; [reflexivity|]).
      + cbn. destruct (Rltb_spec r 0); [right; split; [lra|apply rnd_ninf]|left; split; [|apply rnd_pinf]].
        destruct (Req_dec r 0); [subst; contradiction|lra].
      + cbn. destruct (Rltb_spec r 0); [right; split; [lra|apply rnd_pinf]|left; split; [|apply rnd_ninf]].
        destruct (Req_dec r 0); [subst; contradiction|lra].
    - left. destruct Ha as [->|[->| ->]]; cbn [er_div]; apply rnd_nan.
    - left. destruct Ha as [->|[->| ->]]; cbn [er_div]; apply rnd_nan.
  Qed.

  Lemma breakpoint_top x s l u : emb l = NInf -> emb u = PInf -> top (breakpoint x s l u).
  Proof.
    intros El Eu. unfold breakpoint, top. destruct (n0 <? nabs s) eqn:Es; [|left; apply emb_inf].
    assert (H1 : emb (u - x) = PInf \/ emb (u - x) = NaN).
    { rewrite emb_sub, Eu. destruct (emb x); cbn [er_sub er_opp er_add]; rewrite ?rnd_pinf, ?rnd_nan; auto. }
    assert (H2 : emb (l - x) = NInf \/ emb (l - x) = NaN).
    { rewrite emb_sub, El. destruct (emb x); cbn [er_sub er_opp er_add]; rewrite ?rnd_ninf, ?rnd_nan; auto. }
    destruct (div_inf (u - x) s) as [D1|(_ & r & R1 & D1)]; [tauto|exact Es| |].
    { unfold npmax2. assert (E : nisnan ((u - x) / s) = true) by (rewrite emb_isnan, D1; reflexivity). rewrite E. now right. }
    destruct (div_inf (l - x) s) as [D2|(_ & r' & R2 & D2)]; [tauto|exact Es| |].
    { unfold npmax2. assert (E : nisnan ((l - x) / s) = true) by (rewrite emb_isnan, D2; reflexivity). rewrite E. destruct (nisnan ((u - x) / s)) eqn:E2; [|now right].
      right. rewrite emb_isnan in E2. destruct (emb ((u - x) / s)); try discriminate; reflexivity. }
    rewrite R1 in R2. injection R2 as <-. unfold npmax2. rewrite !emb_isnan, emb_ltb.
    destruct D1 as [[P1 D1]|[P1 D1]], D2 as [[P2 D2]|[P2 D2]]; try lra; rewrite D1, D2;
      destruct H1 as [H1|H1], H2 as [H2|H2]; rewrite ?H1, ?H2; cbn [er_opp er_isnan er_ltb];
      rewrite ?D1, ?D2, ?H1, ?H2; cbn [er_opp]; auto.
  Qed.
  Lemma breakpoints_top : forall x s lb ub, no_bounds lb ub -> Forall top (breakpoints x s lb ub).
  Proof.
    induction x as [|a x IH]; intros s lb ub [Hl Hu]; [constructor|].
    destruct s as [|b s]; [constructor|]. destruct lb as [|l lb]; [constructor|]. destruct ub as [|u ub]; [constructor|].
    inversion Hl as [|? ? [L1 L2]]; inversion Hu as [|? ? [U1 U2]]; subst. cbn [breakpoints]. constructor.
    - apply breakpoint_top; [now apply ninf_emb|now apply pinf_emb].
    - apply IH. split; auto.
  Qed.
  Lemma npmin_top l : Forall top l -> top (npmin l).
  Proof.
    destruct l as [|a l]; [intros _; right; apply emb_nan|]. intros H. inversion H as [|? ? Ha Hl]; subst. cbn [npmin].
    clear H. revert a Ha. induction Hl as [|b l Hb _ IH]; intros a Ha; [exact Ha|]. cbn [fold_left]. apply IH.
    unfold npmin2. destruct (nisnan a); [exact Ha|]. destruct (nisnan b); [exact Hb|]. destruct (b <? a); auto.
  Qed.
  Lemma alpha_top theta m : n0 <? theta = true -> top m -> (npmin [n1; theta * m] <? n1) = false.
  Proof.
    intros Ht Hm. assert (Hp : top (theta * m)).
    { unfold top. rewrite emb_mul. rewrite emb_ltb, emb_0 in Ht. destruct Hm as [-> | ->].
      - destruct (emb theta) as [r| | |]; try discriminate Ht; cbn [er_mul]; [|rewrite rnd_pinf; now left].
        unfold er_infmul. cbn in Ht. rewrite Ht, rnd_pinf. now left.
      - destruct (emb theta) as [r| | |]; try discriminate Ht; cbn [er_mul]; rewrite rnd_nan; now right. }
    cbn [npmin fold_left]. unfold npmin2. rewrite emb_isnan, emb_1. cbn [er_isnan]. rewrite (emb_isnan (theta * m)), (emb_ltb (theta * m)), emb_1.
    destruct Hp as [Hp|Hp]; rewrite Hp; cbn [er_isnan er_ltb].
    - rewrite emb_ltb. rewrite emb_1. cbn. destruct (Rltb_spec 1 1); [lra|reflexivity].
    - rewrite emb_ltb, Hp. reflexivity.
  Qed.

  Lemma main_alpha (O : StepOracles T) A sd c : main_step O A sd = Ok c ->
    exists x s, st_alpha c = npmin [n1; a_theta A * npmin (breakpoints x s (a_lb A) (a_ub A))].
  Proof.
    intros H. apply main_step_cases in H as [(_ & r & H1 & H2)|[(_ & H)|(_ & H)]].
    - assert (R : exists sub pd nw, r = new_step "2d" A (a_x A) sub (zeros_of A) (zeros_of A) [] [] pd nw).
      { unfold tr_step_2d in H1. destruct (so_lstsq O _ _); [|discriminate]. destruct (so_eig O _) as [[[e_re e_abs] v]|]; [|discriminate]. cbv zeta in H1.
        destruct (a_sg A) as [|sg0 [|sg1 sgs]]; [| injection H1 as <-; eauto|];
          (destruct (_ && _) in H1; [injection H1 as <-; eauto|]; match type of H1 with (if ?b then _ else _) = _ => destruct b end; injection H1 as <-; eauto). }
      destruct R as (sub & pd & nw & ->). apply calculate_fields in H2 as (sc & ss & s & _ & _ & _ & [] & _).
      exists (a_x A), s. rewrite sb_alpha, sb_minbr, sb_br. reflexivity.
    - apply calculate_fields in H as (sc & ss & s & _ & _ & _ & [] & _).
      exists (a_x A), s. rewrite sb_alpha, sb_minbr, sb_br. reflexivity.
    - apply cg_fields in H as (sub & sc & ss & ss0 & s & _ & _ & [] & _).
      exists (a_x A), s. rewrite sb_alpha, sb_minbr, sb_br. reflexivity.
  Qed.

  (** the trust region step is never shortened, and does not depend on the strategy *)
  Theorem C55_step_not_shortened (O : StepOracles T) x g hess sc delta dv theta lb ub sd c :
    no_bounds lb ub -> n0 <? theta = true ->
    main_step O (tr_args x g hess sc delta dv theta lb ub) sd = Ok c -> st_alpha c <? n1 = false.
  Proof.
    intros Hb Ht Hm. apply main_alpha in Hm as (y & s & ->). cbn [tr_args a_theta a_lb a_ub].
    apply alpha_top; [exact Ht|]. apply npmin_top. now apply breakpoints_top.
  Qed.
  Theorem C55_same_step (O : StepOracles T) x g hess sc delta dv theta lb ub sd strat1 strat2 :
    no_bounds lb ub -> n0 <? theta = true ->
    trust_region O x g hess sc delta dv theta lb ub sd strat1 = trust_region O x g hess sc delta dv theta lb ub sd strat2.
  Proof.
    intros Hb Ht. unfold trust_region. cbv zeta. f_equal. unfold candidates.
    destruct (main_step O _ sd) as [c|e] eqn:Em; [|reflexivity]. cbn [rbind].
    rewrite (C55_step_not_shortened O x g hess sc delta dv theta lb ub sd c Hb Ht Em). reflexivity.
  Qed.

  (** the same options with another step-back strategy *)
  Definition with_strategy (strat : string) (C : cfg T) : cfg T :=
    let o := c_opts C in
    mkCfg (mkOpts (op_maxiter o) (op_maxtime o) (op_fatol o) (op_frtol o) (op_xtol o) (op_gatol o) (op_grtol o) (op_subspace_dim o) strat
             (op_theta_max o) (op_delta_init o) (op_mu o) (op_eta o) (op_gamma1 o) (op_gamma2 o) (op_history o))
          (c_lb C) (c_ub C) (c_nargout C) (c_resfun C).

  Lemma theta_positive tm (b : T) : n0 <? tm = true -> n0 <? pymax tm b = true.
  Proof. intros H. unfold pymax. destruct (tm <? b) eqn:E; [eapply lt_trans; eauto|exact H]. Qed.

  Lemma bind_ext {A B} (m : M T A) (k1 k2 : A -> M T B) : (forall a s, k1 a s = k2 a s) -> forall s, bind m k1 s = bind m k2 s.
  Proof. intros H s. unfold bind. destruct (m s) as [[a|e] s1]; auto. Qed.

  Lemma iteration_same (E : env T) C strat f s : no_bounds (c_lb C) (c_ub C) -> n0 <? op_theta_max (c_opts C) = true ->
    iteration E (with_strategy strat C) f s = iteration E C f s.
  Proof.
    intros Hb Ht. unfold iteration. apply bind_ext. intros _ s1. apply bind_ext. intros _ s2. apply bind_ext. intros st s3.
    cbv zeta. change (c_lb (with_strategy strat C)) with (c_lb C). change (c_ub (with_strategy strat C)) with (c_ub C).
    change (op_theta_max (c_opts (with_strategy strat C))) with (op_theta_max (c_opts C)).
    change (op_subspace_dim (c_opts (with_strategy strat C))) with (op_subspace_dim (c_opts C)).
    apply bind_ext. intros _ s4.
    rewrite (C55_same_step (e_la E) _ _ _ _ _ _ _ (c_lb C) (c_ub C) (op_subspace_dim (c_opts C)) (op_stepback (c_opts (with_strategy strat C))) (op_stepback (c_opts C)) Hb
               (theta_positive _ _ Ht)).
    reflexivity.
  Qed.
  Lemma loop_same (E : env T) C strat fuel : no_bounds (c_lb C) (c_ub C) -> n0 <? op_theta_max (c_opts C) = true ->
    forall f s, loop E (with_strategy strat C) fuel f s = loop E C fuel f s.
  Proof.
    intros Hb Ht. induction fuel as [|k IH]; intros f s; [reflexivity|]. cbn [loop].
    change (check_continue E (with_strategy strat C)) with (check_continue E C). apply bind_ext. intros [] s1; [|reflexivity].
    unfold bind at 1 2. rewrite (iteration_same E C strat f s1 Hb Ht). destruct (iteration E C f s1) as [[f'|e] s2]; auto.
  Qed.
  (** the whole run: result, exit flag, every evaluated point, history, ... are the same for every strategy *)
  Theorem C55_strategy_irrelevant (E : env T) C strat fuel ndim x0 sid h0 st :
    no_bounds (c_lb C) (c_ub C) -> n0 <? op_theta_max (c_opts C) = true ->
    minimize E (with_strategy strat C) fuel ndim x0 sid h0 st = minimize E C fuel ndim x0 sid h0 st.
  Proof.
    intros Hb Ht. unfold minimize. change (prepare E (with_strategy strat C)) with (prepare E C).
    apply bind_ext. intros f s. unfold bind at 1 3. rewrite (loop_same E C strat fuel Hb Ht f s). reflexivity.
  Qed.
End Irrelevant.

(** non-vacuity, in doubles: the optimizer the constructor builds without bounds, a run of it that returns after several evaluations, and
    the strategies "reflect" (default) and "refine" *)
Example C55_ex : let p := free 2 [] in
  no_bounds (c_lb (fst p)) (c_ub (fst p)) /\ n0 <? op_theta_max (c_opts (fst p)) = true
  /\ String.eqb (op_stepback (c_opts (fst p))) "reflect" = true
  /\ (exists fv x g h s, run_of sumsq p 20 [fz 3; fz 4] = (Ok (fv, x, g, h), s) /\ Nat.ltb 2 (List.length (o_evals s)) = true)
  /\ minimize (world sumsq) (with_strategy "refine" (fst p)) 20 1 [fz 3; fz 4] None H0None (snd p) = run_of sumsq p 20 [fz 3; fz 4].
Proof.
  cbv zeta.
  assert (H1 : no_bounds (c_lb (fst (free 2 []))) (c_ub (fst (free 2 [])))).
  { change (c_lb (fst (free 2 []))) with (repeat (- (ninf : F64)) 2). change (c_ub (fst (free 2 []))) with (repeat (ninf : F64) 2).
    split; repeat constructor; vm_compute; reflexivity. }
  assert (H2 : n0 <? op_theta_max (c_opts (fst (free 2 []))) = true) by (vm_compute; reflexivity).
  split; [exact H1|]. split; [exact H2|]. split; [vm_compute; reflexivity|]. split.
  - apply (ok_witness (fun _ _ _ _ s => Nat.ltb 2 (List.length (o_evals s)))). vm_compute. reflexivity.
  - unfold run_of. now apply C55_strategy_irrelevant.
Qed.
