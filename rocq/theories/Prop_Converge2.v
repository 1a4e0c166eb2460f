(** C56, total correctness: minimize returns, and what it returns with (exact arithmetic, no bounds, all three subspace solvers) *)
From Coq Require Import String ZArith List Bool Reals Lra Lia Psatz.
From Verif Require Import Num Constants Subproblem HessApprox Steps TrustRegion Minimize
  ER NumFacts MonadFacts MinFacts Spec Run RunInv RunFrame RVec SubNd RShess Argmin Cand StepFacts Prop_Sub1d Prop_Pred Prop_Box
  Prop_Cand TRErr RealStep Prop_Grad Region Prop_CG Prop_Run Prop_Run2 Prop_Nudge Prop_BoxRun Prop_BoxRun2 HessDim Ortho Prop_SubNd Unbounded UnboundedFull Prop_TwoD Unbounded2D Converge Prop_Converge.
Import ListNotations.
Local Open Scope R_scope.
Local Open Scope list_scope.

(** a pass that does not report convergence leaves a gradient above gatol, or the gradient it found *)
Lemma unconverged_gradient {T} {N : Num T} (E : env T) (C : cfg T) f s f' s' :
  iteration E C f s = (Ok f', s') -> o_conv s' = false ->
  o_grad s' = o_grad s \/ (norm (o_grad s') <=? op_gatol (c_opts C))%num = false.
Proof.
  intros Hi Hc. apply iteration_ok in Hi as (sp & fn & K). rewrite (ik_conv _ _ _ _ _ _ _ _ K) in Hc. rewrite (ik_grad _ _ _ _ _ _ _ _ K).
  destruct (it_acc E C s sp fn); [right|now left]. unfold conv_result in Hc.
  destruct (_ && _) in Hc; [discriminate|]. destruct (_ && _) in Hc; [discriminate|].
  destruct (_ <=? _)%num in Hc |- *; [discriminate|reflexivity].
Qed.

Lemma update_never_fails {T} {N : Num T} (C : cfg T) sp (fnew fold : fout T) st m e st' :
  o_happ st = None -> fo_hess fnew = Some m -> in_bounds C (deref st (fo_x fnew)) = true -> update C sp fnew fold st <> (Err e, st').
Proof.
  intros H1 H2 H3 Hu. rewrite update_run in Hu. unfold new_hess in Hu. rewrite H1, H2 in Hu. cbv zeta in Hu. rewrite H3 in Hu.
  apply pair_equal_spec in Hu as [Hu _]. discriminate Hu.
Qed.

Section Total.
  Variables (E : env ER) (C : cfg ER) (n : nat).
  Variables (F : rvec -> R) (G : rvec -> rvec) (L M mu eta g1 g2 D0 tm : R).
  Local Notation O := (c_opts C).
  Hypothesis CS : convergence_setting E C n F G L M mu eta g1 g2 D0 tm.
  Variables (ndim : nat) (x0 : rvec) (sid : option string) (h0 : hess0_arg ER) (st : opt ER).
  Variable eps : R.
  Hypothesis He : 0 < eps.
  Hypothesis Hco : coarse C M eps.
  Hypothesis Lx0 : length x0 = n.
  Hypothesis Hga : op_gatol O = Fin eps.
  Hypothesis Hg0 : eps <= rnorm (G x0).
  Local Notation head := (loop_head E C ndim (fv x0) sid h0 st).
  Local Notation steep := (steep_run E C ndim x0 sid h0 st eps).
  Local Notation at_point := (at_point n F G).
  Local Notation LR := (least_radius C L M mu g1 D0 eps).
  Lemma c_free : (1 <= n)%nat /\ c_lb C = no_lb n /\ c_ub C = no_ub n.
  Proof using CS. split; [|split]; apply CS. Qed.

  (** every head of the loop is reached through steep points only: a smaller gradient stops the run at once *)
  Lemma all_steep f s : head f s -> steep f s /\ (o_conv s = false -> nleb (Fin eps) (norm (o_grad s)) = true).
  Proof using CS He Lx0 Hga Hg0 Hco.
    induction 1 as [f s Hp|f s s1 f' s' Hl [IH1 IH2] Hc Hi].
    - split; [now apply sr_start|]. intros _.
      destruct (start_point E C n F G L M mu eta g1 g2 D0 tm CS ndim x0 sid h0 st f s Lx0 Hp) as ([_ _ _ Eg] & _).
      rewrite Eg, h_norm. cbn. destruct (Rleb_spec eps (rnorm (G x0))); [reflexivity|lra].
    - pose proof (check_continue_true _ _ _ _ Hc) as (Es1 & Hcv & _). specialize (IH2 Hcv).
      split; [eapply sr_next; eauto|]. intros Hcv'.
      destruct (unconverged_gradient E C f s1 f' s' Hi Hcv') as [Eg|Eg].
      + rewrite Eg, Es1. exact IH2.
      + assert (Hl' : head f' s') by (eapply lh_next; eauto).
        pose proof (iv_fin _ _ _ _ _ _ _ (loop_head_Inv E C _ _ _ _ _ _ _ Hl')) as [_ Ig].
        apply vfinite_inv in Ig as (g & Ig). rewrite Ig, h_norm, Hga in Eg. rewrite Ig, h_norm. cbn in Eg |- *.
        destruct (Rleb_spec (rnorm g) eps); [discriminate|]. destruct (Rleb_spec eps (rnorm g)); [reflexivity|lra].
  Qed.

  (** the loop makes fewer passes than the bound, whatever maxiter is *)
  Theorem C56_iterations_bounded Fl p q f s :
    bounded_hessians E C n M ndim x0 sid h0 st eps -> (forall x, length x = n -> Fl <= F x) ->
    g2 * g1 ^ p <= 1 -> D0 * g1 ^ q < LR ->
    head f s -> IZR (o_iter s) < most_passes C F L M mu g1 D0 x0 eps Fl p q.
  Proof using CS He Lx0 Hga Hg0 Hco.
    intros HH HF Hp Hq Hl. destruct (all_steep f s Hl) as [Hs _].
    eapply (C56_steep_passes_bounded E C n F G L M mu eta g1 g2 D0 tm CS); eauto.
  Qed.

  (** *** the objective returns value, gradient and Hessian *)
  Variable H : rvec -> rmat.
  Record second_order : Prop := mkSecond {
    se_obj : forall k x, length x = n ->
      e_obj E k (fv x) = RTuple [PScal (Fin (F x)); PVec (fv (G x)); PMat n (fm (H x))];
    se_args : c_nargout C = 3%nat /\ c_resfun C = false;
    se_hess : forall x, length x = n -> is_mat n n (H x) /\ symmetric (H x) /\ curvature_le n M (H x) /\ usable E C n (H x);
    se_happ : o_happ st = None;
    se_nohist : op_history O = None;
    se_dim : (ndim <= 1)%nat
  }.
  Hypothesis SO : second_order.

  Lemma se_eval k x : length x = n ->
    fun_evaluate (c_nargout C) (c_resfun C) (e_obj E k (fv x)) = Ok (mkPyfun (PScal (Fin (F x))) (PVec (fv (G x))) (PMat n (fm (H x))) [] []).
  Proof using SO. intros Lx. destruct SO as [H1 [H2 H3] _ _ _ _]. rewrite H1, H2, H3 by auto. reflexivity. Qed.
  Lemma se_typed x h : length x = n ->
    typed_fout n (mkPyfun (PScal (Fin (F x))) (PVec (fv (G x))) (PMat n (fm (H x))) [] []) h
    = Ok (mkFout (Fin (F x)) (fv (G x)) (Some (fm (H x))) h [] []).
  Proof using SO CS.
    intros Lx. pose proof (G_len E C n F G L M mu eta g1 g2 D0 tm CS x Lx) as LG.
    destruct (se_hess SO x Lx) as ([M1 M2] & _). unfold typed_fout. cbn [pf_fval pf_grad pf_hess pf_res pf_sres].
    rewrite fv_length, LG, Nat.eqb_refl. assert (R : rect n n (fm (H x)) = true); [|now rewrite R].
    unfold rect. rewrite fm_length, M1, Nat.eqb_refl. cbn [andb]. apply forallb_forall. intros r Hr. unfold fm in Hr. apply in_map_iff in Hr as (r' & <- & Hr).
    rewrite fv_length. apply Nat.eqb_eq. rewrite Forall_forall in M2. now apply M2.
  Qed.
  Lemma mfinite_fm m : mfinite (fm m) = true.
  Proof using. unfold mfinite, fm. apply forallb_forall. intros r Hr. apply in_map_iff in Hr as (r' & <- & _). apply vfinite_fv. Qed.
  Lemma se_allfin x : all_finite (Fin (F x)) (fv (G x)) (Some (fm (H x))) = true.
  Proof using. unfold all_finite. rewrite vfinite_fv, mfinite_fm. reflexivity. Qed.

  (** *** the starting point *)
  Lemma start_ok : exists f s, prepare E C ndim (fv x0) sid h0 st = (Ok f, s).
  Proof using CS SO Lx0.
    destruct (prepare E C ndim (fv x0) sid h0 st) as [r s] eqn:Ep. apply prepare_inv in Ep as K.
    assert (Hd : pr_dims C ndim (fv x0) = true).
    { destruct c_free as (Hn & Elb & Eub). pose proof (se_dim SO). unfold pr_dims. rewrite Elb, Eub, fv_length. unfold no_lb, no_ub. rewrite !repeat_length, Lx0, Nat.eqb_refl.
      assert (Nat.ltb 1 ndim = false) as -> by (apply Nat.ltb_ge; lia). assert (Nat.eqb n 0 = false) as -> by (apply Nat.eqb_neq; lia). reflexivity. }
    assert (Hx : nudge C (fv x0) = fv x0) by (destruct c_free as (? & ? & ?); now apply (nudge_free C n)).
    assert (Hb : in_bounds C (fv x0) = true) by (destruct c_free as (? & ? & ?); now apply (in_bounds_free C n)).
    pose proof (se_eval (length (o_evals st)) x0 Lx0) as Ev. pose proof (se_typed x0 (length (o_heap st)) Lx0) as Ty.
    pose proof (G_len E C n F G L M mu eta g1 g2 D0 tm CS x0 Lx0) as LG.
    assert (Eh : pr_hess (o_happ st) (length (fv x0)) h0 (mkPyfun (PScal (Fin (F x0))) (PVec (fv (G x0))) (PMat n (fm (H x0))) [] [])
                 = Ok (fm (H x0), None)) by (unfold pr_hess; now rewrite (se_happ SO)).
    unfold pr_ret in *.
    inversion K as [A1|A1 A2|e A1 A2 A3|pf e A1 A2 A3 A4|pf hess h' e A1 A2 A3 A4 A5|pf hess h' f A1 A2 A3 A4 A5 A6 A7|pf hess h' f A1 A2 A3 A4 A5 A6 A7]; subst; eauto; exfalso;
      try (rewrite Hx in A2; congruence); try congruence; unfold pr_ret in A3; rewrite Hx, Ev in A3; try discriminate; injection A3 as <-.
    - rewrite Eh in A4. discriminate.
    - rewrite fv_length, Lx0, Ty in A5. destruct A5 as [A5|A5]; [|discriminate].
      destruct (se_hess SO x0 Lx0) as ([M1 M2] & _).
      unfold checkdims in A5. cbn [pf_fval pf_grad pf_hess] in A5. rewrite fv_length, fm_length, LG, M1, Nat.eqb_refl in A5. discriminate.
    - rewrite fv_length, Lx0, Ty in A6. injection A6 as <-. cbn [fo_fval fo_grad fo_hess] in A7. rewrite se_allfin in A7. discriminate.
  Qed.

  Lemma start_hess f s : prepare E C ndim (fv x0) sid h0 st = (Ok f, s) -> o_hess s = fm (H x0) /\ o_happ s = None.
  Proof using CS SO Lx0.
    intros Hp. apply prepare_inv in Hp. inversion Hp as [| | | | | |pf hess h' f1 D1 D2 D3 D4 D5 D6 D7 Ef Es0]. subst f1.
    assert (Hx : nudge C (fv x0) = fv x0) by (destruct c_free as (? & ? & ?); now apply (nudge_free C n)).
    unfold pr_ret in D3. rewrite Hx, (se_eval _ x0 Lx0) in D3. injection D3 as <-.
    unfold pr_hess in D4. rewrite (se_happ SO) in D4. cbn [pf_hess] in D4. injection D4 as <- <-.
    unfold pr_s4. destruct better; split; reflexivity.
  Qed.

  (** state of the optimizer at every head *)
  Record at_head (s : opt ER) (x : rvec) (delta : R) : Prop := mkHead {
    ah_point : at_point s x; ah_hess : o_hess s = fm (H x); ah_happ : o_happ s = None;
    ah_delta : o_delta s = Fin delta; ah_radius : LR <= delta
  }.
  Lemma steep_at f s : steep f s -> exists x delta, at_head s x delta.
  Proof using CS SO Lx0 He Hco.
    induction 1 as [f s Hp|f s s1 f' s' HR IH Hst Hc Hi].
    - destruct (start_point E C n F G L M mu eta g1 g2 D0 tm CS ndim x0 sid h0 st f s Lx0 Hp) as (H1 & H2 & H3).
      destruct (start_hess f s Hp). exists x0, D0. constructor; auto.
      apply (least_radius_le E C n F G L M mu eta g1 g2 D0 tm CS eps He).
    - destruct IH as (x & delta & [Ha EB Ehp Ed Hl]).
      pose proof (least_radius_pos E C n F G L M mu eta g1 g2 D0 tm CS eps He) as K0.
      destruct (se_hess SO x (ap_len _ _ _ _ _ Ha)) as (MB & SB & HB & HU).
      rewrite (ap_g _ _ _ _ _ Ha), h_norm in Hst. cbn [nleb ERNum er_leb] in Hst.
      assert (Hg : eps <= rnorm (G x)) by (destruct (Rleb_spec eps (rnorm (G x))); [lra|discriminate]).
      assert (Hnz : nonzero (G x)) by (apply nonzero_dot; rewrite <- rnorm_sq; nra).
      pose proof (steep_head _ _ _ _ _ _ _ _ _ _ HR) as HL.
      destruct (pass E C n F G L M mu eta g1 g2 D0 tm CS ndim x0 sid h0 st f s s1 f' s' x (H x) delta HL Hc Hi Ha MB SB EB Ed ltac:(lra) Hnz HB HU (coarse_le _ _ _ _ Hco Hg))
        as (w & Lw & Nw & Pw & Dw & Aw & Iw & sp & P1 & P2 & P3 & P4).
      assert (Ln : LR <= new_delta F G mu eta g1 g2 x w (H x) delta).
      { destruct (steep_pass E C n F G L M mu eta g1 g2 D0 tm CS eps x w (H x) delta He (ap_len _ _ _ _ _ Ha) Lw HB ltac:(lra) Nw Hg Hl Pw)
          as [(_ & _ & K1 & _)|(_ & _ & K1 & _)]; lra. }
      assert (Lt : length (radd x w) = n) by (pose proof (ap_len _ _ _ _ _ Ha); rlen).
      assert (Lxx : length (deref s (o_x s)) = n) by (rewrite (ap_x _ _ _ _ _ Ha), fv_length; apply Ha).
      destruct (C15_hessian_after_acceptance E C ndim (fv x0) sid h0 st f s s1 f' s' HL Hc Hi) as (sp2 & r & v & g & pf & Q1 & Q2 & Q3 & Q4 & Q5 & Q6).
      assert (sp2 = sp) as -> by (destruct P1 as [P1 _], Q1 as [Q1 _]; rewrite P1 in Q1; now apply Ok_inj in Q1).
      assert (Er : r = e_obj E (length (o_evals s)) (fv (radd x w))).
      { rewrite P4, P2 in Q2. apply app_inv_head in Q2. injection Q2. auto. }
      subst r. rewrite (se_eval _ (radd x w) Lt) in Q3. injection Q3 as <-.
      unfold value_of, gradient_of in Q4, Q5. rewrite (se_eval _ (radd x w) Lt) in Q4, Q5. cbn [pf_fval pf_grad] in Q4, Q5.
      injection Q4 as <-. injection Q5 as <-. rewrite P3, Ehp in Q6. cbn [pf_hess] in Q6.
      destruct (Rltb 0 (rho F G x w (H x))) eqn:Er.
      + destruct (Q6 eq_refl) as (nc & Q7 & Q8). injection Q7 as _ Q7. exists (radd x w), (new_delta F G mu eta g1 g2 x w (H x) delta).
        constructor; auto.
      + destruct (C15_pass E C ndim (fv x0) sid h0 st f s s1 f' s' HL Hc Hi) as (sp3 & r3 & v3 & g3 & R1 & R2 & R3 & R4 & R5 & R6).
        assert (sp3 = sp) as -> by (destruct P1 as [P1 _], R1 as [R1 _]; rewrite P1 in R1; now apply Ok_inj in R1).
        rewrite P2 in R3. subst r3. unfold value_of, gradient_of in R4, R5. rewrite (se_eval _ (radd x w) Lt) in R4, R5. cbn [pf_fval pf_grad] in R4, R5.
        injection R4 as <-. injection R5 as <-. rewrite P3 in R6. destruct R6 as (_ & _ & R6 & R7 & _).
        exists x, (new_delta F G mu eta g1 g2 x w (H x) delta). constructor; auto; congruence.
  Qed.

  Lemma hessians_bounded : bounded_hessians E C n M ndim x0 sid h0 st eps.
  Proof using CS SO Lx0 He Hco.
    intros f s HR. destruct (steep_at f s HR) as (x & delta & [Ha EB _ _ _]). exists (H x). split; [exact EB|].
    apply (se_hess SO x). apply Ha.
  Qed.

  (** no pass fails *)
  Lemma iteration_total_aux f s1 sp xt : it_tr E C s1 = Ok sp -> it_trial s1 sp = fv xt -> length xt = n -> length (deref s1 (o_x s1)) = n ->
    all_finite (o_fval s1) (o_grad s1) (Some (o_hess s1)) = true -> o_happ s1 = None -> exists f' s', iteration E C f s1 = (Ok f', s').
  Proof using CS SO.
    intros Itr Itl Lt Lxx Cur Hp1.
    assert (Ev : fun_evaluate (c_nargout C) (c_resfun C) (it_ret E s1 sp) = Ok (mkPyfun (PScal (Fin (F xt))) (PVec (fv (G xt))) (PMat n (fm (H xt))) [] [])).
    { unfold it_ret. rewrite Itl. now apply se_eval. }
    destruct (iteration E C f s1) as [[f'|e] s'] eqn:Ei; [eauto|]. exfalso. apply iteration_inv in Ei.
    assert (Hev : forall sp2 fn, evaluated E C s1 sp2 fn -> sp2 = sp /\ fn = mkFout (Fin (F xt)) (fv (G xt)) (Some (fm (H xt))) (length (o_heap s1)) [] []).
    { intros sp2 fn [_ V2 (pf & V3 & V4) _]. rewrite Itr in V2. apply Ok_inj in V2. subst sp2. split; [reflexivity|].
      rewrite Ev in V3. apply Ok_inj in V3. subst pf. rewrite Lxx, (se_typed _ _ Lt) in V4. now apply Ok_inj in V4. }
    inversion Ei as [Hcur Er Es|e' Ht|sp2 e' Ht Hev2|sp2 pf e' Ht Hev2 Hy|sp2 pf fn Ht Hev2 Hy A1 A2|sp2 fn e' st0 Hev2 Hac Hu|sp2 fn st0 Hev2 Hu Hh|]; clear Ei.
    - congruence.
    - congruence.
    - rewrite Itr in Ht. apply Ok_inj in Ht. subst sp2. rewrite Ev in Hev2. discriminate.
    - rewrite Itr in Ht. apply Ok_inj in Ht. subst sp2. rewrite Ev in Hev2. apply Ok_inj in Hev2. subst pf. rewrite Lxx, (se_typed _ _ Lt) in Hy. discriminate.
    - rewrite Itr in Ht. apply Ok_inj in Ht. subst sp2. rewrite Ev in Hev2. apply Ok_inj in Hev2. subst pf. rewrite Lxx, (se_typed _ _ Lt) in Hy.
      apply Ok_inj in Hy. subst fn. cbn [fo_fval fo_grad fo_hess] in A2. rewrite se_allfin in A2. discriminate.
    - destruct (Hev _ _ Hev2) as [-> Efn].
      assert (Dr : deref (it_s5 E C s1 sp fn) (fo_x fn) = fv xt).
      { rewrite Efn at 2. cbn [fo_x]. unfold deref. rewrite s5_heap, nth_middle. exact Itl. }
      assert (Ib : in_bounds C (deref (it_s5 E C s1 sp fn) (fo_x fn)) = true) by (rewrite Dr; destruct c_free as (? & ? & ?); now apply (in_bounds_free C n)).
      assert (Hf : fo_hess fn = Some (fm (H xt))) by now rewrite Efn.
      clear Efn Dr. apply (update_never_fails C sp fn f (it_s5 E C s1 sp fn) (fm (H xt)) e' s'); auto. now rewrite s5_happ. congruence.
    - unfold has_history in Hh. rewrite (se_nohist SO) in Hh. discriminate.
  Qed.
  Lemma iteration_total f s s1 : head f s -> check_continue E C s = (Ok true, s1) -> exists f' s', iteration E C f s1 = (Ok f', s').
  Proof using CS SO Lx0 He Hga Hg0 Hco.
    intros HL Hc. destruct (all_steep f s HL) as [HR Hst].
    pose proof (check_continue_true _ _ _ _ Hc) as (Es1 & Hcv & _). specialize (Hst Hcv).
    destruct (steep_at f s HR) as (x & delta & [Ha EB Ehp Ed Hl]).
    pose proof (least_radius_pos E C n F G L M mu eta g1 g2 D0 tm CS eps He) as K0.
    destruct (se_hess SO x (ap_len _ _ _ _ _ Ha)) as (MB & SB & HB & HU).
    rewrite (ap_g _ _ _ _ _ Ha), h_norm in Hst. cbn [nleb ERNum er_leb] in Hst.
    assert (Hg : eps <= rnorm (G x)) by (destruct (Rleb_spec eps (rnorm (G x))); [lra|discriminate]).
    assert (Hnz : nonzero (G x)) by (apply nonzero_dot; rewrite <- rnorm_sq; nra).
    destruct (proposal_exists E C n F G L M mu eta g1 g2 D0 tm CS s x (H x) delta Ha MB SB EB Ed ltac:(lra) Hnz HB HU (coarse_le _ _ _ _ Hco Hg)) as (sp & Hsp).
    destruct (proposal E C n F G L M mu eta g1 g2 D0 tm CS s x (H x) delta sp Ha MB SB EB Ed ltac:(lra) Hnz HB HU (coarse_le _ _ _ _ Hco Hg) Hsp) as (w & Lw & T1 & _).
    assert (Lt : length (radd x w) = n) by (pose proof (ap_len _ _ _ _ _ Ha); rlen).
    assert (Itr : it_tr E C s1 = Ok sp) by (rewrite Es1; now apply proposes_it_tr).
    assert (Itl : it_trial s1 sp = fv (radd x w)) by (rewrite Es1; exact T1).
    assert (Lxx : length (deref s1 (o_x s1)) = n) by (rewrite Es1; change (length (deref s (o_x s)) = n); rewrite (ap_x _ _ _ _ _ Ha), fv_length; apply Ha).
    assert (Ev : fun_evaluate (c_nargout C) (c_resfun C) (it_ret E s1 sp) = Ok (mkPyfun (PScal (Fin (F (radd x w)))) (PVec (fv (G (radd x w)))) (PMat n (fm (H (radd x w)))) [] [])).
    { unfold it_ret. rewrite Itl. now apply se_eval. }
    assert (Cur : all_finite (o_fval s1) (o_grad s1) (Some (o_hess s1)) = true).
    { rewrite Es1. change (all_finite (o_fval s) (o_grad s) (Some (o_hess s)) = true).
      rewrite (ap_f _ _ _ _ _ Ha), (ap_g _ _ _ _ _ Ha), EB. apply se_allfin. }
    assert (Hp1 : o_happ s1 = None) by (rewrite Es1; exact Ehp).
    clear Hc HR Ha EB Ehp Ed Hcv Hsp T1 HL Es1.
    now apply (iteration_total_aux f s1 sp (radd x w)).
  Qed.

  (** the loop returns *)
  Lemma loop_total (K : nat) : (forall f s, head f s -> (o_iter s < Z.of_nat K)%Z) ->
    forall k f s, head f s -> (K - Z.to_nat (o_iter s) < k)%nat -> exists s', loop E C k f s = (Ok tt, s').
  Proof using CS SO Lx0 He Hga Hg0 Hco.
    intros HK. induction k as [|k IH]; intros f s HL Hk; [lia|].
    cbn [loop]. destruct (check_continue E C s) as [[c|e] s1] eqn:Ec.
    2:{ rewrite check_continue_run in Ec.
        destruct o_conv; [discriminate|]. destruct (_ <=? _)%Z; [discriminate|].
        cbv zeta in Ec. destruct out_of_time; [discriminate|]. destruct (_ <? _)%num; discriminate. }
    rewrite (bind_ok _ _ _ _ _ Ec). destruct c; [|eexists; reflexivity].
    destruct (iteration_total f s s1 HL Ec) as (f' & s' & Hi). rewrite (bind_ok _ _ _ _ _ Hi).
    assert (HL' : head f' s') by (eapply lh_next; eauto).
    apply IH; auto. pose proof (HK f s HL). 
    pose proof (loop_head_frame E C _ _ _ _ _ _ _ HL) as [_ Hn].
    apply check_continue_true in Ec as (-> & _). apply iteration_ok in Hi as (sp' & fn & Ki).
    rewrite (ik_iter _ _ _ _ _ _ _ _ Ki). change (o_iter (set_o_clk (S (o_clk s)) s)) with (o_iter s). lia.
  Qed.

  Variables (Fl : R) (p q N : nat) (fuel : nat).
  Hypothesis Hlow : forall x, length x = n -> Fl <= F x.
  Hypothesis Hp : g2 * g1 ^ p <= 1.
  Hypothesis Hq : D0 * g1 ^ q < LR.
  Hypothesis HN : most_passes C F L M mu g1 D0 x0 eps Fl p q <= INR N.
  Hypothesis Hfuel : (N < fuel)%nat.

  Lemma heads_below f s : head f s -> (o_iter s < Z.of_nat N)%Z.
  Proof using CS He Lx0 Hga Hg0 SO Hlow Hp Hq HN Hco.
    intros HL. pose proof (C56_iterations_bounded Fl p q f s hessians_bounded Hlow Hp Hq HL) as K.
    apply lt_IZR. rewrite <- INR_IZR_INZ. lra.
  Qed.
  Lemma minimize_returns : exists fval x g h st', minimize E C fuel ndim (fv x0) sid h0 st = (Ok (fval, x, g, h), st').
  Proof using CS He Lx0 Hga Hg0 SO Hlow Hp Hq HN Hfuel Hco.
    destruct start_ok as (f & s & Ep).
    pose proof (prepare_frame E C _ _ _ _ _ _ _ Ep) as [_ Hi].
    destruct (loop_total N heads_below fuel f s) as (s' & El); [now apply lh_start|rewrite Hi; cbn; lia|].
    unfold minimize. rewrite (bind_ok _ _ _ _ _ Ep), (bind_ok _ _ _ _ _ El).
    assert (Ew : write_history C s' = (Ok tt, s')) by (unfold write_history, bind, get; rewrite (se_nohist SO); reflexivity).
    rewrite (bind_ok _ _ _ _ _ Ew). rewrite (bind_ok get _ s' s' s' eq_refl). do 5 eexists. reflexivity.
  Qed.

  (** the points evaluated by a run are finite *)
  Lemma last_evaluated f s : head f s -> o_conv s = true ->
    exists xt evals, length xt = n /\ o_evals s = evals ++ [(fv xt, e_obj E (length evals) (fv xt))].
  Proof using CS He Lx0 Hga Hg0 SO Hco.
    intros HL Hcv. inversion HL as [f1 s1 Hpr|f1 s1 s2 f2 s3 HL1 Hc Hi]; subst f1 || subst f2.
    - subst s1. apply prepare_inv in Hpr. inversion Hpr as [| | | | | |pf hess h' f1 D1 D2 D3 D4 D5 D6 D7 Ef Es0]. rewrite <- Es0 in Hcv. discriminate Hcv.
    - subst s3. destruct (all_steep f1 s1 HL1) as [HR Hst]. pose proof (check_continue_true _ _ _ _ Hc) as (_ & Hcv1 & _). specialize (Hst Hcv1).
      destruct (steep_at f1 s1 HR) as (x & delta & [Ha EB Ehp Ed Hl]).
      pose proof (least_radius_pos E C n F G L M mu eta g1 g2 D0 tm CS eps He) as K0.
      destruct (se_hess SO x (ap_len _ _ _ _ _ Ha)) as (MB & SB & HB & HU).
      rewrite (ap_g _ _ _ _ _ Ha), h_norm in Hst. cbn [nleb ERNum er_leb] in Hst.
      assert (Hg : eps <= rnorm (G x)) by (destruct (Rleb_spec eps (rnorm (G x))); [lra|discriminate]).
      assert (Hnz : nonzero (G x)) by (apply nonzero_dot; rewrite <- rnorm_sq; nra).
      destruct (pass E C n F G L M mu eta g1 g2 D0 tm CS ndim x0 sid h0 st f1 s1 s2 f s x (H x) delta HL1 Hc Hi Ha MB SB EB Ed ltac:(lra) Hnz HB HU (coarse_le _ _ _ _ Hco Hg))
        as (w & Lw & Nw & Pw & Dw & Aw & Iw & sp & P1 & P2 & P3 & P4).
      exists (radd x w), (o_evals s1). split; [|exact P4]. pose proof (ap_len _ _ _ _ _ Ha). rlen.
  Qed.

  (** minimize returns, after fewer than N iterations, because one of the three convergence tests was met at the last point
      it evaluated *)
  Theorem C56_minimize_converges :
    op_maxtime O = PInf -> (Z.of_nat N <= op_maxiter O)%Z -> / 2 ^ 52 <= LR ->
    exists fval x g h st' xt r evals,
      minimize E C fuel ndim (fv x0) sid h0 st = (Ok (fval, x, g, h), st')
      /\ (o_iter st' < Z.of_nat N)%Z
      /\ In (o_flag st') [FTOL; XF_XTOL; GTOL]
      /\ length xt = n /\ o_evals st' = evals ++ [(fv xt, r)] /\ gradient_of C r = Some (fv (G xt))
      /\ (o_flag st' = GTOL -> op_grtol O = Fin 0 -> rnorm (G xt) <= eps)
      /\ (o_flag st' = FTOL -> ~ (op_fatol O = Fin 0 /\ op_frtol O = Fin 0))
      /\ (o_flag st' = XF_XTOL -> op_xtol O <> Fin 0).
  Proof using CS He Lx0 Hga Hg0 SO Hlow Hp Hq HN Hfuel Hco.
    intros Hmt Hmi Hsp. destruct minimize_returns as (fval & x & g & h & st' & Hm).
    pose proof (C07_exit_flag E C fuel ndim (fv x0) sid h0 st _ _ _ _ _ Hm) as SR.
    pose proof Hm as Hm2. apply minimize_ok_inv in Hm2 as (f & s & s1 & HL & Hc & Hw & _).
    assert (Es : st' = s1).
    { apply write_history_inv in Hw as [(_ & _ & ->)|[(file & Hf & _)|(file & Hf & _)]]; [reflexivity|rewrite (se_nohist SO) in Hf; discriminate..]. }
    subst st'. pose proof (heads_below f s HL) as Hit.
    assert (Ks : o_iter s1 = o_iter s /\ o_conv s1 = o_conv s /\ o_evals s1 = o_evals s /\ o_delta s1 = o_delta s).
    { apply check_continue_false in Hc as (fl & k & ->). repeat split. }
    destruct Ks as (K1 & K2 & K3 & K4).
    destruct (all_steep f s HL) as [HR _]. destruct (steep_at f s HR) as (xs & delta & [Ha EB Ehp Ed Hl]).
    assert (Hin : In (o_flag s1) [FTOL; XF_XTOL; GTOL] /\ o_conv s1 = true).
    { destruct (o_flag s1) eqn:Efl; cbn [stop_reason] in SR; try contradiction; try (destruct SR as [SR _]; split; [cbn; tauto|exact SR]).
      - destruct SR as [_ SR]. rewrite K1 in SR. lia.
      - cbv zeta in SR. destruct SR as (_ & _ & SR). rewrite Hmt in SR. exfalso. revert SR.
        generalize (e_clock E (pred (o_clk s1)) - o_starttime s1)%num as t1. intros t1.
        generalize (t1 / nofZ (Z.max 1 (o_iter s1)))%num as t2. intros t2. destruct t1, t2; cbn; discriminate.
      - destruct SR as (_ & _ & SR). rewrite K4, Ed in SR. rewrite spacing_fin in SR. cbn [nltb ERNum er_ltb] in SR.
        exfalso. assert (E52 : IZR (2 ^ 52) = 2 ^ 52) by (rewrite (pow_IZR 2 52); f_equal). rewrite E52 in SR.
        destruct (Rltb_spec delta (/ 2 ^ 52)); [lra|discriminate]. }
    destruct Hin as [Hin Hcv]. rewrite K2 in Hcv.
    destruct (last_evaluated f s HL Hcv) as (xt & evals & Lt & Hev). rewrite <- K3 in Hev.
    pose proof (se_eval (length evals) xt Lt) as Ev.
    assert (Eg : gradient_of C (e_obj E (length evals) (fv xt)) = Some (fv (G xt))) by (unfold gradient_of; now rewrite Ev).
    assert (Evv : value_of C (e_obj E (length evals) (fv xt)) = Some (Fin (F xt))) by (unfold value_of; now rewrite Ev).
    exists fval, x, g, h, s1, xt, (e_obj E (length evals) (fv xt)), evals.
    split; [exact Hm|]. split; [lia|]. split; [exact Hin|]. split; [exact Lt|]. split; [exact Hev|]. split; [exact Eg|].
    split; [|split].
    - intros Efl Hgr. rewrite Efl in SR. destruct SR as (_ & f3 & s3 & sp & pp & r & v & gg & ev & B1 & B2 & B3 & B4 & B5 & B6 & B7 & B8).
      rewrite Hev in B4. apply app_inj_tail in B4 as [-> B4]. injection B4 as <- <-. rewrite Eg in B6. injection B6 as <-.
      rewrite h_norm, Hga, Hgr in B8. cbn [nleb ERNum er_leb] in B8.
      pose proof (iv_fin _ _ _ _ _ _ _ (loop_head_Inv E C _ _ _ _ _ _ _ B1)) as [If _].
      destruct (o_fval s3) as [fs| | |]; try discriminate If. cbn [nabs ERNum er_abs nmul er_mul] in B8.
      destruct B8 as [B8|B8].
      + destruct (Rleb_spec (rnorm (G xt)) eps); [lra|discriminate].
      + destruct (Rleb_spec (rnorm (G xt)) (0 * Rabs fs)); [lra|discriminate].
    - intros Efl [Hfa Hfr]. rewrite Efl in SR. destruct SR as (_ & f3 & s3 & sp & pp & r & v & gg & ev & B1 & B2 & B3 & B4 & B5 & B6 & B7 & B8 & _).
      rewrite Hev in B4. apply app_inj_tail in B4 as [-> B4]. injection B4 as <- <-. rewrite Evv in B5. injection B5 as <-.
      pose proof (iv_fin _ _ _ _ _ _ _ (loop_head_Inv E C _ _ _ _ _ _ _ B1)) as [If _].
      rewrite Hfa, Hfr in B8. destruct (o_fval s3) as [fs| | |]; try discriminate If. cbn [nabs ERNum er_abs nmul er_mul nsub nadd er_sub er_opp er_add nltb er_ltb] in B8.
      destruct (Rltb_spec (Rabs (F xt + - fs)) (0 + 0 * Rabs fs)) as [K|K]; [|discriminate]. pose proof (Rabs_pos (F xt + - fs)). lra.
    - intros Efl Hx. rewrite Efl in SR. destruct SR as (_ & f3 & s3 & sp & pp & r & v & gg & ev & B1 & B2 & B3 & B4 & B5 & B6 & B7 & B8 & _).
      rewrite Hx in B8. unfold scaled_length, norm in B8. revert B8. generalize (dot (vadd (st_ss sp) (st_ss0 sp)) (vadd (st_ss sp) (st_ss0 sp))).
      intros t. destruct t as [t| | |]; cbn; try discriminate.
      destruct (Rltb_spec t 0); [discriminate|]. cbn. destruct (Rltb_spec (sqrt t) 0); [|discriminate]. pose proof (sqrt_pos t). lra.
  Qed.
End Total.

(** With the function and step tolerances switched off: minimize returns with exit flag GTOL, and the last point it evaluated is a
    stationary point up to the tolerance gatol *)
Theorem C56_stationary_point_found
  (E : env ER) (C : cfg ER) n F G L M mu eta g1 g2 D0 tm ndim x0 sid h0 st eps H Fl p q N fuel :
  convergence_setting E C n F G L M mu eta g1 g2 D0 tm -> second_order E C n F G M ndim st H ->
  (forall x, length x = n -> Fl <= F x) ->
  0 < eps -> coarse C M eps -> length x0 = n -> eps <= rnorm (G x0) ->
  op_gatol (c_opts C) = Fin eps -> op_fatol (c_opts C) = Fin 0 -> op_frtol (c_opts C) = Fin 0 ->
  op_xtol (c_opts C) = Fin 0 -> op_grtol (c_opts C) = Fin 0 ->
  op_maxtime (c_opts C) = PInf -> (Z.of_nat N <= op_maxiter (c_opts C))%Z ->
  g2 * g1 ^ p <= 1 -> D0 * g1 ^ q < least_radius C L M mu g1 D0 eps -> / 2 ^ 52 <= least_radius C L M mu g1 D0 eps ->
  most_passes C F L M mu g1 D0 x0 eps Fl p q <= INR N -> (N < fuel)%nat ->
  exists fval x g h st' xt r evals,
    minimize E C fuel ndim (fv x0) sid h0 st = (Ok (fval, x, g, h), st')
    /\ o_flag st' = GTOL /\ (o_iter st' < Z.of_nat N)%Z
    /\ length xt = n /\ o_evals st' = evals ++ [(fv xt, r)] /\ gradient_of C r = Some (fv (G xt)) /\ rnorm (G xt) <= eps.
Proof.
  intros CS SO Hl He Hco Lx Hg0 Hga Hfa Hfr Hx Hgr Hmt Hmi Hp Hq Hsp HN Hfu.
  destruct (C56_minimize_converges E C n F G L M mu eta g1 g2 D0 tm CS ndim x0 sid h0 st eps He Hco Lx Hga Hg0 H SO Fl p q N fuel Hl Hp Hq HN Hfu Hmt Hmi Hsp)
    as (fval & x & g & h & st' & xt & r & evals & K1 & K2 & K3 & K4 & K5 & K6 & K7 & K8 & K9).
  assert (Fg : o_flag st' = GTOL).
  { cbn in K3. destruct K3 as [K3|[K3|[K3|[]]]]; [exfalso; now apply (K8 (eq_sym K3))|exfalso; now apply (K9 (eq_sym K3))|auto]. }
  exists fval, x, g, h, st', xt, r, evals. split; [exact K1|]. split; [exact Fg|]. auto 10.
Qed.

Lemma archimed_nat r : exists N : nat, r <= INR N.
Proof.
  destruct (archimed r) as [H _]. exists (Z.to_nat (up r)). destruct (Z.le_gt_cases 0 (up r)) as [Hz|Hz].
  - rewrite INR_IZR_INZ, Z2Nat.id by exact Hz. lra.
  - apply IZR_lt in Hz. pose proof (pos_INR (Z.to_nat (up r))). lra.
Qed.
(** the two exponents and the bound exist for all admissible options *)
Theorem C56_bound_exists (C : cfg ER) F L M mu g1 g2 D0 x0 eps Fl :
  0 < g1 < 1 -> 1 <= g2 -> 0 < D0 -> 0 < least_radius C L M mu g1 D0 eps ->
  exists p q N, g2 * g1 ^ p <= 1 /\ D0 * g1 ^ q < least_radius C L M mu g1 D0 eps /\ most_passes C F L M mu g1 D0 x0 eps Fl p q <= INR N.
Proof.
  intros H1 H2 H3 H4.
  destruct (pow_small g1 (/ g2) H1) as (p & Hp); [apply Rinv_0_lt_compat; lra|].
  destruct (pow_small g1 (least_radius C L M mu g1 D0 eps / D0) H1) as (q & Hq); [apply Rmult_lt_0_compat; [lra|now apply Rinv_0_lt_compat]|].
  destruct (archimed_nat (most_passes C F L M mu g1 D0 x0 eps Fl p q)) as (N & HN).
  exists p, q, N. split; [|split; [|lra]].
  - apply (Rmult_le_reg_l (/ g2)); [apply Rinv_0_lt_compat; lra|]. rewrite <- Rmult_assoc, Rinv_l by lra. lra.
  - apply (Rmult_lt_compat_l D0) in Hq; [|lra]. replace (D0 * (least_radius C L M mu g1 D0 eps / D0)) with (least_radius C L M mu g1 D0 eps) in Hq by (field; lra). exact Hq.
Qed.

(** without any assumption on the tolerances: a run that makes that many passes has been at a point with a gradient below eps *)
Theorem C56_small_gradient_reached
  (E : env ER) (C : cfg ER) n F G L M mu eta g1 g2 D0 tm ndim x0 sid h0 st eps Fl p q f s :
  convergence_setting E C n F G L M mu eta g1 g2 D0 tm ->
  0 < eps -> coarse C M eps -> length x0 = n -> (forall x, length x = n -> Fl <= F x) ->
  bounded_hessians E C n M ndim x0 sid h0 st eps ->
  g2 * g1 ^ p <= 1 -> D0 * g1 ^ q < least_radius C L M mu g1 D0 eps ->
  loop_head E C ndim (fv x0) sid h0 st f s -> most_passes C F L M mu g1 D0 x0 eps Fl p q <= IZR (o_iter s) ->
  exists f1 s1 x, loop_head E C ndim (fv x0) sid h0 st f1 s1 /\ (o_iter s1 < o_iter s)%Z
    /\ IZR (o_iter s1) < most_passes C F L M mu g1 D0 x0 eps Fl p q
    /\ deref s1 (o_x s1) = fv x /\ o_fval s1 = Fin (F x) /\ o_grad s1 = fv (G x) /\ rnorm (G x) < eps.
Proof.
  intros CS He Hco Lx Hl HH Hp Hq HL Hit.
  assert (K : forall f s, loop_head E C ndim (fv x0) sid h0 st f s -> steep_run E C ndim x0 sid h0 st eps f s \/
    exists f1 s1 x, steep_run E C ndim x0 sid h0 st eps f1 s1 /\ (o_iter s1 < o_iter s)%Z /\ deref s1 (o_x s1) = fv x /\ o_fval s1 = Fin (F x) /\ o_grad s1 = fv (G x) /\ rnorm (G x) < eps).
  { clear f s HL Hit. induction 1 as [f s Hpr|f s s1 f' s' HL IH Hc Hi]; [left; now apply sr_start|].
    assert (Ei : o_iter s' = (o_iter s + 1)%Z).
    { apply check_continue_true in Hc as (-> & _). apply iteration_ok in Hi as (sp' & fn & Ki). rewrite (ik_iter _ _ _ _ _ _ _ _ Ki). reflexivity. }
    destruct IH as [IH|(f1 & s2 & x & I1 & I2 & I3)].
    2:{ right. exists f1, s2, x. split; [exact I1|]. split; [lia|exact I3]. }
    destruct (steep_inv E C n F G L M mu eta g1 g2 D0 tm CS ndim x0 sid h0 st eps f s He Hco Lx HH IH) as (x & delta & S & U & [La Ex Ef Eg] & _).
    destruct (Rlt_dec (rnorm (G x)) eps) as [Hs|Hs].
    - right. exists f, s, x. split; [exact IH|]. split; [lia|]. auto.
    - left. eapply sr_next; eauto. rewrite Eg, h_norm. cbn. destruct (Rleb_spec eps (rnorm (G x))); [reflexivity|lra]. }
  destruct (K f s HL) as [K1|(f1 & s1 & x & I1 & I2 & I3 & I4)].
  - pose proof (C56_steep_passes_bounded E C n F G L M mu eta g1 g2 D0 tm CS ndim x0 sid h0 st eps Fl p q f s He Hco Lx HH Hl Hp Hq K1). lra.
  - exists f1, s1, x. split; [eapply steep_head; eauto|]. split; [exact I2|]. split; [|auto].
    eapply (C56_steep_passes_bounded E C n F G L M mu eta g1 g2 D0 tm CS); eauto.
Qed.

(** *** a concrete case: F(x) = x^2 started at 1, to the tolerance 1 *)
Definition cx_F (x : rvec) : R := nth 0 x 0 * nth 0 x 0.
Definition cx_G (x : rvec) : rvec := [2 * nth 0 x 0].
Definition cx_H (x : rvec) : rmat := [[2]].
Definition cx_E : env ER :=
  mkEnv (fun _ x => match x with
                    | [Fin a] => RTuple [PScal (Fin (a * a)); PVec [Fin (2 * a)]; PMat 1 [[Fin 2]]]
                    | _ => RRaise end)
    (fun k => Fin (INR k)) (fun _ => "id"%string)
    (mkStepOracles ER (mkSubOracles ER (fun _ => None) (fun _ _ _ => NoConv) (fun _ _ _ _ => NoConv)) (fun _ => None) (fun _ _ => None) (fun _ _ _ _ _ _ _ => None) 10 10)
    (fun _ => None) (fun _ => None).
Definition cx_C : cfg ER :=
  mkCfg (mkOpts 1000 PInf (Fin 0) (Fin 0) (Fin 0) (Fin 1) (Fin 0) "scg" "reflect" (Fin (/ 2)) (Fin 1) (Fin (/ 4)) (Fin (3 / 4)) (Fin (/ 4)) (Fin 2) None)
    [NInf] [PInf] 3 false.
Definition cx_st : opt ER := mkOpt [] 0 (Fin 0) [] [] 0 (Fin 0) [] (Fin 0) (Fin 0) (Fin 0) None 0 0 (Fin 0) 0 false DID_NOT_RUN [] "" [] 0 0 [].

Lemma one_vec (x : rvec) : length x = 1%nat -> exists a, x = [a].
Proof. destruct x as [|a [|b x]]; try discriminate. eauto. Qed.
Lemma cx_setting : convergence_setting cx_E cx_C 1 cx_F cx_G 2 2 (/ 4) (3 / 4) (/ 4) 2 1 (/ 2).
Proof.
  constructor; try reflexivity; try lra; try (split; [reflexivity|lra]).
  - intros k x Hx. apply one_vec in Hx as (a & ->). split; reflexivity.
  - intros x s Hx Hs. apply one_vec in Hx as (a & ->). apply one_vec in Hs as (b & ->).
    split; [reflexivity|]. unfold cx_F, cx_G. cbn. rewrite Rabs_right; nra.
  - left. split; [reflexivity|]. cbn. lia.
Qed.
Lemma cx_second : second_order cx_E cx_C 1 cx_F cx_G 2 1 cx_st cx_H.
Proof.
  constructor; try reflexivity; auto.
  - intros k x Hx. apply one_vec in Hx as (a & ->). reflexivity.
  - intros x _. split; [split; [reflexivity|repeat constructor]|]. split; [|split].
    + intros i j. destruct i as [|[|i]], j as [|[|j]]; reflexivity.
    + intros z Hz. apply one_vec in Hz as (a & ->). unfold cx_H. cbn. rewrite Rabs_right; nra.
    + split; discriminate.
Qed.
Lemma cx_radius : least_radius cx_C 2 2 (/ 4) (/ 4) 1 1 = 3 / 64.
Proof.
  unfold least_radius, kappa, chi, sigma. cbn [String.eqb Ascii.eqb Bool.eqb cx_C c_opts op_subspace_dim].
  rewrite (Rmin_left (/ 4) (1 / 4)) by lra. rewrite Rmin_right; lra.
Qed.
Example C56_ex : exists fval x g h st' xt r evals,
  minimize cx_E cx_C 346 1 (fv [1]) None H0None cx_st = (Ok (fval, x, g, h), st')
  /\ o_flag st' = GTOL /\ (o_iter st' < 345)%Z
  /\ length xt = 1%nat /\ o_evals st' = evals ++ [(fv xt, r)] /\ gradient_of cx_C r = Some (fv (cx_G xt)) /\ rnorm (cx_G xt) <= 1.
Proof.
  apply (C56_stationary_point_found cx_E cx_C 1 cx_F cx_G 2 2 (/ 4) (3 / 4) (/ 4) 2 1 (/ 2) 1 [1] None H0None cx_st 1 cx_H 0 1 3 345 346);
    try reflexivity; try lra; try lia; try exact cx_setting; try exact cx_second.
  - intros x _. unfold cx_F. nra.
  - split; [intros K; now contradiction K|discriminate].
  - unfold cx_G. cbn. unfold rnorm, rdot. cbn. rewrite <- sqrt_1 at 1. apply sqrt_le_1; lra.
  - cbn. lia.
  - rewrite cx_radius. lra.
  - rewrite cx_radius. lra.
  - unfold most_passes, least_decrease. rewrite cx_radius, INR_IZR_INZ. unfold cx_F, chi. cbn. lra.
Qed.

(** *** a concrete case for the two exact solvers: F(x,y) = x^2 + y^2 started at (3,4), to the tolerance 8. The external routines are
    exact for the matrix 2I and its projections: the eigenvalues are 2, and the root finder interpolates linearly, which is exact
    because the secular equation of a multiple of the identity is linear *)
Definition I2 : rmat := [[2; 0]; [0; 2]].
Definition cy_F (x : rvec) : R := nth 0 x 0 * nth 0 x 0 + nth 1 x 0 * nth 1 x 0.
Definition cy_G (x : rvec) : rvec := [2 * nth 0 x 0; 2 * nth 1 x 0].
Definition cy_H (x : rvec) : rmat := I2.
Definition interpolate (f f' : ER -> ER) (x : ER) : rootres ER :=
  match f (Fin 0), f (Fin 1) with Fin a, Fin b => Root (Fin (- a / (b - a))) | _, _ => NoConv end.
Definition cy_sub : SubOracles ER := mkSubOracles ER (fun _ => Some (fv [2; 2], fm (reye 2))) interpolate (fun _ _ _ _ => NoConv).
Definition cy_la : StepOracles ER :=
  mkStepOracles ER cy_sub (fun _ => Some (fv [2; 2], fv [2; 2], fm (reye 2)))
    (fun _ g => Some (map (fun a => (a / nofZ 2)%num) g)) (fun _ _ _ _ _ _ _ => None) 10 10.
Definition cy_E : env ER :=
  mkEnv (fun _ x => match x with
                    | [Fin a; Fin b] => RTuple [PScal (Fin (a * a + b * b)); PVec [Fin (2 * a); Fin (2 * b)]; PMat 2 (fm I2)]
                    | _ => RRaise end)
    (fun k => Fin (INR k)) (fun _ => "id"%string) cy_la (fun _ => None) (fun _ => None).
Definition cy_C (sd : string) : cfg ER :=
  mkCfg (mkOpts 1000 PInf (Fin 0) (Fin 0) (Fin 0) (Fin 8) (Fin 0) sd "reflect" (Fin (/ 2)) (Fin 1) (Fin (/ 4)) (Fin (3 / 4)) (Fin (/ 4)) (Fin 2) None)
    [NInf; NInf] [PInf; PInf] 3 false.

Lemma two_vec (x : rvec) : length x = 2%nat -> exists a b, x = [a; b].
Proof. destruct x as [|a [|b [|c x]]]; try discriminate. eauto. Qed.
Lemma I2_mat : is_mat 2 2 I2. Proof. split; [reflexivity|repeat constructor]. Qed.
Lemma I2_sym : symmetric I2. Proof. intros i j. destruct i as [|[|[|i]]], j as [|[|[|j]]]; reflexivity. Qed.
Lemma I2_form x y : length x = 2%nat -> length y = 2%nat -> rform I2 x y = 2 * rdot x y.
Proof. intros Hx Hy. apply two_vec in Hx as (a & b & ->). apply two_vec in Hy as (c & d & ->). unfold rform, rmv, rdot, I2. cbn. ring. Qed.
Lemma I2_posdef : posdef 2 I2.
Proof. intros x Lx Hx. rewrite I2_form by auto. apply nonzero_dot in Hx. lra. Qed.
Lemma I2_eig : eig_decomposition 2 I2 [2; 2] (reye 2).
Proof.
  split; [reflexivity|]. split; [apply is_mat_eye|]. split; [apply orthonormal_eye|].
  intros [|[|i]] Hi; [| |lia]; unfold rmv, rscale, rdot, I2; cbn; (f_equal; [ring|f_equal; ring]).
Qed.
Lemma I2_mineig : mineig [2; 2] = 2.
Proof.
  assert (K : (jm [2; 2]%R < 2)%nat) by (apply (jm_lt 2 I2 [0; 0] [2; 2] (reye 2)); auto using I2_eig).
  unfold mineig, ev. destruct (jm [2; 2]) as [|[|k]]; [reflexivity..|lia].
Qed.
Lemma I2_sn g lam : length g = 2%nat -> 2 + lam <> 0 -> sn 2 g [2; 2] (reye 2) lam = rnorm g / Rabs (2 + lam).
Proof.
  intros Lg Hl. apply two_vec in Lg as (a & b & ->). unfold sn.
  assert (E : rslam 2 [2; 2] (reye 2) lam (ww [a; b] (reye 2)) = rscale (- / (2 + lam)) [a; b]).
  { unfold rslam, coefs, ww, cf, rmv, rscale, rdot. cbn. destruct (Reqb_spec (2 + lam) 0); [contradiction|].
    f_equal; [field; auto|]. f_equal. field; auto. }
  rewrite E, rnorm_rscale, Rabs_Ropp, Rabs_inv. field. now apply Rabs_no_R0.
Qed.
Lemma I2_solvable : solvable cy_sub 2 I2.
Proof.
  exists [2; 2], (reye 2). split; [exact I2_eig|]. split; [reflexivity|]. intros g delta Lg Hd.
  assert (HP : nd_problem 2 I2 g delta [2; 2] (reye 2) cy_sub) by (repeat split; auto using I2_mat, I2_sym, I2_eig; try apply I2_mat; try apply I2_eig; try apply is_mat_eye).
  left. rewrite code_secular_eq. intros f' x0 Hx0.
  assert (Px : forall x, 0 < 2 + x -> 0 < rnorm g -> phiE g delta [2; 2] (reye 2) (Fin x) = Fin ((2 + x) / rnorm g - 1 / delta)).
  { intros x Hx Hg. change (phiE g delta [2; 2] (reye 2) (Fin x)) with (phi g delta [2; 2] (reye 2) x).
    rewrite (phi_eq 2 I2) by (auto using I2_eig, I2_mat, I2_sym). rewrite I2_mineig. destruct (Rltb_spec x (- (2))); [lra|].
    rewrite I2_sn by (auto; lra). rewrite Rabs_pos_eq by lra.
    assert (0 < rnorm g / (2 + x)) by (apply Rmult_lt_0_compat; [lra|apply Rinv_0_lt_compat; lra]).
    destruct (Rltb_spec 0 (rnorm g / (2 + x))); [|lra]. f_equal. field. lra. }
  assert (K : exists x, x0 = Fin x /\ - (2) <= x /\ delta < sn 2 g [2; 2] (reye 2) x).
  { destruct x0 as [x| | |].
    - exists x. split; [reflexivity|]. apply (phi_neg' 2 I2 g delta [2; 2] (reye 2) cy_sub HP) in Hx0. now rewrite I2_mineig in Hx0.
    - exfalso. revert Hx0. unfold phiE, secular. rewrite (npmin_vals 2 I2 g [2; 2] (reye 2)) by auto using I2_eig.
      apply two_vec in Lg as (a & b & ->).
      assert (E : slam PInf (fv (ww [a; b] (reye 2))) (fv [2; 2]) (fm (reye 2)) = fv (rlincomb 2 [0; 0] (reye 2))) by (rewrite <- h_lincomb; reflexivity).
      rewrite E, h_norm. cbn [nltb ERNum nopp er_opp er_ltb Num.n0 nofZ].
      destruct (Rltb_spec 0 (rnorm (rlincomb 2 [0; 0] (reye 2)))) as [Hx|Hx]; [|discriminate]. exfalso. revert Hx.
      unfold rnorm, rdot, rscale; simpl. match goal with |- context [sqrt ?a] => replace a with 0 by lra end. rewrite sqrt_0. lra.
    - exfalso. revert Hx0. unfold phiE, secular. rewrite (npmin_vals 2 I2 g [2; 2] (reye 2)) by auto using I2_eig. discriminate.
    - exfalso. revert Hx0. unfold phiE, secular. rewrite (npmin_vals 2 I2 g [2; 2] (reye 2)) by auto using I2_eig. discriminate. }
  destruct K as (x & -> & Hx1 & Hx2). clear Hx0.
  assert (Hg : 0 < rnorm g).
  { destruct (Rlt_dec 0 (rnorm g)) as [|Hn]; [auto|]. exfalso.
    assert (Zg : rnorm g = 0) by (pose proof (rnorm_nonneg g); lra).
    assert (E0 : rdot g g = 0) by (rewrite <- rnorm_sq, Zg; ring).
    revert Hx2. apply two_vec in Lg as (a & b & ->). assert (a = 0 /\ b = 0) as [-> ->] by (unfold rdot in E0; cbn in E0; split; nra).
    intros Hx2. assert (Zs : rdot (rslam 2 [2; 2] (reye 2) x (ww [0; 0] (reye 2))) (rslam 2 [2; 2] (reye 2) x (ww [0; 0] (reye 2))) = 0).
    { unfold rslam, coefs, ww, cf, rmv, rscale, rdot. cbn. destruct (Reqb_spec (2 + x) 0); cbn; [ring|field; auto]. }
    unfold sn, rnorm in Hx2. rewrite Zs, sqrt_0 in Hx2. lra. }
  set (r := rnorm g / delta - 2). assert (Hr : 0 < 2 + r).
  { unfold r. assert (0 < rnorm g / delta) by (apply Rmult_lt_0_compat; [lra|now apply Rinv_0_lt_compat]). lra. }
  exists r. split; [|split].
  - cbn [sp_newton cy_sub]. unfold interpolate. rewrite !Px by lra. do 2 f_equal. unfold r. field. split; lra.
  - rewrite Px by auto. f_equal. unfold r. field. split; lra.
  - cbn. destruct (Rleb_spec x r) as [|Hn]; [reflexivity|]. exfalso. rewrite I2_sn in Hx2 by (auto; lra). rewrite Rabs_pos_eq in Hx2 by lra.
    apply Hn. unfold r. assert ((2 + x) * delta < rnorm g).
    { apply (Rmult_lt_compat_r (2 + x)) in Hx2; [|lra]. replace (rnorm g / (2 + x) * (2 + x)) with (rnorm g) in Hx2 by (field; lra). lra. }
    apply (Rmult_le_reg_r delta); [exact Hd|]. replace ((rnorm g / delta - 2) * delta) with (rnorm g - 2 * delta) by (field; lra). lra.
Qed.
Lemma I2_exact : exact_2d cy_la 2 I2.
Proof.
  split; [|split].
  - exists [2; 2], (reye 2). split; [exact I2_eig|]. cbn. rewrite !Rabs_pos_eq by lra. reflexivity.
  - intros g Lg. exists (rscale (/ 2) g). apply two_vec in Lg as (a & b & ->). split; [|split; [reflexivity|]].
    + cbn. destruct (Reqb_spec 2 0); [lra|]. unfold Rdiv. rewrite !(Rmult_comm _ (/ 2)). reflexivity.
    + unfold rmv, rscale, rdot, I2. cbn. f_equal; [field|]. f_equal. field.
  - intros u v Lu Lv Ho. assert (E : redB I2 [u; v] = I2); [|rewrite E; exact I2_solvable].
    unfold redB. cbn [map]. rewrite !I2_form by auto.
    pose proof (Ho 0%nat 0%nat ltac:(cbn; lia) ltac:(cbn; lia)) as H1. pose proof (Ho 0%nat 1%nat ltac:(cbn; lia) ltac:(cbn; lia)) as H2.
    pose proof (Ho 1%nat 0%nat ltac:(cbn; lia) ltac:(cbn; lia)) as H3. pose proof (Ho 1%nat 1%nat ltac:(cbn; lia) ltac:(cbn; lia)) as H4.
    cbn [nth Nat.eqb] in H1, H2, H3, H4. rewrite H1, H2, H3, H4. unfold I2. rewrite Rmult_1_r, Rmult_0_r. reflexivity.
Qed.

Lemma cy_setting sd : sd = "full"%string \/ sd = "2D"%string -> convergence_setting cy_E (cy_C sd) 2 cy_F cy_G 2 2 (/ 4) (3 / 4) (/ 4) 2 1 (/ 2).
Proof.
  intros Hsd. constructor; try reflexivity; try lra; try lia; try (split; [reflexivity|lra]).
  - intros k x Hx. apply two_vec in Hx as (a & b & ->). split; reflexivity.
  - intros x s Hx Hs. apply two_vec in Hx as (a & b & ->). apply two_vec in Hs as (c & d & ->).
    split; [reflexivity|]. unfold cy_F, cy_G. unfold rdot. cbn. rewrite Rabs_right; nra.
  - right. exact Hsd.
Qed.
Lemma cy_second sd : second_order cy_E (cy_C sd) 2 cy_F cy_G 2 1 cx_st cy_H.
Proof.
  constructor; try reflexivity; auto.
  - intros k x Hx. apply two_vec in Hx as (a & b & ->). reflexivity.
  - intros x _. split; [exact I2_mat|]. split; [exact I2_sym|]. split.
    + intros z Hz. unfold cy_H. rewrite I2_form by auto. pose proof (rdot_self_nonneg z). rewrite Rabs_right; lra.
    + split; intros _; split; try exact I2_posdef; [intros _; exact I2_solvable|exact I2_exact].
Qed.
Lemma cy_coarse sd : coarse (cy_C sd) 2 8.
Proof.
  assert (K1 : / IZR (2 ^ 26) <= 1) by (rewrite <- Rinv_1; apply Rinv_le_contravar; [lra|apply IZR_le; discriminate]).
  assert (K2 : / IZR (2 ^ 52) <= 1) by (rewrite <- Rinv_1; apply Rinv_le_contravar; [lra|apply IZR_le; discriminate]).
  split; intros _; lra.
Qed.
Lemma cy_start : 8 <= rnorm (cy_G [3; 4]).
Proof.
  unfold cy_G, rnorm, rdot. cbn. replace (2 * 3 * (2 * 3) + (2 * 4 * (2 * 4) + 0)) with (10 * 10) by ring. rewrite sqrt_square; lra.
Qed.
Lemma cy_radius_full : least_radius (cy_C "full") 2 2 (/ 4) (/ 4) 1 8 = 3 / 32.
Proof.
  unfold least_radius, kappa, chi, sigma. cbn [String.eqb Ascii.eqb Bool.eqb cy_C c_opts op_subspace_dim].
  rewrite (Rmin_left (/ 4) (1 / 4)) by lra. rewrite Rmin_right; lra.
Qed.
Lemma cy_radius_2d : least_radius (cy_C "2D") 2 2 (/ 4) (/ 4) 1 8 = 9 / 128.
Proof.
  unfold least_radius, kappa, chi, sigma. cbn [String.eqb Ascii.eqb Bool.eqb cy_C c_opts op_subspace_dim].
  rewrite (Rmin_left (/ 4) (1 / 4)) by lra. rewrite Rmin_right; lra.
Qed.
Example C56_ex_exact sd N : (sd = "full"%string /\ N = 536%nat) \/ (sd = "2D"%string /\ N = 951%nat) -> exists fval x g h st' xt r evals,
  minimize cy_E (cy_C sd) (S N) 1 (fv [3; 4]) None H0None cx_st = (Ok (fval, x, g, h), st')
  /\ o_flag st' = GTOL /\ (o_iter st' < Z.of_nat N)%Z
  /\ length xt = 2%nat /\ o_evals st' = evals ++ [(fv xt, r)] /\ gradient_of (cy_C sd) r = Some (fv (cy_G xt)) /\ rnorm (cy_G xt) <= 8.
Proof.
  intros Hsd. apply (C56_stationary_point_found cy_E (cy_C sd) 2 cy_F cy_G 2 2 (/ 4) (3 / 4) (/ 4) 2 1 (/ 2) 1 [3; 4] None H0None cx_st 8 cy_H 0 1 2 N (S N));
    try reflexivity; try lra; try lia; auto using cy_second, cy_coarse, cy_start.
  - apply cy_setting. tauto.
  - intros x _. unfold cy_F. nra.
  - cbn. lia.
  - destruct Hsd as [[-> _]|[-> _]]; rewrite ?cy_radius_full, ?cy_radius_2d; lra.
  - destruct Hsd as [[-> _]|[-> _]]; rewrite ?cy_radius_full, ?cy_radius_2d; lra.
  - unfold most_passes, least_decrease. destruct Hsd as [[-> ->]|[-> ->]]; rewrite ?cy_radius_full, ?cy_radius_2d, (INR_IZR_INZ);
      unfold cy_F, chi; cbn [String.eqb Ascii.eqb Bool.eqb cy_C c_opts op_subspace_dim nth]; cbn; lra.
Qed.
