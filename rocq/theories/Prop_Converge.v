(** C56: convergence of minimize on smooth problems without bounds (exact arithmetic; all three subspace solvers) *)
From Coq Require Import String ZArith List Bool Reals Lra Lia Psatz.
From Verif Require Import Num Constants Subproblem HessApprox Steps TrustRegion Minimize
  ER NumFacts MonadFacts MinFacts Spec Run RunInv RVec SubNd RShess Argmin Cand StepFacts Prop_Sub1d Prop_Pred Prop_Box
  Prop_Cand TRErr RealStep Prop_Grad Region Prop_CG Prop_Run Prop_Nudge Prop_BoxRun Prop_BoxRun2 HessDim Unbounded UnboundedFull Prop_TwoD Unbounded2D Converge.
Import ListNotations.
Local Open Scope R_scope.
Local Open Scope list_scope.

Section Conv.
  Variables (E : env ER) (C : cfg ER) (n : nat).
  Variables (F : rvec -> R) (G : rvec -> rvec) (L M mu eta g1 g2 D0 tm : R).
  Local Notation O := (c_opts C).

  (** no bounds; the objective reports the value F and the gradient G, whatever else it returns; documented ranges of the options *)
  Record convergence_setting : Prop := mkSetting {
    cs_n : (1 <= n)%nat;
    cs_lb : c_lb C = no_lb n;
    cs_ub : c_ub C = no_ub n;
    cs_obj : forall k x, length x = n ->
       value_of C (e_obj E k (fv x)) = Some (Fin (F x)) /\ gradient_of C (e_obj E k (fv x)) = Some (fv (G x));
    cs_smooth : smooth n L F G;
    cs_L : 0 <= L;
    cs_M : 0 < M;
    cs_solver : (op_subspace_dim O = "scg"%string /\ (n <= so_cgfuel (e_la E))%nat) \/ op_subspace_dim O = "full"%string \/ op_subspace_dim O = "2D"%string;
    cs_mu : op_mu O = Fin mu /\ 0 < mu;
    cs_eta : op_eta O = Fin eta /\ mu < eta /\ mu < 1;
    cs_g1 : op_gamma1 O = Fin g1 /\ 0 < g1 < 1;
    cs_g2 : op_gamma2 O = Fin g2 /\ 1 <= g2;
    cs_D0 : op_delta_init O = Fin D0 /\ 0 < D0;
    cs_tm : op_theta_max O = Fin tm /\ 0 < tm <= 1
  }.
  Hypothesis CS : convergence_setting.

  (** what the exact solvers need of a model Hessian: it is positive definite and the external linear algebra routines treat it
      exactly; the conjugate gradient solver needs nothing *)
  Definition usable (B : rmat) : Prop :=
    (op_subspace_dim O = "full"%string -> posdef n B /\ ((2 <= n)%nat -> solvable (so_sub (e_la E)) n B))
    /\ (op_subspace_dim O = "2D"%string -> posdef n B /\ exact_2d (e_la E) n B).
  (** a gradient tolerance the fixed numerical tolerances 2^-26 and 2^-52 of the exact solvers cannot obscure *)
  Definition coarse (eps : R) : Prop :=
    (op_subspace_dim O <> "scg"%string -> 4 * M * / IZR (2 ^ 26) <= eps) /\ (op_subspace_dim O = "2D"%string -> 2 * / IZR (2 ^ 52) <= eps).
  (** length of a step relative to the radius; decrease of the model relative to the best step along the gradient *)
  Definition sigma : R := if String.eqb (op_subspace_dim O) "scg" then 1 else 2.
  Definition chi : R := if String.eqb (op_subspace_dim O) "2D" then 3 / 4 else 1.
  Lemma sigma_ge : 1 <= sigma. Proof using. unfold sigma. destruct (String.eqb _ _); lra. Qed.
  Lemma chi_01 : 0 < chi <= 1. Proof using. unfold chi. destruct (String.eqb _ _); lra. Qed.

  (** the optimizer is at the point x *)
  Record at_point (s : opt ER) (x : rvec) : Prop := mkAt {
    ap_len : length x = n;
    ap_x : deref s (o_x s) = fv x;
    ap_f : o_fval s = Fin (F x);
    ap_g : o_grad s = fv (G x)
  }.

  Lemma G_len x : length x = n -> length (G x) = n.
  Proof using CS. intros Lx. destruct CS. apply (cs_smooth0 x x Lx Lx). Qed.

  (** the proposed step *)
  Lemma slack_bound delta nw N : 0 < delta -> N / (2 * M) <= nw -> nw <= delta + / IZR (2 ^ 26) -> 4 * M * / IZR (2 ^ 26) <= N -> 0 < M -> nw <= 2 * delta.
  Proof using.
    intros Hd H1 H2 H3 HM. assert (K : 2 * / IZR (2 ^ 26) <= N / (2 * M)); [|lra].
    apply (Rmult_le_reg_r (2 * M)); [lra|]. replace (N / (2 * M) * (2 * M)) with N by (field; lra). lra.
  Qed.
  Lemma step_exists s x B delta : at_point s x -> is_mat n n B -> symmetric B -> o_hess s = fm B -> o_delta s = Fin delta -> 0 < delta ->
    nonzero (G x) -> curvature_le n M B -> usable B -> coarse (rnorm (G x)) ->
    exists sp w, proposes E C s sp
      /\ length w = n /\ trial_point s sp = fv (radd x w) /\ vadd (st_ss sp) (st_ss0 sp) = fv w /\ st_qpval sp = Fin (qmodel B (G x) w)
      /\ rnorm w <= sigma * delta
      /\ chi * (rnorm (G x) / 2 * Rmin delta (rnorm (G x) / M)) <= - qmodel B (G x) w
      /\ scaling_derivative C s = fv (rzeros n).
  Proof using CS.
    intros [Lx Ex Ef Eg] MB SB EB Ed Hd Hnz HB HU HC. pose proof (G_len x Lx) as LG. destruct CS.
    destruct cs_tm0 as [Etm Htm].
    destruct (affine_free n x (G x) Lx LG) as (v & Lv & Ev & Fv).
    unfold proposes, trial_point, scaling_derivative. cbv zeta. rewrite Ex, Eg, EB, Ed, cs_lb0, cs_ub0, Ev.
    rewrite (scaling_free n) by auto. rewrite (dv_free n) by auto.
    destruct (theta_free tm v (G x)) as (t & Et & Ht); auto; try lia; try lra.
    rewrite Etm, Et. specialize (Ht (proj2 Htm)).
    assert (NG : 0 < rnorm (G x)) by (apply rnorm_pos, nonzero_dot, Hnz).
    assert (K : exists c w, trust_region (e_la E) (fv x) (fv (G x)) (fm B) (fv (rones n)) (Fin delta) (fv (rzeros n)) (Fin t) (no_lb n) (no_ub n)
                  (op_subspace_dim O) (op_stepback O) = Ok c
      /\ free_step n (G x) B c w /\ rnorm w <= sigma * delta
      /\ chi * (rnorm (G x) / 2 * Rmin delta (rnorm (G x) / M)) <= - qmodel B (G x) w).
    { destruct HU as [HU1 HU2], HC as [HC1 HC2]. unfold sigma, chi. destruct cs_solver0 as [[Esd Hfu]|[Esd|Esd]]; rewrite Esd in *; cbn [String.eqb Ascii.eqb Bool.eqb].
      - destruct (free_scg (e_la E) n x (G x) B delta t) with (strat := op_stepback O) as (c & w & E1 & _ & E2 & E3 & E4); auto.
        exists c, w. split; [exact E1|]. split; [exact E2|]. split; [lra|]. rewrite Rmult_1_l. apply (cauchy_decrease n B); auto.
      - destruct (HU1 eq_refl) as [PB Hs]. specialize (HC1 ltac:(discriminate)).
        destruct (free_full (e_la E) n x (G x) B delta t) with (strat := op_stepback O) as (c & w & E1 & _ & E2 & E3 & E4 & E5); auto.
        exists c, w. split; [exact E1|]. split; [exact E2|]. destruct E2 as [Lw _ _ _ _]. split.
        + destruct E5 as [E5|E5]; [lra|]. apply (slack_bound delta (rnorm w) (rnorm (G x))); auto. apply (minimizer_long n B); auto. intros a. apply E5. rlen.
        + rewrite Rmult_1_l. apply (cauchy_decrease n B); auto. intros a Ha. apply E4; [rlen|exact Ha].
      - destruct (HU2 eq_refl) as [PB Hs]. specialize (HC1 ltac:(discriminate)). specialize (HC2 eq_refl).
        destruct (free_2d (e_la E) n x (G x) B delta t) with (strat := op_stepback O) as (c & w & E1 & _ & E2 & E3 & E4 & E5 & _); auto.
        exists c, w. split; [exact E1|]. split; [exact E2|]. destruct E2 as [Lw _ _ _ _]. split.
        + destruct E5 as [E5|E5]; [lra|]. apply (slack_bound delta (rnorm w) (rnorm (G x))); auto. apply (minimizer_long n B); auto.
        + destruct E4 as [E4|(u & U1 & U2 & U3 & U4)].
          * assert (K : rnorm (G x) / 2 * Rmin delta (rnorm (G x) / M) <= - qmodel B (G x) w) by (apply (cauchy_decrease n B); auto).
            assert (0 <= Rmin delta (rnorm (G x) / M)).
            { apply Rmin_glb; [lra|]. apply Rmult_le_pos; [lra|left; now apply Rinv_0_lt_compat]. }
            assert (0 <= rnorm (G x) / 2 * Rmin delta (rnorm (G x) / M)) by (apply Rmult_le_pos; lra). lra.
          * apply (cauchy_near n B (G x) u _ e52); auto. }
    destruct K as (c & w & E1 & [L1 S1 S2 S3 S4] & N1 & N2). exists c, w. split.
    { split; [exact E1|]. rewrite S1, S2, !fv_length, rzeros_length, Lx. auto. }
    split; [exact L1|]. split.
    { rewrite S1, S2, !h_vadd. f_equal. apply rvec_ext; rewrite ?radd_length; rewrite ?radd_length; rewrite ?rzeros_length; try congruence.
      intros i. rewrite !nth_radd; rewrite ?radd_length; rewrite ?rzeros_length; try congruence. rewrite nth_rzeros. ring. }
    auto.
  Qed.
  Lemma proposal s x B delta sp : at_point s x -> is_mat n n B -> symmetric B -> o_hess s = fm B -> o_delta s = Fin delta -> 0 < delta ->
    nonzero (G x) -> curvature_le n M B -> usable B -> coarse (rnorm (G x)) -> proposes E C s sp ->
    exists w, length w = n /\ trial_point s sp = fv (radd x w) /\ vadd (st_ss sp) (st_ss0 sp) = fv w /\ st_qpval sp = Fin (qmodel B (G x) w)
      /\ rnorm w <= sigma * delta
      /\ chi * (rnorm (G x) / 2 * Rmin delta (rnorm (G x) / M)) <= - qmodel B (G x) w
      /\ scaling_derivative C s = fv (rzeros n).
  Proof using CS.
    intros Ha MB SB EB Ed Hd Hnz HB HU HC Hp. destruct (step_exists s x B delta Ha MB SB EB Ed Hd Hnz HB HU HC) as (sp' & w & Hp' & K).
    assert (sp' = sp) as -> by (destruct Hp as [P1 _], Hp' as [Q1 _]; rewrite P1 in Q1; now apply Ok_inj in Q1).
    exists w. exact K.
  Qed.
  Lemma proposal_exists s x B delta : at_point s x -> is_mat n n B -> symmetric B -> o_hess s = fm B -> o_delta s = Fin delta -> 0 < delta ->
    nonzero (G x) -> curvature_le n M B -> usable B -> coarse (rnorm (G x)) -> exists sp, proposes E C s sp.
  Proof using CS.
    intros Ha MB SB EB Ed Hd Hnz HB HU HC. destruct (step_exists s x B delta Ha MB SB EB Ed Hd Hnz HB HU HC) as (sp & w & Hp & _). eauto.
  Qed.
  Lemma coarse_le eps N : coarse eps -> eps <= N -> coarse N.
  Proof using. intros [H1 H2] Hl. split; intros K; [specialize (H1 K)|specialize (H2 K)]; lra. Qed.

  (** the ratio of actual and predicted decrease *)
  Definition rho (x w : rvec) (B : rmat) : R := (F x - F (radd x w)) / (- qmodel B (G x) w).
  Definition new_delta (x w : rvec) (B : rmat) (delta : R) : R :=
    if Rleb eta (rho x w B) && negb (Rltb (rnorm w) (delta * (9 / 10))) then g2 * delta
    else if Rleb (rho x w B) mu then Rmin (delta * g1) (rnorm w / 4) else delta.

  Lemma actual_free sp w f v g : length w = n -> length g = n -> vadd (st_ss sp) (st_ss0 sp) = fv w ->
    actual_decrease sp (fv (rzeros n)) (Fin f) (Fin v) (fv g) = Fin (f - v).
  Proof using.
    intros Lw Lg Es. unfold actual_decrease. cbv zeta. rewrite Es, h_vabs, !h_vmul, h_dot, half_fin.
    cbn [nsub ERNum er_sub er_opp er_add nmul er_mul]. f_equal.
    assert (Z : rmul (rmul (rzeros n) (rabsv g)) w = rzeros n).
    { assert (La : length (rabsv g) = n) by now rewrite rabsv_length.
      apply rvec_ext; [rewrite (rmul_length _ _ n); rewrite ?(rmul_length _ _ n); auto using rzeros_length; now rewrite rzeros_length|].
      intros i. rewrite (nth_rmul _ _ n); rewrite ?(rmul_length _ _ n); auto using rzeros_length.
      rewrite (nth_rmul _ _ n) by auto using rzeros_length. rewrite !nth_rzeros. ring. }
    rewrite Z, rdot_zeros_r. ring.
  Qed.
  Lemma ratio_free sp s x w B : at_point s x -> length w = n -> vadd (st_ss sp) (st_ss0 sp) = fv w -> st_qpval sp = Fin (qmodel B (G x) w) ->
    qmodel B (G x) w < 0 -> scaling_derivative C s = fv (rzeros n) ->
    tr_ratio_of C s sp (Fin (F (radd x w))) (fv (G (radd x w))) = Fin (rho x w B)
    /\ accepts C s sp (Fin (F (radd x w))) (fv (G (radd x w))) = Rltb 0 (rho x w B).
  Proof using CS.
    intros [Lx Ex Ef Eg] Lw Es Eq Hq Hsd.
    assert (Lt : length (radd x w) = n) by rlen.
    unfold tr_ratio_of, accepts, predicted_decrease. rewrite Hsd, Ef, Eq, (actual_free sp w) by (auto; now apply G_len).
    cbn [nopp ERNum er_opp nisfin er_isfin negb nleb er_leb n0 nofZ nltb er_ltb ndiv er_div andb].
    destruct (Rleb_spec (- qmodel B (G x) w) 0); [lra|]. destruct (Rltb_spec 0 (- qmodel B (G x) w)); [|lra].
    destruct (Reqb_spec (- qmodel B (G x) w) 0); [lra|]. split; reflexivity.
  Qed.
  Lemma radius_free sp w v r delta : 0 < delta -> vadd (st_ss sp) (st_ss0 sp) = fv w ->
    radius_rule C (Fin delta) (Fin r) sp (Fin v)
    = Fin (if Rleb eta r && negb (Rltb (rnorm w) (delta * (9 / 10))) then g2 * delta
           else if Rleb r mu then Rmin (delta * g1) (rnorm w / 4) else delta).
  Proof using CS.
    intros Hd Es. destruct CS. destruct cs_mu0 as [Em _], cs_eta0 as [Ee _], cs_g3 as [E1 _], cs_g4 as [E2 _].
    unfold radius_rule, scaled_length. rewrite Es, h_norm, Em, Ee, E1, E2, (frac_fin 9 10) by lia.
    cbn [nisfin ERNum er_isfin andb negb orb nleb er_leb nltb er_ltb nmul er_mul].
    destruct (Rleb eta r && negb (Rltb (rnorm w) (delta * (9 / 10)))); [reflexivity|].
    destruct (Rleb r mu); [|reflexivity].
    assert (E4 : (Fin (rnorm w) / nofZ 4)%num = Fin (rnorm w / 4)).
    { cbn [ndiv ERNum er_div nofZ]. destruct (Reqb_spec 4 0); [lra|reflexivity]. }
    rewrite E4. unfold nanmin2. cbn [nisnan ERNum er_isnan nltb er_ltb].
    unfold Rmin. destruct (Rltb_spec (rnorm w / 4) (delta * g1)), (Rle_dec (delta * g1) (rnorm w / 4)); try reflexivity; try lra; f_equal; lra.
  Qed.

  Section Head.
  Variables (ndim : nat) (x0 : rvec) (sid : option string) (h0 : hess0_arg ER) (st : opt ER).
  Local Notation head := (loop_head E C ndim (fv x0) sid h0 st).

  (** one pass *)
  Lemma pass f s s1 f' s' x B delta : head f s -> check_continue E C s = (Ok true, s1) -> iteration E C f s1 = (Ok f', s') ->
    at_point s x -> is_mat n n B -> symmetric B -> o_hess s = fm B -> o_delta s = Fin delta -> 0 < delta -> nonzero (G x) ->
    curvature_le n M B -> usable B -> coarse (rnorm (G x)) ->
    exists w, length w = n /\ rnorm w <= sigma * delta
      /\ chi * (rnorm (G x) / 2 * Rmin delta (rnorm (G x) / M)) <= - qmodel B (G x) w
      /\ o_delta s' = Fin (new_delta x w B delta)
      /\ at_point s' (if Rltb 0 (rho x w B) then radd x w else x)
      /\ o_iter s' = (o_iter s + 1)%Z
      /\ exists sp, proposes E C s sp /\ trial_point s sp = fv (radd x w)
         /\ accepts C s sp (Fin (F (radd x w))) (fv (G (radd x w))) = Rltb 0 (rho x w B)
         /\ o_evals s' = o_evals s ++ [(fv (radd x w), e_obj E (length (o_evals s)) (fv (radd x w)))].
  Proof using CS.
    intros HL Hc Hi Ha MB SB EB Ed Hd Hnz HB HU HCo.
    pose proof (G_len x (ap_len _ _ Ha)) as LG.
    destruct (C15_pass E C ndim (fv x0) sid h0 st f s s1 f' s' HL Hc Hi) as (sp & r & v & g & P1 & P2 & P3 & P4 & P5 & P6).
    destruct (C14_radius_rule E C ndim (fv x0) sid h0 st f s s1 f' s' HL Hc Hi) as (sp2 & r2 & v2 & g2' & Q1 & Q2 & Q3 & Q4 & Q5 & Q6).
    assert (sp2 = sp) as -> by (destruct P1 as [P1 _], Q1 as [Q1 _]; rewrite P1 in Q1; now apply Ok_inj in Q1).
    assert (r2 = r) as ->.
    { rewrite P2 in Q2. apply app_inv_head in Q2. injection Q2. auto. }
    rewrite P4 in Q3. injection Q3 as <-. rewrite P5 in Q4. injection Q4 as <-.
    destruct (proposal s x B delta sp Ha MB SB EB Ed Hd Hnz HB HU HCo P1) as (w & Lw & T1 & T2 & T3 & T4 & Cd & T6).
    assert (NG : 0 < rnorm (G x)) by (apply rnorm_pos, nonzero_dot, Hnz).
    assert (HM : 0 < M) by (destruct CS; auto).
    pose proof chi_01 as Hchi.
    assert (Hq : qmodel B (G x) w < 0).
    { assert (0 < Rmin delta (rnorm (G x) / M)) by (apply Rmin_glb_lt; [lra|apply Rmult_lt_0_compat; [lra|now apply Rinv_0_lt_compat]]).
      assert (0 < chi * (rnorm (G x) / 2 * Rmin delta (rnorm (G x) / M))) by (apply Rmult_lt_0_compat; [lra|apply Rmult_lt_0_compat; lra]). lra. }
    assert (Lt : length (radd x w) = n) by (destruct Ha; rlen).
    destruct CS. rewrite P3, T1 in P4, P5. destruct (cs_obj0 (length (o_evals s)) (radd x w) Lt) as [O1 O2].
    rewrite O1 in P4. injection P4 as <-. rewrite O2 in P5. injection P5 as <-.
    destruct (ratio_free sp s x w B Ha Lw T2 T3 Hq T6) as [R1 R2].
    exists w. split; [exact Lw|]. split; [exact T4|]. split; [exact Cd|]. split.
    { rewrite Q6, R1, Ed. unfold new_delta. now apply radius_free. }
    split; [|split].
    2:{ apply check_continue_true in Hc as (-> & _). apply iteration_ok in Hi as (sp' & fn & K). apply (ik_iter _ _ _ _ _ _ _ _ K). }
    2:{ exists sp. split; [exact P1|]. split; [exact T1|]. split; [exact R2|]. rewrite P2, P3, T1. reflexivity. }
    rewrite R2 in P6. destruct (Rltb 0 (rho x w B)).
    - destruct P6 as (A1 & A2 & A3 & A4). constructor; auto. rewrite A3, T1. now apply (nudge_free C n).
    - destruct P6 as (A1 & A2 & _ & _ & A3 & A4 & _). destruct Ha as [Lx Ex Ef Eg]. constructor; auto; congruence.
  Qed.

  (** *** counting the passes *)
  (** heads of the main loop reached while the gradient at every earlier head had norm at least [eps] *)
  Inductive steep_run (eps : R) : fout ER -> opt ER -> Prop :=
  | sr_start f s : prepare E C ndim (fv x0) sid h0 st = (Ok f, s) -> steep_run eps f s
  | sr_next f s s1 f' s' :
      steep_run eps f s -> nleb (Fin eps) (norm (o_grad s)) = true ->
      check_continue E C s = (Ok true, s1) -> iteration E C f s1 = (Ok f', s') -> steep_run eps f' s'.
  Lemma steep_head eps f s : steep_run eps f s -> head f s.
  Proof using. induction 1; [now apply lh_start|eapply lh_next; eauto]. Qed.

  (** the radius never falls below this value; the decrease every successful pass achieves *)
  Definition least_radius (eps : R) : R := Rmin D0 (Rmin g1 (1 / 4) * kappa chi sigma L M eps mu).
  Definition least_decrease (eps : R) : R := chi * mu * (eps / 2) * least_radius eps.

  Lemma least_radius_pos eps : 0 < eps -> 0 < least_radius eps.
  Proof using CS.
    intros He. unfold least_radius. destruct CS. apply Rmin_glb_lt; [apply cs_D1|].
    apply Rmult_lt_0_compat; [apply Rmin_glb_lt; [apply cs_g3|lra]|]. apply kappa_pos; auto using chi_01, sigma_ge; lra.
  Qed.
  Lemma least_radius_le eps : 0 < eps -> least_radius eps <= D0 /\ least_radius eps <= g1 * kappa chi sigma L M eps mu
    /\ least_radius eps <= / 4 * kappa chi sigma L M eps mu /\ least_radius eps <= kappa chi sigma L M eps mu.
  Proof using CS.
    intros He. unfold least_radius. destruct CS. destruct cs_g3 as [_ H1].
    assert (K : 0 < kappa chi sigma L M eps mu) by (apply kappa_pos; auto using chi_01, sigma_ge; lra).
    pose proof (Rmin_l D0 (Rmin g1 (1 / 4) * kappa chi sigma L M eps mu)). pose proof (Rmin_r D0 (Rmin g1 (1 / 4) * kappa chi sigma L M eps mu)).
    pose proof (Rmin_l g1 (1 / 4)). pose proof (Rmin_r g1 (1 / 4)).
    assert (Rmin g1 (1 / 4) * kappa chi sigma L M eps mu <= g1 * kappa chi sigma L M eps mu) by (apply Rmult_le_compat_r; lra).
    assert (Rmin g1 (1 / 4) * kappa chi sigma L M eps mu <= / 4 * kappa chi sigma L M eps mu) by (apply Rmult_le_compat_r; lra).
    split; [lra|]. split; [lra|]. split; lra.
  Qed.

  Lemma start_point f s : length x0 = n -> prepare E C ndim (fv x0) sid h0 st = (Ok f, s) ->
    at_point s x0 /\ o_iter s = 0%Z /\ o_delta s = Fin D0.
  Proof using CS.
    intros Lx H. pose proof (prepare_delta E C _ _ _ _ _ _ _ H) as Hd.
    assert (Hdl : o_delta s = Fin D0) by (rewrite Hd; destruct CS; apply cs_D1).
    apply prepare_inv in H. inversion H as [| | | | | |pf hess h' f1 D1 D2 D3 D4 D5 D6 D7 Ef Es0]. subst f1.
    assert (Hnx : nudge C (fv x0) = fv x0) by (destruct CS; now apply (nudge_free C n)).
    destruct (value_typed C _ _ _ _ _ D3 D6) as [Hv Hg].
    unfold pr_ret in Hv, Hg. rewrite Hnx in Hv, Hg.
    destruct CS. destruct (cs_obj0 (length (o_evals st)) x0 Lx) as [O1 O2]. rewrite O1 in Hv. rewrite O2 in Hg.
    injection Hv as Hv. injection Hg as Hg.
    rewrite Es0. split; [|split; [|exact Hdl]].
    - constructor.
      + exact Lx.
      + rewrite <- Es0. transitivity (nudge C (fv x0)); [|exact Hnx].
        unfold deref, pr_s4. destruct better; unfold pr_s3, pr_s2, pr_s1, pr_s0; destruct pr_id; apply nth_middle.
      + rewrite <- Es0, Hv. unfold pr_s4. destruct better; reflexivity.
      + rewrite <- Es0, Hg. unfold pr_s4. destruct better; reflexivity.
    - rewrite <- Es0. unfold pr_s4. destruct better; unfold pr_s3, pr_s2, pr_s1, pr_s0; destruct pr_id; reflexivity.
  Qed.

  (** the model Hessian is a symmetric matrix with curvature at most M at every such head of the loop *)
  Definition bounded_hessians (eps : R) : Prop :=
    forall f s, steep_run eps f s -> exists B, o_hess s = fm B /\ is_mat n n B /\ symmetric B /\ curvature_le n M B /\ usable B.

  (** one pass with a steep gradient *)
  Lemma steep_pass eps x w B delta :
    0 < eps -> length x = n -> length w = n -> curvature_le n M B -> 0 < delta -> rnorm w <= sigma * delta ->
    eps <= rnorm (G x) -> least_radius eps <= delta ->
    chi * (rnorm (G x) / 2 * Rmin delta (rnorm (G x) / M)) <= - qmodel B (G x) w ->
    (mu < rho x w B /\ F (radd x w) <= F x - least_decrease eps /\ delta <= new_delta x w B delta <= g2 * delta)
    \/ (rho x w B <= mu /\ (0 < rho x w B -> F (radd x w) <= F x)
        /\ least_radius eps <= new_delta x w B delta <= g1 * delta).
  Proof using CS.
    intros He Lx Lw HB Hd Hw Hg Hld Hp. pose proof (least_radius_le eps He) as (K1 & K2 & K3 & K4).
    pose proof (least_radius_pos eps He) as K0.
    pose proof (model_error n L M F G B x w) as Me.
    destruct CS. destruct cs_mu0 as [_ Hmu], cs_eta0 as (_ & Heta & Hmu1), cs_g3 as [_ H1], cs_g4 as [_ H2].
    specialize (Me cs_smooth0 HB Lx Lw). rewrite <- rnorm_sq in Me.
    assert (Kk : kappa chi sigma L M eps mu <= eps / M) by (apply kappa_le; auto using chi_01, sigma_ge; lra).
    assert (Pm : least_radius eps <= Rmin delta (rnorm (G x) / M)).
    { apply Rmin_glb; [exact Hld|]. assert (eps / M <= rnorm (G x) / M); [|lra].
      apply Rmult_le_compat_r; [left; now apply Rinv_0_lt_compat|lra]. }
    pose proof chi_01 as Hchi.
    assert (Pp : chi * (eps / 2 * least_radius eps) <= - qmodel B (G x) w).
    { eapply Rle_trans; [|exact Hp]. apply Rmult_le_compat_l; [lra|]. apply Rmult_le_compat; lra. }
    assert (P0 : 0 < - qmodel B (G x) w).
    { eapply Rlt_le_trans; [|exact Pp]. apply Rmult_lt_0_compat; [lra|]. apply Rmult_lt_0_compat; lra. }
    assert (Er : rho x w B * (- qmodel B (G x) w) = F x - F (radd x w)) by (unfold rho; field; lra).
    set (pred := - qmodel B (G x) w) in *. set (r := rho x w B) in *.
    unfold new_delta. fold r. destruct (Rlt_dec mu r) as [Hr|Hr].
    - left. split; [exact Hr|]. split.
      { unfold least_decrease. assert (mu * (chi * (eps / 2 * least_radius eps)) <= r * pred); [|lra].
        apply Rmult_le_compat; try lra. apply Rmult_le_pos; [lra|]. apply Rmult_le_pos; lra. }
      destruct (Rleb eta r && negb (Rltb (rnorm w) (delta * (9 / 10)))); [nra|].
      destruct (Rleb_spec r mu); [lra|nra].
    - right. split; [lra|]. split; [intros; nra|].
      destruct (Rleb_spec eta r); [lra|]. cbn [andb].
      destruct (Rleb_spec r mu); [|lra].
      assert (Hf : (1 - mu) * pred <= (L + M) / 2 * (rnorm w * rnorm w)).
      { assert (F (radd x w) - F x = - (r * pred)) by lra. unfold pred in *. nra. }
      destruct (failure_bounds chi sigma L M eps mu) with (N := rnorm (G x)) (pred := pred) (delta := delta) (nw := rnorm w) as [B1 B2]; auto using sigma_ge; try lra.
      { split; [apply rnorm_nonneg|lra]. }
      split; [apply Rmin_glb; nra|]. eapply Rle_trans; [apply Rmin_l|lra].
  Qed.

  Lemma steep_inv eps f s : 0 < eps -> coarse eps -> length x0 = n -> bounded_hessians eps -> steep_run eps f s ->
    exists x delta (S U : nat), at_point s x /\ o_delta s = Fin delta /\ o_iter s = Z.of_nat (S + U)
      /\ least_radius eps <= delta /\ delta <= D0 * g2 ^ S * g1 ^ U /\ F x <= F x0 - INR S * least_decrease eps.
  Proof using CS.
    intros He Hco Lx HH HR. induction HR as [f s Hp|f s s1 f' s' HR IH Hst Hc Hi].
    - destruct (start_point f s Lx Hp) as (H1 & H2 & H3). exists x0, D0, 0%nat, 0%nat.
      pose proof (least_radius_le eps He) as (K1 & _). cbn [INR pow].
      split; [exact H1|]. split; [exact H3|]. split; [exact H2|]. split; [exact K1|]. split; lra.
    - destruct IH as (x & delta & S & U & Ha & Ed & Ei & Hl & Hu & HF).
      pose proof (least_radius_pos eps He) as K0.
      destruct (HH f s HR) as (B & EB & MB & SB & HB & HU).
      rewrite (ap_g _ _ Ha), h_norm in Hst. cbn [nleb ERNum er_leb] in Hst.
      assert (Hg : eps <= rnorm (G x)) by (destruct (Rleb_spec eps (rnorm (G x))); [lra|discriminate]).
      assert (Hnz : nonzero (G x)) by (apply nonzero_dot; rewrite <- rnorm_sq; nra).
      destruct (pass f s s1 f' s' x B delta (steep_head _ _ _ HR) Hc Hi Ha MB SB EB Ed ltac:(lra) Hnz HB HU (coarse_le _ _ Hco Hg))
        as (w & Lw & Nw & Pw & Dw & Aw & Iw & _).
      destruct (steep_pass eps x w B delta He (ap_len _ _ Ha) Lw HB ltac:(lra) Nw Hg Hl Pw)
        as [(Hr & Hd & Hn1 & Hn2)|(Hr & Hd & Hn1 & Hn2)].
      + destruct CS. exists (radd x w), (new_delta x w B delta), (Datatypes.S S), U.
        destruct (Rltb_spec 0 (rho x w B)); [|destruct cs_mu0; lra].
        split; [exact Aw|]. split; [exact Dw|]. split; [rewrite Iw, Ei; lia|]. split; [lra|]. rewrite S_INR. split; [|lra].
        cbn [pow]. destruct cs_g4 as [_ H2]. assert (g2 * delta <= g2 * (D0 * g2 ^ S * g1 ^ U)) by (apply Rmult_le_compat_l; lra). lra.
      + destruct CS. destruct cs_g3 as [_ H1].
        exists (if Rltb 0 (rho x w B) then radd x w else x), (new_delta x w B delta), S, (Datatypes.S U).
        split; [exact Aw|]. split; [exact Dw|]. split; [rewrite Iw, Ei; lia|]. split; [exact Hn1|]. split.
        * cbn [pow]. assert (g1 * delta <= g1 * (D0 * g2 ^ S * g1 ^ U)) by (apply Rmult_le_compat_l; lra). lra.
        * destruct (Rltb_spec 0 (rho x w B)); [|lra]. specialize (Hd r). lra.
  Qed.

  (** the number of passes with gradient norm at least eps is bounded by a number that depends on the constants only *)
  Definition most_passes (eps Fl : R) (p q : nat) : R := INR q + INR (p + 1) * ((F x0 - Fl) / least_decrease eps).

  Theorem C56_steep_passes_bounded eps Fl p q f s :
    0 < eps -> coarse eps -> length x0 = n -> bounded_hessians eps -> (forall x, length x = n -> Fl <= F x) ->
    g2 * g1 ^ p <= 1 -> D0 * g1 ^ q < least_radius eps ->
    steep_run eps f s -> IZR (o_iter s) < most_passes eps Fl p q.
  Proof using CS.
    intros He Hco Lx HH HF Hp Hq HR. destruct (steep_inv eps f s He Hco Lx HH HR) as (x & delta & S & U & Ha & Ed & Ei & Hl & Hu & Hd).
    pose proof (least_radius_pos eps He) as K0.
    assert (Hc : 0 < least_decrease eps).
    { unfold least_decrease. destruct CS. destruct cs_mu0. pose proof chi_01. apply Rmult_lt_0_compat; [apply Rmult_lt_0_compat; [apply Rmult_lt_0_compat|]; lra|exact K0]. }
    assert (HU : (U < q + p * S)%nat).
    { destruct CS. destruct cs_g3, cs_g4, cs_D1. apply (count_failures g1 g2 D0 (least_radius eps)); auto. lra. }
    assert (HS : INR S <= (F x0 - Fl) / least_decrease eps).
    { apply (Rmult_le_reg_r (least_decrease eps)); [exact Hc|]. unfold Rdiv. rewrite Rmult_assoc, Rinv_l by lra.
      specialize (HF x (ap_len _ _ Ha)). lra. }
    rewrite Ei, <- INR_IZR_INZ. unfold most_passes.
    apply (Rlt_le_trans _ (INR (q + (p + 1) * S))); [apply lt_INR; lia|]. rewrite plus_INR, mult_INR.
    apply Rplus_le_compat_l. apply Rmult_le_compat_l; [apply pos_INR|exact HS].
  Qed.
  End Head.
End Conv.
