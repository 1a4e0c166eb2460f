(** C69: near a nondegenerate minimizer minimize takes Newton steps, all of them are accepted, and the error is squared by every
    iteration (exact arithmetic, no bounds, exact Hessians, the exact subspace solvers) *)
From Coq Require Import String ZArith List Bool Reals Lra Lia Psatz.
From Verif Require Import Num Constants Subproblem HessApprox Steps TrustRegion Minimize
  ER NumFacts MonadFacts MinFacts Spec Run RunInv RunFrame RVec SubNd RShess Argmin Cand StepFacts Prop_Sub1d Prop_Pred Prop_Box
  Prop_Cand TRErr RealStep Prop_Grad Region Prop_CG Prop_Run Prop_Run2 Prop_Nudge Prop_BoxRun Prop_BoxRun2 HessDim Ortho Prop_SubNd Unbounded UnboundedFull Prop_TwoD Unbounded2D Converge Prop_Converge Prop_Converge2
  Prop_Quadratic Newton.
Import ListNotations.
Local Open Scope R_scope.
Local Open Scope list_scope.

Record newton_setting (E : env ER) (C : cfg ER) (n : nat) (F : rvec -> R) (G : rvec -> rvec) (H : rvec -> rmat) (xs : rvec) (m K rho : R)
  (mu eta g1 g2 D0 tm : R) (ndim : nat) (st : opt ER) : Prop := mkNewton {
  ns_n : (1 <= n)%nat;
  (* no bounds *)
  ns_lb : c_lb C = no_lb n;
  ns_ub : c_ub C = no_ub n;
  (* the objective returns value, gradient and a symmetric Hessian *)
  ns_obj : forall k x, length x = n -> e_obj E k (fv x) = RTuple [PScal (Fin (F x)); PVec (fv (G x)); PMat n (fm (H x))];
  ns_shape : forall x, length x = n -> length (G x) = n /\ is_mat n n (H x) /\ symmetric (H x);
  ns_args : c_nargout C = 3%nat /\ c_resfun C = false;
  ns_happ : o_happ st = None;
  ns_dim : (ndim <= 1)%nat;
  ns_nohist : op_history (c_opts C) = None;
  (* xs is a nondegenerate minimizer *)
  ns_min : nondegenerate n F G H xs m K rho;
  (* an exact solver, with external linear algebra that is exact for the Hessians near xs *)
  ns_solver : (op_subspace_dim (c_opts C) = "full"%string /\ ((2 <= n)%nat -> forall x, near n xs rho x -> solvable (so_sub (e_la E)) n (H x)))
              \/ (op_subspace_dim (c_opts C) = "2D"%string /\ forall x, near n xs rho x -> exact_2d (e_la E) n (H x));
  (* documented ranges of the options *)
  ns_mu : op_mu (c_opts C) = Fin mu /\ 0 < mu < 1;
  ns_eta : op_eta (c_opts C) = Fin eta /\ mu < eta;
  ns_g1 : op_gamma1 (c_opts C) = Fin g1 /\ 0 < g1 < 1;
  ns_g2 : op_gamma2 (c_opts C) = Fin g2 /\ 1 <= g2;
  ns_D0 : op_delta_init (c_opts C) = Fin D0 /\ 0 < D0;
  ns_tm : op_theta_max (c_opts C) = Fin tm /\ 0 < tm <= 1
}.

(** close enough for Newton's method: the quadratic term is at most half of the error (and small enough for the decrease ratio to
    exceed mu), and the trust region has room for the Newton step *)
Definition close (n : nat) (xs : rvec) (m K rho mu : R) (x : rvec) (delta : R) : Prop :=
  near n xs rho x /\ K / (2 * m) * rnorm (rsub x xs) <= / 2 /\ K / (2 * m) * rnorm (rsub x xs) < 1 - mu /\ 3 / 2 * rnorm (rsub x xs) <= delta.

(** a pass that changes the value and does not converge leaves a gradient above the tolerance *)
Lemma unconverged_grad {T} {N : Num T} (E : env T) (C : cfg T) f s f' s' :
  iteration E C f s = (Ok f', s') -> o_conv s' = false -> o_fval s' <> o_fval s ->
  (norm (o_grad s') <=? op_gatol (c_opts C))%num = false.
Proof.
  intros Hi Hc Hne. apply iteration_ok in Hi as (sp & fn & K). rewrite (ik_conv _ _ _ _ _ _ _ _ K) in Hc. rewrite (ik_grad _ _ _ _ _ _ _ _ K).
  rewrite (ik_fval _ _ _ _ _ _ _ _ K) in Hne.
  destruct (it_acc E C s sp fn); [|congruence]. unfold conv_result in Hc.
  destruct (_ && _) in Hc; [discriminate|]. destruct (_ && _) in Hc; [discriminate|].
  destruct (_ <=? _)%num in Hc |- *; [discriminate|reflexivity].
Qed.

Section Run.
  Variables (E : env ER) (C : cfg ER) (n : nat) (F : rvec -> R) (G : rvec -> rvec) (H : rvec -> rmat) (xs : rvec) (m K rho mu eta g1 g2 D0 tm : R).
  Variables (ndim : nat) (x0 : rvec) (sid : option string) (h0 : hess0_arg ER) (st : opt ER).
  Local Notation O := (c_opts C).
  Hypothesis NS : newton_setting E C n F G H xs m K rho mu eta g1 g2 D0 tm ndim st.
  Hypothesis Lx0 : length x0 = n.
  Local Notation head := (loop_head E C ndim (fv x0) sid h0 st).
  Local Notation at_point := (at_point n F G).
  Local Notation near := (near n xs rho).
  Local Notation close := (close n xs m K rho mu).
  Local Notation err x := (rnorm (rsub x xs)).

  Lemma ne_free : (1 <= n)%nat /\ c_lb C = no_lb n /\ c_ub C = no_ub n.
  Proof using NS. destruct NS; auto. Qed.
  Lemma ne_shape x : length x = n -> length (G x) = n /\ is_mat n n (H x) /\ symmetric (H x).
  Proof using NS. apply NS. Qed.
  Lemma ne_min : nondegenerate n F G H xs m K rho.
  Proof using NS. apply NS. Qed.
  Lemma ne_lxs : length xs = n.
  Proof using NS. apply ne_min. Qed.

  (** *** evaluation *)
  Lemma ne_eval k x : length x = n ->
    fun_evaluate (c_nargout C) (c_resfun C) (e_obj E k (fv x)) = Ok (mkPyfun (PScal (Fin (F x))) (PVec (fv (G x))) (PMat n (fm (H x))) [] []).
  Proof using NS. intros Lx. pose proof (ns_args _ _ _ _ _ _ _ _ _ _ _ _ _ _ _ _ _ _ NS) as [A1 A2]. rewrite (ns_obj _ _ _ _ _ _ _ _ _ _ _ _ _ _ _ _ _ _ NS), A1, A2 by auto. reflexivity. Qed.
  Lemma ne_typed x h : length x = n ->
    typed_fout n (mkPyfun (PScal (Fin (F x))) (PVec (fv (G x))) (PMat n (fm (H x))) [] []) h
    = Ok (mkFout (Fin (F x)) (fv (G x)) (Some (fm (H x))) h [] []).
  Proof using NS.
    intros Lx. destruct (ne_shape x Lx) as (LG & [M1 M2] & _). unfold typed_fout. cbn [pf_fval pf_grad pf_hess pf_res pf_sres].
    rewrite fv_length, LG, Nat.eqb_refl. assert (R : rect n n (fm (H x)) = true); [|now rewrite R].
    unfold rect. rewrite fm_length, M1, Nat.eqb_refl. cbn [andb]. apply forallb_forall. intros r Hr. unfold fm in Hr. apply in_map_iff in Hr as (r' & <- & Hr).
    rewrite fv_length. apply Nat.eqb_eq. rewrite Forall_forall in M2. now apply M2.
  Qed.
  Lemma ne_allfin x : all_finite (Fin (F x)) (fv (G x)) (Some (fm (H x))) = true.
  Proof using. unfold all_finite. rewrite vfinite_fv, mfinite_fm. reflexivity. Qed.

  (** *** the start *)
  Record newt_at (s : opt ER) (x : rvec) (delta : R) : Prop := mkNewtAt {
    na_point : at_point s x; na_hess : o_hess s = fm (H x); na_happ : o_happ s = None; na_delta : o_delta s = Fin delta }.

  Lemma ne_start_ok : exists f s, prepare E C ndim (fv x0) sid h0 st = (Ok f, s).
  Proof using NS Lx0.
    destruct ne_free as (Hn & Elb & Eub).
    destruct (prepare E C ndim (fv x0) sid h0 st) as [r s] eqn:Ep. apply prepare_inv in Ep as Kp.
    assert (Hd : pr_dims C ndim (fv x0) = true).
    { pose proof (ns_dim _ _ _ _ _ _ _ _ _ _ _ _ _ _ _ _ _ _ NS). unfold pr_dims. rewrite Elb, Eub, fv_length. unfold no_lb, no_ub. rewrite !repeat_length, Lx0, Nat.eqb_refl.
      assert (Nat.ltb 1 ndim = false) as -> by (apply Nat.ltb_ge; lia). assert (Nat.eqb n 0 = false) as -> by (apply Nat.eqb_neq; lia). reflexivity. }
    assert (Hx : nudge C (fv x0) = fv x0) by now apply (nudge_free C n).
    assert (Hb : in_bounds C (fv x0) = true) by now apply (in_bounds_free C n).
    pose proof (ne_eval (length (o_evals st)) x0 Lx0) as Ev. pose proof (ne_typed x0 (length (o_heap st)) Lx0) as Ty.
    destruct (ne_shape x0 Lx0) as (LG & [M1 M2] & _).
    assert (Eh : pr_hess (o_happ st) (length (fv x0)) h0 (mkPyfun (PScal (Fin (F x0))) (PVec (fv (G x0))) (PMat n (fm (H x0))) [] [])
                 = Ok (fm (H x0), None)) by (unfold pr_hess; now rewrite (ns_happ _ _ _ _ _ _ _ _ _ _ _ _ _ _ _ _ _ _ NS)).
    unfold pr_ret in *.
    inversion Kp as [A1|A1 A2|e A1 A2 A3|pf e A1 A2 A3 A4|pf hess h' e A1 A2 A3 A4 A5|pf hess h' f A1 A2 A3 A4 A5 A6 A7|pf hess h' f A1 A2 A3 A4 A5 A6 A7]; try subst r; eauto; exfalso;
      try (rewrite Hx in A2; congruence); try congruence; unfold pr_ret in A3; rewrite Hx, Ev in A3; try discriminate; injection A3 as <-.
    - rewrite Eh in A4. discriminate.
    - rewrite fv_length, Lx0, Ty in A5. destruct A5 as [A5|A5]; [|discriminate].
      unfold checkdims in A5. cbn [pf_fval pf_grad pf_hess] in A5. rewrite fv_length, fm_length, LG, M1, Nat.eqb_refl in A5. discriminate.
    - rewrite fv_length, Lx0, Ty in A6. injection A6 as <-. cbn [fo_fval fo_grad fo_hess] in A7. rewrite ne_allfin in A7. discriminate.
  Qed.
  Lemma ne_start f s : prepare E C ndim (fv x0) sid h0 st = (Ok f, s) -> newt_at s x0 D0 /\ o_iter s = 0%Z /\ o_conv s = false.
  Proof using NS Lx0.
    intros Hp. destruct ne_free as (Hn & Elb & Eub). pose proof (prepare_delta E C _ _ _ _ _ _ _ Hp) as Hd. pose proof (prepare_frame E C _ _ _ _ _ _ _ Hp) as [_ Hi].
    apply prepare_inv in Hp. inversion Hp as [| | | | | |pf hess h' f1 D1 D2 D3 D4 D5 D6 D7 Ef Es0]. subst f1.
    assert (Hx : nudge C (fv x0) = fv x0) by now apply (nudge_free C n).
    unfold pr_ret in D3. rewrite Hx, (ne_eval _ x0 Lx0) in D3. injection D3 as <-.
    rewrite fv_length, Lx0, (ne_typed x0 _ Lx0) in D6. apply Ok_inj in D6.
    unfold pr_hess in D4. rewrite (ns_happ _ _ _ _ _ _ _ _ _ _ _ _ _ _ _ _ _ _ NS) in D4. cbn [pf_hess] in D4. injection D4 as <- <-.
    split; [|split; [congruence|unfold pr_s4; destruct better; reflexivity]].
    constructor.
    - constructor; auto.
      + transitivity (nudge C (fv x0)); [|exact Hx].
        unfold deref, pr_s4. destruct better; unfold pr_s3, pr_s2, pr_s1, pr_s0; destruct pr_id; apply nth_middle.
      + rewrite <- D6. unfold pr_s4. destruct better; reflexivity.
      + rewrite <- D6. unfold pr_s4. destruct better; reflexivity.
    - unfold pr_s4. destruct better; reflexivity.
    - unfold pr_s4. destruct better; reflexivity.
    - rewrite Es0, Hd. apply (proj1 (ns_D0 _ _ _ _ _ _ _ _ _ _ _ _ _ _ _ _ _ _ NS)).
  Qed.

  (** *** the proposed step is the Newton step *)
  Lemma ne_newton x : near x -> exists l, length l = n /\ rmv (H x) l = G x.
  Proof using NS.
    intros Hx. destruct (ne_shape x (proj1 Hx)) as (LG & MH & SH). destruct ne_free as (Hn & _). pose proof (near_posdef n F G H xs m K rho ne_min x Hx) as PH.
    destruct (ns_solver _ _ _ _ _ _ _ _ _ _ _ _ _ _ _ _ _ _ NS) as [[_ Hs]|[_ Hs]].
    - destruct (Nat.eq_dec n 1) as [E1|E1].
      + revert LG MH PH. rewrite E1. intros. now apply one_solves.
      + assert (H2 : (2 <= n)%nat) by (clear - Hn E1; lia). destruct (Hs H2 x Hx) as (vals & vecs & HD & _). apply (eig_solves n (H x) vals vecs); auto.
    - destruct (Hs x Hx) as (_ & Hl & _). destruct (Hl (G x) LG) as (l & _ & L1 & L2). eauto.
  Qed.
  Lemma ne_step s x delta : at_point s x -> o_hess s = fm (H x) -> o_delta s = Fin delta -> 0 < delta -> close x delta -> nonzero (G x) ->
    exists sp w, proposes E C s sp /\ length w = n /\ rmv (H x) w = rscale (-1) (G x)
      /\ trial_point s sp = fv (radd x w) /\ vadd (st_ss sp) (st_ss0 sp) = fv w /\ st_qpval sp = Fin (qmodel (H x) (G x) w)
      /\ scaling_derivative C s = fv (rzeros n).
  Proof using NS.
    intros [Lx Ex Ef Eg] EB Ed Hd (Hx & Hq1 & _ & Hroom) Hnz. pose proof ne_min as ND.
    destruct ne_free as (Hn & Elb & Eub). destruct (ne_shape x Lx) as (LG & MH & SH). pose proof (near_posdef n F G H xs m K rho ND x Hx) as PH.
    destruct (ns_tm _ _ _ _ _ _ _ _ _ _ _ _ _ _ _ _ _ _ NS) as [Etm Htm].
    destruct (ne_newton x Hx) as (l & Ll & El).
    assert (Ls : length (rscale (-1) l) = n) by rlen.
    assert (Es : rmv (H x) (rscale (-1) l) = rscale (-1) (G x)) by (rewrite rmv_rscale, El; reflexivity).
    pose proof (newton_length n F G H xs m K rho ND ne_shape x _ Hx Ls Es Hq1) as [_ Nl]. unfold Newton.err in Nl.
    destruct (affine_free n x (G x) Lx LG) as (v & Lv & Ev & Fv).
    unfold proposes, trial_point, scaling_derivative. cbv zeta. rewrite Ex, Eg, EB, Ed, Elb, Eub, Ev.
    rewrite (scaling_free n) by auto. rewrite (dv_free n) by auto.
    destruct (theta_free tm v (G x)) as (t & Et & Ht); auto; try (clear - Hn Lv LG; lia); try lra.
    rewrite Etm, Et. specialize (Ht (proj2 Htm)).
    assert (Kx : exists c w, trust_region (e_la E) (fv x) (fv (G x)) (fm (H x)) (fv (rones n)) (Fin delta) (fv (rzeros n)) (Fin t) (no_lb n) (no_ub n)
                  (op_subspace_dim O) (op_stepback O) = Ok c
      /\ free_step n (G x) (H x) c w /\ qmodel (H x) (G x) w <= qmodel (H x) (G x) (rscale (-1) l)).
    { destruct (ns_solver _ _ _ _ _ _ _ _ _ _ _ _ _ _ _ _ _ _ NS) as [[Esd Hs]|[Esd Hs]]; rewrite Esd.
      - destruct (free_full (e_la E) n x (G x) (H x) delta t) with (strat := op_stepback O) as (c & w & E1 & _ & E2 & E3 & E4 & E5); auto.
        exists c, w. split; [exact E1|]. split; [exact E2|]. refine (E4 _ Ls _); lra.
      - destruct (free_2d (e_la E) n x (G x) (H x) delta t) with (strat := op_stepback O) as (c & w & E1 & _ & E2 & E3 & E4 & E5 & E6); auto.
        exists c, w. split; [exact E1|]. split; [exact E2|]. pose proof (fs_len _ _ _ _ _ E2) as Lw.
        assert (Ey : radd (rscale 0 w) (rscale (-1) l) = rscale (-1) l) by (apply rvec_ext; [rlen|]; intros i; rewrite nth_radd, !nth_rscale by rlen; ring).
        specialize (E6 0 (-1) l Ll El). rewrite Ey in E6. apply E6. lra. }
    destruct Kx as (c & w & E1 & [L1 S1 S2 S3 S4] & N1).
    pose proof (newton_unique n G H ne_shape x l w Lx PH Ll L1 El N1) as Ew.
    exists c, w. split.
    { split; [exact E1|]. rewrite S1, S2, !fv_length, rzeros_length, Lx. auto. }
    split; [exact L1|]. split; [rewrite Ew; exact Es|]. split; [|auto].
    rewrite S1, S2, !h_vadd. f_equal. apply rvec_ext; rewrite ?radd_length; rewrite ?radd_length; rewrite ?rzeros_length; try congruence.
    intros i. rewrite !nth_radd; rewrite ?radd_length; rewrite ?rzeros_length; try congruence. rewrite nth_rzeros. ring.
  Qed.

  (** *** decrease ratio and radius *)
  Definition ratio (x w : rvec) : R := (F x - F (radd x w)) / (- qmodel (H x) (G x) w).
  Lemma ne_ratio sp s x w : at_point s x -> length w = n -> vadd (st_ss sp) (st_ss0 sp) = fv w -> st_qpval sp = Fin (qmodel (H x) (G x) w) ->
    qmodel (H x) (G x) w < 0 -> scaling_derivative C s = fv (rzeros n) ->
    tr_ratio_of C s sp (Fin (F (radd x w))) (fv (G (radd x w))) = Fin (ratio x w)
    /\ accepts C s sp (Fin (F (radd x w))) (fv (G (radd x w))) = Rltb 0 (ratio x w).
  Proof using NS.
    intros [Lx Ex Ef Eg] Lw Es Eq Hq Hsd.
    assert (Lt : length (radd x w) = n) by rlen. destruct (ne_shape _ Lt) as (LG & _).
    unfold tr_ratio_of, accepts, predicted_decrease. rewrite Hsd, Ef, Eq, (actual_free n sp w) by auto.
    cbn [nopp ERNum er_opp nisfin er_isfin negb nleb er_leb n0 nofZ nltb er_ltb ndiv er_div andb].
    destruct (Rleb_spec (- qmodel (H x) (G x) w) 0); [lra|]. destruct (Rltb_spec 0 (- qmodel (H x) (G x) w)); [|lra].
    destruct (Reqb_spec (- qmodel (H x) (G x) w) 0); [lra|]. split; reflexivity.
  Qed.
  Lemma ne_radius sp w v r delta : 0 < delta -> vadd (st_ss sp) (st_ss0 sp) = fv w -> mu < r ->
    radius_rule C (Fin delta) (Fin r) sp (Fin v) = Fin (if Rleb eta r && negb (Rltb (rnorm w) (delta * (9 / 10))) then g2 * delta else delta).
  Proof using NS Lx0.
    intros Hd Es Hr. pose proof (ns_mu _ _ _ _ _ _ _ _ _ _ _ _ _ _ _ _ _ _ NS) as [Em _]. pose proof (ns_eta _ _ _ _ _ _ _ _ _ _ _ _ _ _ _ _ _ _ NS) as [Ee _].
    pose proof (ns_g1 _ _ _ _ _ _ _ _ _ _ _ _ _ _ _ _ _ _ NS) as [E1 _]. pose proof (ns_g2 _ _ _ _ _ _ _ _ _ _ _ _ _ _ _ _ _ _ NS) as [E2 _].
    unfold radius_rule, scaled_length. rewrite Es, h_norm, Em, Ee, E1, E2, (frac_fin 9 10) by lia.
    cbn [nisfin ERNum er_isfin andb negb orb nleb er_leb nltb er_ltb nmul er_mul].
    destruct (Rleb eta r && negb (Rltb (rnorm w) (delta * (9 / 10)))); [reflexivity|].
    destruct (Rleb_spec r mu); [lra|reflexivity].
  Qed.

  (** *** one pass *)
  Lemma ne_pass f s s1 f' s' x delta : head f s -> check_continue E C s = (Ok true, s1) -> iteration E C f s1 = (Ok f', s') ->
    newt_at s x delta -> 0 < delta -> close x delta -> nonzero (G x) ->
    exists w d', length w = n /\ rmv (H x) w = rscale (-1) (G x)
      /\ newt_at s' (radd x w) d' /\ delta <= d' /\ close (radd x w) d'
      /\ m * err (radd x w) <= K / 2 * err x ^ 2 /\ err (radd x w) <= err x / 2
      /\ F (radd x w) < F x
      /\ o_tr_ratio s' = Fin (ratio x w) /\ Rabs (ratio x w - 1) <= K * rnorm w / (3 * m)
      /\ o_iter s' = (o_iter s + 1)%Z
      /\ o_evals s' = o_evals s ++ [(fv (radd x w), e_obj E (length (o_evals s)) (fv (radd x w)))].
  Proof using NS Lx0.
    intros HL Hc Hi [Ha EB Ehp Ed] Hd Hcl Hnz.
    destruct (C15_pass E C ndim (fv x0) sid h0 st f s s1 f' s' HL Hc Hi) as (sp & r & v & g & P1 & P2 & P3 & P4 & P5 & P6).
    destruct (C14_radius_rule E C ndim (fv x0) sid h0 st f s s1 f' s' HL Hc Hi) as (sp2 & r2 & v2 & g2' & Q1 & Q2 & Q3 & Q4 & Q5 & Q6).
    destruct (C15_hessian_after_acceptance E C ndim (fv x0) sid h0 st f s s1 f' s' HL Hc Hi) as (sp3 & r3 & v3 & g3 & pf & S1 & S2 & S3 & S4 & S5 & S6).
    assert (sp2 = sp) as -> by (destruct P1 as [P1 _], Q1 as [Q1 _]; rewrite P1 in Q1; now apply Ok_inj in Q1).
    assert (sp3 = sp) as -> by (destruct P1 as [P1 _], S1 as [S1 _]; rewrite P1 in S1; now apply Ok_inj in S1).
    assert (r2 = r) as -> by (rewrite P2 in Q2; apply app_inv_head in Q2; injection Q2; auto).
    assert (r3 = r) as -> by (rewrite P2 in S2; apply app_inv_head in S2; injection S2; auto).
    rewrite P4 in Q3, S4. injection Q3 as <-. injection S4 as <-. rewrite P5 in Q4, S5. injection Q4 as <-. injection S5 as <-.
    destruct (ne_step s x delta Ha EB Ed Hd Hcl Hnz) as (sp' & w & T0 & Lw & Ew & T2 & T3 & T4 & T5).
    assert (sp' = sp) as -> by (destruct P1 as [P1 _], T0 as [T0 _]; rewrite P1 in T0; now apply Ok_inj in T0).
    pose proof (ap_len _ _ _ _ _ Ha) as Lx. assert (Lt : length (radd x w) = n) by rlen.
    pose proof ne_min as ND. pose proof (nd_m _ _ _ _ _ _ _ _ ND) as Hm. pose proof (nd_K _ _ _ _ _ _ _ _ ND) as HK.
    destruct Hcl as (Hx & Hq1 & Hq2 & Hroom). destruct (ne_shape x Lx) as (LG & MH & SH).
    pose proof (newton_error n F G H xs m K rho ND ne_shape x w Hx Lw Ew) as T6.
    pose proof (newton_halves n F G H xs m K rho ND ne_shape x w Hx Lw Ew Hq1) as T7.
    pose proof (newton_near n F G H xs m K rho ND ne_shape x w Hx Lw Ew Hq1) as T8.
    pose proof (newton_length n F G H xs m K rho ND ne_shape x w Hx Lw Ew Hq1) as [T9 T10].
    pose proof (newton_model n F G H xs m K rho ND ne_shape x w Hx Lw Ew Hq1) as [T11 T12].
    unfold Newton.err in *.
    assert (Ne : 0 < err x).
    { pose proof (rnorm_nonneg (rsub x xs)). destruct (Req_dec (err x) 0) as [E0|]; [|lra]. exfalso.
      assert (Z : rsub x xs = rzeros n).
      { assert (rdot (rsub x xs) (rsub x xs) = 0) by (rewrite <- rnorm_sq, E0; ring). destruct (nonzero_dec (rsub x xs)) as [Hn|Hn]; [apply nonzero_dot in Hn; lra|].
        pose proof ne_lxs. assert (Ls : length (rsub x xs) = n) by rlen. rewrite <- Ls. now apply all0_zeros. }
      apply (gap_zero n xs ne_lxs x Lx) in Z. rewrite Z, (nd_zero _ _ _ _ _ _ _ _ ND) in Hnz. destruct Hnz as [i Hnz]. rewrite nth_rzeros in Hnz. lra. }
    assert (Nw : 0 < rnorm w) by lra.
    pose proof (newton_ratio n F G H xs m K rho ND ne_shape x w Hx Lw Ew Hq1 Nw) as T13. fold (ratio x w) in T13.
    assert (Hq : qmodel (H x) (G x) w < 0).
    { rewrite T11. assert (0 < m * rnorm w ^ 2) by (apply Rmult_lt_0_compat; [lra|apply pow_lt; lra]). lra. }
    assert (Hra : mu < ratio x w).
    { assert (K * rnorm w / (3 * m) <= K / (2 * m) * err x).
      { replace (K / (2 * m) * err x) with (K / (3 * m) * (3 / 2 * err x)) by (field; lra).
        replace (K * rnorm w / (3 * m)) with (K / (3 * m) * rnorm w) by (field; lra). apply Rmult_le_compat_l; [|lra].
        apply Rmult_le_pos; [lra|left; apply Rinv_0_lt_compat; lra]. }
      apply Rabs_def2 with (a := 1 - mu) in T13 as T14 || (assert (T14 : Rabs (ratio x w - 1) < 1 - mu) by lra; apply Rabs_def2 in T14); lra. }
    pose proof (ns_mu _ _ _ _ _ _ _ _ _ _ _ _ _ _ _ _ _ _ NS) as [_ Hmu]. pose proof (ns_g2 _ _ _ _ _ _ _ _ _ _ _ _ _ _ _ _ _ _ NS) as [_ Hg2].
    pose proof (ne_eval (length (o_evals s)) (radd x w) Lt) as Ev.
    rewrite P3, T2 in P4, P5, S3. rewrite Ev in S3. injection S3 as <-.
    unfold value_of in P4. unfold gradient_of in P5. rewrite Ev in P4, P5. cbn [pf_fval pf_grad] in P4, P5.
    injection P4 as <-. injection P5 as <-.
    destruct (ne_ratio sp s x w Ha Lw T3 T4 Hq T5) as [R1 R2].
    assert (Ra : Rltb 0 (ratio x w) = true) by (destruct (Rltb_spec 0 (ratio x w)); [reflexivity|lra]). rewrite Ra in R2.
    rewrite Ehp in S6. rewrite R2 in P6, S6. destruct P6 as (A1 & A2 & A3 & A4). destruct (S6 eq_refl) as (nc & S7 & S8). cbn [pf_hess] in S7.
    rewrite R1, Ed, (ne_radius sp w _ _ delta Hd T3 Hra) in Q6.
    exists w. eexists. split; [exact Lw|]. split; [exact Ew|]. split; [constructor|]; [..|split; [|split; [|split; [exact T6|split; [exact T7|split; [|split; [rewrite Q5; exact R1|split; [exact T13|split]]]]]]]].
    - constructor; auto. rewrite A3, T2. destruct ne_free as (? & ? & ?). now apply (nudge_free C n).
    - now injection S7.
    - exact S8.
    - exact Q6.
    - destruct (_ && _); nra.
    - split; [exact T8|]. pose proof (rnorm_nonneg (rsub (radd x w) xs)) as Nn.
      assert (Hle : K / (2 * m) * err (radd x w) <= K / (2 * m) * err x).
      { apply Rmult_le_compat_l; [|lra]. apply Rmult_le_pos; [lra|left; apply Rinv_0_lt_compat; lra]. }
      split; [lra|]. split; [lra|]. destruct (_ && _); nra.
    - assert (0 < ratio x w) by lra. unfold ratio in *. apply (Rmult_lt_compat_r (- qmodel (H x) (G x) w)) in H0; [|lra].
      rewrite Rmult_0_l in H0. unfold Rdiv in H0. rewrite Rmult_assoc, Rinv_l in H0 by lra. lra.
    - apply check_continue_true in Hc as (-> & _). apply iteration_ok in Hi as (sp' & fn & Ki). apply (ik_iter _ _ _ _ _ _ _ _ Ki).
    - rewrite P2, P3, T2. reflexivity.
  Qed.

  (** *** all later passes *)
  Variable ga : R.
  Hypothesis Hga : op_gatol O = Fin ga /\ 0 <= ga.

  (** (f, s) is the situation after some further passes of the loop from (f0, s0) *)
  Inductive onwards (f0 : fout ER) (s0 : opt ER) : nat -> fout ER -> opt ER -> Prop :=
  | ow_here : onwards f0 s0 0 f0 s0
  | ow_next k f s s1 f' s' : onwards f0 s0 k f s -> check_continue E C s = (Ok true, s1) -> iteration E C f s1 = (Ok f', s') -> onwards f0 s0 (S k) f' s'.

  (** bound on the error after [k] passes *)
  Definition shrunk (e0 : R) (k : nat) : R := e0 * (K / (2 * m) * e0) ^ (2 ^ k - 1).
  Lemma shrunk_next e0 e e' k : 0 <= e -> 0 <= e0 -> m * e' <= K / 2 * e ^ 2 -> e <= shrunk e0 k -> e' <= shrunk e0 (S k).
  Proof using NS.
    intros He He0 Hm He2. pose proof (nd_m _ _ _ _ _ _ _ _ ne_min) as Pm. pose proof (nd_K _ _ _ _ _ _ _ _ ne_min) as PK.
    set (q := K / (2 * m)). assert (Hq : 0 <= q) by (unfold q; apply Rmult_le_pos; [lra|left; apply Rinv_0_lt_compat; lra]).
    assert (H1 : e' <= q * (e * e)).
    { apply (Rmult_le_reg_l m); [exact Pm|]. eapply Rle_trans; [exact Hm|]. right. unfold q. field. lra. }
    assert (H2 : e * e <= shrunk e0 k * shrunk e0 k) by (apply Rmult_le_compat; auto).
    eapply Rle_trans; [exact H1|]. apply Rle_trans with (q * (shrunk e0 k * shrunk e0 k)); [now apply Rmult_le_compat_l|].
    right. unfold shrunk. fold q. pose proof (Nat.pow_nonzero 2 k ltac:(discriminate)) as P2.
    replace (2 ^ S k - 1)%nat with ((2 ^ k - 1) + (2 ^ k - 1) + 1)%nat by (cbn [Nat.pow]; clear - P2; lia). rewrite !pow_add, pow_1. ring.
  Qed.

  Record going (k : nat) (s0 s : opt ER) (xa x : rvec) (da delta : R) : Prop := mkGoing {
    go_at : newt_at s x delta;
    go_delta : da <= delta;
    go_close : close x delta;
    go_err : err x <= shrunk (err xa) k;
    go_half : err x <= err xa / 2 ^ k;
    go_val : F x <= F xa /\ ((0 < k)%nat -> F x < F xa);
    go_live : o_conv s = false -> nonzero (G x);
    go_tol : (0 < k)%nat -> o_conv s = false -> ga < rnorm (G x);
    go_iter : o_iter s = (o_iter s0 + Z.of_nat k)%Z;
    go_evals : exists ev, o_evals s = o_evals s0 ++ ev /\ length ev = k
  }.
  Lemma ne_onwards f0 s0 xa da k f s : head f0 s0 -> newt_at s0 xa da -> 0 < da -> close xa da -> (o_conv s0 = false -> nonzero (G xa)) ->
    onwards f0 s0 k f s -> head f s /\ exists x delta, going k s0 s xa x da delta.
  Proof using NS Lx0 Hga.
    intros HL0 Hat Hda Hcl Hlive. pose proof (nd_m _ _ _ _ _ _ _ _ ne_min) as Pm.
    pose proof (rnorm_nonneg (rsub xa xs)) as Na.
    induction 1 as [|k f s s1 f' s' _ IH Hc Hi].
    - split; [exact HL0|]. exists xa, da. constructor; auto; try lra; try (intros Hk; exfalso; clear - Hk; lia); try (split; [lra|intros Hk; exfalso; clear - Hk; lia]).
      + unfold shrunk. change (2 ^ 0 - 1)%nat with 0%nat. rewrite pow_O. lra.
      + clear. lia.
      + exists []. split; [now rewrite app_nil_r|reflexivity].
    - destruct IH as (HL & x & delta & [G1 G2 G3 G4 G5 G6 G7 _ G8 (ev & G9 & G10)]).
      pose proof (check_continue_true _ _ _ _ Hc) as (Es1 & Hcv & _). specialize (G7 Hcv).
      split; [eapply lh_next; eauto|].
      destruct (ne_pass f s s1 f' s' x delta HL Hc Hi G1 ltac:(lra) G3 G7) as (w & d' & Lw & Ew & P1 & P2 & P3 & P4 & P5 & P6 & _ & _ & P7 & P8).
      pose proof (rnorm_nonneg (rsub x xs)) as Nx.
      assert (Tol : o_conv s' = false -> ga < rnorm (G (radd x w))).
      { intros Ecv. rewrite Es1 in Hi. pose proof (unconverged_grad E C f _ f' s' Hi Ecv) as Eg.
        rewrite (ap_g _ _ _ _ _ (na_point _ _ _ P1)), h_norm, (proj1 Hga) in Eg. cbn [nleb ERNum er_leb] in Eg.
        destruct (Rleb_spec (rnorm (G (radd x w))) ga) as [|Hgt]; [|lra]. exfalso. apply Bool.diff_true_false. apply Eg.
        change (o_fval s' <> o_fval s). rewrite (ap_f _ _ _ _ _ (na_point _ _ _ P1)), (ap_f _ _ _ _ _ (na_point _ _ _ G1)). intros Eq. injection Eq as Eq. lra. }
      destruct G6 as [G6 _]. exists (radd x w), d'. constructor; auto; try lra; try (split; lra).
      + now apply (shrunk_next _ (err x)).
      + cbn [pow]. assert (0 < 2 ^ k) by (apply pow_lt; lra). eapply Rle_trans; [exact P5|].
        replace (err xa / (2 * 2 ^ k)) with (err xa / 2 ^ k / 2) by (field; lra). lra.
      + intros Ecv. apply nonzero_dot. rewrite <- rnorm_sq. specialize (Tol Ecv). destruct Hga as [_ Hga2]. nra.
      + rewrite P7, G8. clear. lia.
      + exists (ev ++ [(fv (radd x w), e_obj E (length (o_evals s)) (fv (radd x w)))]). split; [rewrite P8, G9, app_assoc; reflexivity|].
        rewrite app_length, G10. cbn. clear. lia.
  Qed.
  Lemma head_onwards f s : head f s -> exists f0 s0 k, prepare E C ndim (fv x0) sid h0 st = (Ok f0, s0) /\ onwards f0 s0 k f s.
  Proof using.
    induction 1 as [f s Hp|f s s1 f' s' HL IH Hc Hi].
    - exists f, s, 0%nat. split; [exact Hp|constructor].
    - destruct IH as (f0 & s0 & k & H1 & H2). exists f0, s0, (S k). split; [exact H1|]. eapply ow_next; eauto.
  Qed.

  (** once a head of the loop is close to xs (with the exact Hessian there), every further pass is a Newton step, and the error after k of
      them is at most e (q e)^(2^k - 1), where e is the error now and q e <= 1/2: the number of correct digits doubles *)
  Theorem C69_quadratic_convergence f0 s0 xa da k f s :
    head f0 s0 -> deref s0 (o_x s0) = fv xa -> o_fval s0 = Fin (F xa) -> o_grad s0 = fv (G xa) -> o_hess s0 = fm (H xa) -> o_happ s0 = None ->
    o_delta s0 = Fin da -> 0 < da -> close xa da -> nonzero (G xa) -> onwards f0 s0 k f s ->
    exists x, deref s (o_x s) = fv x /\ o_fval s = Fin (F x) /\ o_grad s = fv (G x)
      /\ rnorm (rsub x xs) <= rnorm (rsub xa xs) * (K / (2 * m) * rnorm (rsub xa xs)) ^ (2 ^ k - 1)
      /\ rnorm (rsub x xs) <= rnorm (rsub xa xs) / 2 ^ k
      /\ (exists d, o_delta s = Fin d /\ da <= d)
      /\ (exists ev, o_evals s = o_evals s0 ++ ev /\ length ev = k).
  Proof using NS Lx0 Hga.
    intros HL Ex Ef Eg EB Ehp Ed Hd Hcl Hnz How. pose proof (proj1 (proj1 Hcl)) as Lxa.
    destruct (ne_onwards f0 s0 xa da k f s HL) as (_ & x & delta & [[[G0 G1 G2 G3] _ _ G4] G5 G6 G7 G8 _ _ _ _ G9]); auto.
    { constructor; auto. now constructor. }
    exists x. repeat (split; [assumption|]). split; [exists delta; auto|exact G9].
  Qed.

  (** every single pass *)
  Theorem C69_newton_step f s s1 f' s' x d :
    head f s -> check_continue E C s = (Ok true, s1) -> iteration E C f s1 = (Ok f', s') ->
    deref s (o_x s) = fv x -> o_fval s = Fin (F x) -> o_grad s = fv (G x) -> o_hess s = fm (H x) -> o_happ s = None ->
    o_delta s = Fin d -> 0 < d -> close x d -> nonzero (G x) ->
    exists x' d' r, deref s' (o_x s') = fv x' /\ o_fval s' = Fin (F x') /\ o_grad s' = fv (G x') /\ o_hess s' = fm (H x') /\ o_delta s' = Fin d'
      /\ rmv (H x) (rsub x' x) = rscale (-1) (G x)                       (* the Newton step *)
      /\ rnorm (rsub x' xs) <= K / (2 * m) * rnorm (rsub x xs) ^ 2
      /\ F x' < F x /\ d <= d'
      /\ o_tr_ratio s' = Fin r /\ Rabs (r - 1) <= K * rnorm (rsub x' x) / (3 * m)
      /\ exists ans, o_evals s' = o_evals s ++ [(fv x', ans)].
  Proof using NS Lx0.
    intros HL Hc Hi Ex Ef Eg EB Ehp Ed Hd Hcl Hnz. pose proof (proj1 (proj1 Hcl)) as Lx. pose proof (nd_m _ _ _ _ _ _ _ _ ne_min) as Pm.
    destruct (ne_pass f s s1 f' s' x d HL Hc Hi) as (w & d' & Lw & Ew & P1 & P2 & P3 & P4 & P5 & P6 & P7 & P8 & _ & P9); auto.
    { constructor; auto. now constructor. }
    assert (Es : rsub (radd x w) x = w) by (apply rvec_ext; [rlen|]; intros i; rewrite nth_rsub, nth_radd by rlen; ring).
    destruct P1 as [[_ A1 A2 A3] A4 _ A5].
    exists (radd x w), d', (ratio x w). rewrite Es. repeat (split; [assumption|]). split.
    { apply (Rmult_le_reg_l m); [exact Pm|]. eapply Rle_trans; [exact P4|]. right. field. lra. }
    repeat (split; [assumption|]). eexists. exact P9.
  Qed.

  (** *** minimize returns *)
  Lemma ne_iteration_aux f s1 sp xt : it_tr E C s1 = Ok sp -> it_trial s1 sp = fv xt -> length xt = n -> length (deref s1 (o_x s1)) = n ->
    all_finite (o_fval s1) (o_grad s1) (Some (o_hess s1)) = true -> o_happ s1 = None -> exists f' s', iteration E C f s1 = (Ok f', s').
  Proof using NS.
    intros Itr Itl Lt Lxx Cur Hp1.
    assert (Ev : fun_evaluate (c_nargout C) (c_resfun C) (it_ret E s1 sp) = Ok (mkPyfun (PScal (Fin (F xt))) (PVec (fv (G xt))) (PMat n (fm (H xt))) [] [])).
    { unfold it_ret. rewrite Itl. now apply ne_eval. }
    destruct (iteration E C f s1) as [[f'|e] s'] eqn:Ei; [eauto|]. exfalso. apply iteration_inv in Ei.
    assert (Hev : forall sp2 fn, evaluated E C s1 sp2 fn -> sp2 = sp /\ fn = mkFout (Fin (F xt)) (fv (G xt)) (Some (fm (H xt))) (length (o_heap s1)) [] []).
    { intros sp2 fn [_ V2 (pf & V3 & V4) _]. rewrite Itr in V2. apply Ok_inj in V2. subst sp2. split; [reflexivity|].
      rewrite Ev in V3. apply Ok_inj in V3. subst pf. rewrite Lxx, (ne_typed _ _ Lt) in V4. now apply Ok_inj in V4. }
    inversion Ei as [Hcur Er Es|e' Ht|sp2 e' Ht Hev2|sp2 pf e' Ht Hev2 Hy|sp2 pf fn Ht Hev2 Hy A1 A2|sp2 fn e' st0 Hev2 Hac Hu|sp2 fn st0 Hev2 Hu Hh|]; clear Ei.
    - congruence.
    - congruence.
    - rewrite Itr in Ht. apply Ok_inj in Ht. subst sp2. rewrite Ev in Hev2. discriminate.
    - rewrite Itr in Ht. apply Ok_inj in Ht. subst sp2. rewrite Ev in Hev2. apply Ok_inj in Hev2. subst pf. rewrite Lxx, (ne_typed _ _ Lt) in Hy. discriminate.
    - rewrite Itr in Ht. apply Ok_inj in Ht. subst sp2. rewrite Ev in Hev2. apply Ok_inj in Hev2. subst pf. rewrite Lxx, (ne_typed _ _ Lt) in Hy.
      apply Ok_inj in Hy. subst fn. cbn [fo_fval fo_grad fo_hess] in A2. rewrite ne_allfin in A2. discriminate.
    - destruct (Hev _ _ Hev2) as [-> Efn].
      assert (Dr : deref (it_s5 E C s1 sp fn) (fo_x fn) = fv xt).
      { rewrite Efn at 2. cbn [fo_x]. unfold deref. rewrite s5_heap, nth_middle. exact Itl. }
      assert (Ib : in_bounds C (deref (it_s5 E C s1 sp fn) (fo_x fn)) = true) by (rewrite Dr; destruct ne_free as (? & ? & ?); now apply (in_bounds_free C n)).
      assert (Hf : fo_hess fn = Some (fm (H xt))) by now rewrite Efn.
      clear Efn Dr. apply (update_never_fails C sp fn f (it_s5 E C s1 sp fn) (fm (H xt)) e' s'); auto. now rewrite s5_happ. congruence.
    - unfold has_history in Hh. rewrite (ns_nohist _ _ _ _ _ _ _ _ _ _ _ _ _ _ _ _ _ _ NS) in Hh. discriminate.
  Qed.
  Lemma ne_iteration f s s1 x delta : newt_at s x delta -> 0 < delta -> close x delta -> nonzero (G x) ->
    check_continue E C s = (Ok true, s1) -> exists f' s', iteration E C f s1 = (Ok f', s').
  Proof using NS.
    intros [Ha EB Ehp Ed] Hd Hcl Hnz Hc.
    destruct (ne_step s x delta Ha EB Ed Hd Hcl Hnz) as (sp & w & T0 & Lw & _ & T2 & _).
    pose proof (ap_len _ _ _ _ _ Ha) as Lx. assert (Lt : length (radd x w) = n) by rlen.
    pose proof (check_continue_true _ _ _ _ Hc) as (Es1 & _).
    assert (Itr : it_tr E C s1 = Ok sp) by (rewrite Es1; now apply proposes_it_tr).
    assert (Itl : it_trial s1 sp = fv (radd x w)) by (rewrite Es1; exact T2).
    assert (Lxx : length (deref s1 (o_x s1)) = n) by (rewrite Es1; change (length (deref s (o_x s)) = n); rewrite (ap_x _ _ _ _ _ Ha), fv_length; apply Ha).
    assert (Cur : all_finite (o_fval s1) (o_grad s1) (Some (o_hess s1)) = true).
    { rewrite Es1. change (all_finite (o_fval s) (o_grad s) (Some (o_hess s)) = true). rewrite (ap_f _ _ _ _ _ Ha), (ap_g _ _ _ _ _ Ha), EB. apply ne_allfin. }
    assert (Hp1 : o_happ s1 = None) by (rewrite Es1; exact Ehp).
    clear Hc Ha EB Ehp Ed T0 T2 Es1.
    exact (ne_iteration_aux f s1 sp (radd x w) Itr Itl Lt Lxx Cur Hp1).
  Qed.

  Section Start.
    Hypothesis Hcl0 : close x0 D0.
    Hypothesis Hnz0 : nonzero (G x0).
    Variable k : nat.
    Hypothesis Hk1 : (1 <= k)%nat.
    (** the gradient tolerance is met at the distance from xs that k passes reach *)
    Hypothesis Hstop : forall x, near x -> err x <= err x0 * (K / (2 * m) * err x0) ^ (2 ^ k - 1) -> rnorm (G x) <= ga.

    Lemma shrunk_mono j : (k <= j)%nat -> shrunk (err x0) j <= shrunk (err x0) k.
    Proof using NS Hcl0.
      intros Hj. pose proof (nd_m _ _ _ _ _ _ _ _ ne_min) as Pm. pose proof (nd_K _ _ _ _ _ _ _ _ ne_min) as PK. pose proof (rnorm_nonneg (rsub x0 xs)) as N0.
      destruct Hcl0 as (_ & Hq & _). unfold shrunk. apply Rmult_le_compat_l; [exact N0|].
      assert (H0' : 0 <= K / (2 * m) * err x0) by (apply Rmult_le_pos; [apply Rmult_le_pos; [lra|left; apply Rinv_0_lt_compat; lra]|lra]).
      set (u := K / (2 * m) * err x0) in *. pose proof (Nat.pow_le_mono_r 2 k j ltac:(discriminate) Hj) as P2.
      replace (2 ^ j - 1)%nat with ((2 ^ k - 1) + (2 ^ j - 2 ^ k))%nat by (pose proof (Nat.pow_nonzero 2 k ltac:(discriminate)) as P3; clear - P2 P3; lia).
      rewrite pow_add. rewrite <- (Rmult_1_r (u ^ (2 ^ k - 1))) at 2. apply Rmult_le_compat_l; [now apply pow_le|].
      rewrite <- (pow1 (2 ^ j - 2 ^ k)). apply pow_incr. lra.
    Qed.
    Lemma ne_done j s0 s x delta : (k <= j)%nat -> going j s0 s x0 x D0 delta -> o_conv s = true.
    Proof using NS Hcl0 Hstop Hk1.
      intros Hj Hg. destruct (o_conv s) eqn:Ecv; [reflexivity|]. exfalso.
      assert (Hj0 : (0 < j)%nat) by (clear - Hj Hk1; lia).
      pose proof (go_tol _ _ _ _ _ _ _ Hg Hj0 Ecv) as Ht. pose proof (go_err _ _ _ _ _ _ _ Hg) as He. pose proof (shrunk_mono j Hj) as Hm. unfold shrunk in Hm at 2.
      pose proof (Hstop x (proj1 (go_close _ _ _ _ _ _ _ Hg)) ltac:(lra)). lra.
    Qed.
    Lemma ne_going f0 s0 j f s : prepare E C ndim (fv x0) sid h0 st = (Ok f0, s0) -> onwards f0 s0 j f s ->
      head f s /\ exists x delta, going j s0 s x0 x D0 delta.
    Proof using NS Lx0 Hga Hcl0 Hnz0.
      intros Hp How. destruct (ne_start f0 s0 Hp) as (A1 & A2 & A3). pose proof (proj2 (ns_D0 _ _ _ _ _ _ _ _ _ _ _ _ _ _ _ _ _ _ NS)) as HD.
      apply (ne_onwards f0 s0 x0 D0 j f s); auto. now apply lh_start.
    Qed.
    Lemma ne_few f0 s0 j f s : prepare E C ndim (fv x0) sid h0 st = (Ok f0, s0) -> onwards f0 s0 j f s -> (j <= k)%nat.
    Proof using All.
      intros Hp How. inversion How as [|j' f1 s1 s2 f2 s3 How1 Hc Hi]; [clear; lia|].
      destruct (ne_going _ _ _ _ _ Hp How1) as (_ & x & d & Hg). destruct (Nat.le_gt_cases k j') as [Hle|Hgt]; [|exact Hgt]. exfalso.
      pose proof (ne_done _ _ _ _ _ Hle Hg). pose proof (check_continue_true _ _ _ _ Hc) as (_ & Hcv & _). congruence.
    Qed.
    Lemma ne_loop f0 s0 : prepare E C ndim (fv x0) sid h0 st = (Ok f0, s0) ->
      forall fl j f s, onwards f0 s0 j f s -> (k - j < fl)%nat -> exists s', loop E C fl f s = (Ok tt, s').
    Proof using All.
      intros Hp. induction fl as [|fl IH]; intros j f s How Hm; [clear - Hm; lia|].
      cbn [loop]. destruct (check_continue E C s) as [[c|e] s1] eqn:Ec.
      2:{ rewrite check_continue_run in Ec.
          destruct o_conv; [discriminate|]. destruct (_ <=? _)%Z; [discriminate|].
          cbv zeta in Ec. destruct out_of_time; [discriminate|]. destruct (_ <? _)%num; discriminate. }
      rewrite (bind_ok _ _ _ _ _ Ec). destruct c; [|eexists; reflexivity].
      pose proof (ne_few _ _ _ _ _ Hp How) as Hj. destruct (ne_going _ _ _ _ _ Hp How) as (HL & x & d & Hg).
      pose proof (check_continue_true _ _ _ _ Ec) as (_ & Hcv & _).
      assert (Hlt : (j < k)%nat).
      { destruct (Nat.le_gt_cases k j) as [Hle|Hgt]; [|exact Hgt]. pose proof (ne_done _ _ _ _ _ Hle Hg). congruence. }
      pose proof (proj2 (ns_D0 _ _ _ _ _ _ _ _ _ _ _ _ _ _ _ _ _ _ NS)) as HD. pose proof (go_delta _ _ _ _ _ _ _ Hg) as Hdl.
      destruct (ne_iteration f s s1 x d) as (f' & s' & Hi); auto; [apply Hg|lra|apply Hg|now apply Hg|].
      rewrite (bind_ok _ _ _ _ _ Hi). apply (IH (S j)); [eapply ow_next; eauto|clear - Hm Hlt; lia].
    Qed.

    (** a run started close to xs returns after at most k iterations, and its error is bounded as above *)
    Theorem C69_fast_local_convergence fuel :
      op_maxtime O = PInf -> (Z.of_nat k <= op_maxiter O)%Z -> / 2 ^ 52 <= D0 -> (k < fuel)%nat ->
      exists x st', minimize E C fuel ndim (fv x0) sid h0 st = (Ok (Fin (F x), o_x st', fv (G x), fm (H x)), st')
        /\ deref st' (o_x st') = fv x /\ length x = n
        /\ In (o_flag st') [FTOL; XF_XTOL; GTOL]
        /\ (1 <= o_iter st' <= Z.of_nat k)%Z
        /\ rnorm (rsub x xs) <= rnorm (rsub x0 xs) * (K / (2 * m) * rnorm (rsub x0 xs)) ^ (2 ^ Z.to_nat (o_iter st') - 1)
        /\ F x < F x0
        /\ (exists ev, o_evals st' = o_evals st ++ ev /\ Z.of_nat (length ev) = (o_iter st' + 1)%Z).
    Proof using All.
      intros Hmt Hmi Hsp Hfu. destruct ne_start_ok as (f0 & s0 & Ep).
      destruct (ne_loop f0 s0 Ep fuel 0 f0 s0) as (s' & El); [constructor|clear - Hfu; lia|].
      assert (Hm : exists fval x g h st', minimize E C fuel ndim (fv x0) sid h0 st = (Ok (fval, x, g, h), st')).
      { unfold minimize. rewrite (bind_ok _ _ _ _ _ Ep), (bind_ok _ _ _ _ _ El).
        assert (Ew : write_history C s' = (Ok tt, s')) by (unfold write_history, bind, get; rewrite (ns_nohist _ _ _ _ _ _ _ _ _ _ _ _ _ _ _ _ _ _ NS); reflexivity).
        rewrite (bind_ok _ _ _ _ _ Ew). rewrite (bind_ok get _ s' s' s' eq_refl). do 5 eexists. reflexivity. }
      destruct Hm as (fval & xr & g & h & st' & Hm). clear El s'.
      pose proof (C07_exit_flag E C fuel ndim (fv x0) sid h0 st _ _ _ _ _ Hm) as SR.
      pose proof Hm as Hm2. apply minimize_ok_inv in Hm2 as (f & s & s1 & HL & Hc & Hw & V1 & V2 & V3 & V4).
      assert (Es : st' = s1).
      { apply write_history_inv in Hw as [(_ & _ & ->)|[(file & Hf & _)|(file & Hf & _)]]; [reflexivity|rewrite (ns_nohist _ _ _ _ _ _ _ _ _ _ _ _ _ _ _ _ _ _ NS) in Hf; discriminate..]. }
      subst st'. clear Hw.
      destruct (head_onwards f s HL) as (f1 & s2 & j & Ep' & How). rewrite Ep in Ep'. apply pair_equal_spec in Ep' as [Ep1 Ep2]. apply Ok_inj in Ep1. subst f1 s2.
      pose proof (ne_few _ _ _ _ _ Ep How) as Hj. destruct (ne_going _ _ _ _ _ Ep How) as (_ & x & delta & Hg).
      destruct (ne_start f0 s0 Ep) as (_ & I0 & Cv0).
      pose proof (go_iter _ _ _ _ _ _ _ Hg) as Hit. rewrite I0 in Hit.
      assert (Hcv : o_conv s = true).
      { destruct (o_conv s) eqn:Ecv; [reflexivity|]. exfalso.
        assert (Hlt : (j < k)%nat).
        { destruct (Nat.le_gt_cases k j) as [Hle|Hgt]; [|exact Hgt]. pose proof (ne_done _ _ _ _ _ Hle Hg). congruence. }
        rewrite check_continue_run, Ecv in Hc. destruct (Z.leb_spec (op_maxiter O) (o_iter s)) as [Hz|_]; [clear - Hz Hlt Hit Hmi; lia|]. cbv zeta in Hc.
        assert (Ot : out_of_time E C s = false).
        { unfold out_of_time. rewrite Hmt. generalize (elapsed E s) as t1. intros t1.
          match goal with |- (_ <? ?q)%num = _ => generalize q end. intros t2. destruct t1, t2; reflexivity. }
        rewrite Ot, (na_delta _ _ _ (go_at _ _ _ _ _ _ _ Hg)), spacing_fin in Hc. cbn [nltb ERNum er_ltb] in Hc.
        assert (E52 : IZR (2 ^ 52) = 2 ^ 52) by (rewrite (pow_IZR 2 52); f_equal). rewrite E52 in Hc.
        pose proof (go_delta _ _ _ _ _ _ _ Hg). destruct (Rltb_spec delta (/ 2 ^ 52)); [lra|]. apply pair_equal_spec in Hc as [Hc _]. discriminate Hc. }
      assert (s1 = s) as ->.
      { rewrite check_continue_run, Hcv in Hc. apply pair_equal_spec in Hc as [_ Hc]. now symmetry. }
      assert (Hj1 : (1 <= j)%nat).
      { destruct j; [|clear; lia]. exfalso. inversion How; subst. congruence. }
      destruct Hg as [[[Lx Ex Ef Eg] EB _ _] _ _ G4 _ G5 _ _ _ (ev & G6 & G7)].
      exists x, s. split; [rewrite Hm, V1, V2, V3, V4, Ef, Eg, EB; reflexivity|].
      split; [exact Ex|]. split; [exact Lx|]. split.
      { destruct (o_flag s) eqn:Efl; cbn [stop_reason] in SR; try contradiction; cbn; try tauto; cbv zeta in SR; destruct SR as [SR _]; congruence. }
      split; [clear - Hit Hj Hj1; lia|]. split.
      { rewrite Hit. cbn [Z.add]. rewrite Nat2Z.id. exact G4. }
      split; [now apply G5|].
      destruct (C06_evaluations_counted E C fuel ndim (fv x0) sid h0 st _ _ _ _ _ Hm) as (new & N1 & N2). exists new. split; [exact N1|]. rewrite N2. apply Z.add_comm.
    Qed.
  End Start.
End Run.

(** *** a concrete case that is not quadratic: x^2/2 + x^3/6 from 1/4, with radius 1 and gradient tolerance 1e-4, takes at most three iterations *)
Definition nx_F (x : rvec) : R := match x with [a] => a ^ 2 / 2 + a ^ 3 / 6 | _ => 0 end.
Definition nx_G (x : rvec) : rvec := match x with [a] => [a + a ^ 2 / 2] | _ => [0] end.
Definition nx_H (x : rvec) : rmat := match x with [a] => [[1 + a]] | _ => [[1]] end.
Definition nx_E : env ER :=
  mkEnv (fun _ x => match x with
                    | [Fin a] => RTuple [PScal (Fin (a ^ 2 / 2 + a ^ 3 / 6)); PVec [Fin (a + a ^ 2 / 2)]; PMat 1 [[Fin (1 + a)]]]
                    | _ => RRaise end)
    (fun k => Fin (INR k)) (fun _ => "id"%string) (e_la cx_E) (fun _ => None) (fun _ => None).
Definition nx_C : cfg ER :=
  mkCfg (mkOpts 1000 PInf (Fin 0) (Fin 0) (Fin 0) (Fin (/ 10000)) (Fin 0) "full" "reflect" (Fin (/ 2)) (Fin 1) (Fin (/ 4)) (Fin (3 / 4)) (Fin (/ 4)) (Fin 2) None)
    [NInf] [PInf] 3 false.
Lemma norm1 a : rnorm [a] = Rabs a.
Proof. unfold rnorm, rdot. rewrite Rplus_0_r. apply sqrt_Rsqr_abs. Qed.
Lemma sub1 a b : rsub [a] [b] = [a - b].
Proof. unfold rsub, radd, rscale. cbn. f_equal. ring. Qed.
Lemma nx_min : nondegenerate 1 nx_F nx_G nx_H [0] (/ 2) 1 (/ 2).
Proof.
  constructor; try reflexivity; try lra.
  - unfold nx_G, rzeros. cbn [repeat]. f_equal. lra.
  - intros x z [Lx Hx] Lz. apply one_vec in Lx as (a & ->). apply one_vec in Lz as (c & ->). rewrite sub1, norm1 in Hx.
    unfold rform, rmv, nx_H, rdot. cbn [map]. assert (Ha : Rabs (a - 0) <= / 2) by exact Hx. apply Rabs_le_inv in Ha. nra.
  - intros x y [Lx Hx] [Ly Hy]. apply one_vec in Lx as (a & ->). apply one_vec in Ly as (b & ->).
    unfold nx_G, nx_H, rmv. rewrite !sub1. cbn [map]. unfold rdot, radd. cbn [map2]. 
    match goal with |- rnorm ?u <= _ => replace u with [(b - a) ^ 2 / 2] end.
    + rewrite !norm1. rewrite Rabs_pos_eq by (pose proof (pow2_ge_0 (b - a)); lra). rewrite pow2_abs. lra.
    + rewrite ?sub1. f_equal. ring_simplify. field.
  - intros x y [Lx Hx] [Ly Hy]. apply one_vec in Lx as (a & ->). apply one_vec in Ly as (b & ->).
    unfold nx_F, nx_G, nx_H, qmodel, rform, rmv. rewrite !sub1, !norm1. cbn [map]. unfold rdot.
    match goal with |- Rabs ?u <= _ => replace u with ((b - a) ^ 3 / 6) by field end.
    unfold Rdiv at 1. rewrite Rabs_mult, (Rabs_pos_eq (/ 6)), RPow_abs by lra. lra.
Qed.
Lemma nx_setting : newton_setting nx_E nx_C 1 nx_F nx_G nx_H [0] (/ 2) 1 (/ 2) (/ 4) (3 / 4) (/ 4) 2 1 (/ 2) 1 cx_st.
Proof.
  constructor; try reflexivity; try lia; try (split; [reflexivity|lra]).
  - intros k x Lx. apply one_vec in Lx as (a & ->). reflexivity.
  - intros x Lx. apply one_vec in Lx as (a & ->). split; [reflexivity|]. split.
    + split; [reflexivity|]. repeat constructor.
    + intros [|i] [|j]; cbn; destruct i || idtac; try destruct j; reflexivity.
  - split; reflexivity.
  - exact nx_min.
  - left. split; [reflexivity|]. intros; lia.
Qed.
Example C69_ex : exists a st',
  minimize nx_E nx_C 4 1 (fv [/ 4]) None H0None cx_st = (Ok (Fin (nx_F [a]), o_x st', fv (nx_G [a]), fm (nx_H [a])), st')
  /\ deref st' (o_x st') = fv [a] /\ (1 <= o_iter st' <= 3)%Z /\ Rabs a <= / 4 * (/ 4) ^ (2 ^ Z.to_nat (o_iter st') - 1).
Proof.
  assert (N4 : rnorm (rsub [/ 4] [0]) = / 4) by (rewrite sub1, norm1, Rabs_pos_eq; lra).
  assert (Hc : close 1 [0] (/ 2) 1 (/ 2) (/ 4) [/ 4] 1).
  { unfold close, near. rewrite N4. repeat split; lra. }
  destruct (C69_fast_local_convergence nx_E nx_C 1 nx_F nx_G nx_H [0] (/ 2) 1 (/ 2) (/ 4) (3 / 4) (/ 4) 2 1 (/ 2) 1 [/ 4] None H0None cx_st nx_setting eq_refl
    (/ 10000) ltac:(split; [reflexivity|lra]) Hc) with (k := 3%nat) (fuel := 4%nat) as (x & st' & K1 & K2 & Lx & K3 & K4 & K5 & _).
  - exists 0%nat. unfold nx_G. cbn [nth]. lra.
  - lia.
  - intros x [Lx Hx] He. apply one_vec in Lx as (a & ->). rewrite N4 in He. rewrite sub1, norm1 in He. unfold nx_G. rewrite norm1.
    change (2 ^ 3 - 1)%nat with 7%nat in He. replace (a - 0) with a in He by ring. 
    assert (Ha : Rabs a <= / 65536) by (eapply Rle_trans; [exact He|]; right; field).
    pose proof (Rabs_pos a). replace (a + a ^ 2 / 2) with (a * (1 + a / 2)) by field. rewrite Rabs_mult.
    assert (Rabs (1 + a / 2) <= 2) by (apply Rabs_le; apply Rabs_le_inv in Ha; lra). pose proof (Rabs_pos (1 + a / 2)). nra.
  - reflexivity.
  - cbn. lia.
  - lra.
  - lia.
  - rewrite N4 in K5. apply one_vec in Lx as (a & ->). exists a, st'. rewrite sub1, norm1 in K5. replace (a - 0) with a in K5 by ring.
    replace (1 / (2 * / 2) * / 4) with (/ 4) in K5 by field. auto.
Qed.
