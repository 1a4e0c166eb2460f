(** C63, continued: exact linear algebra delivers what the convergence theorem asks of the subspace solver *)
From Coq Require Import String ZArith List Bool Reals Lra Lia Psatz.
From Verif Require Import Num Constants Subproblem HessApprox Steps TrustRegion Minimize
  ER NumFacts MonadFacts MinFacts Spec Run RunInv RVec SubNd RShess Argmin Cand StepFacts Prop_Sub1d Prop_Pred Prop_Box
  Prop_Cand TRErr RealStep Prop_Grad Region Prop_Run Prop_Nudge Prop_BoxRun Prop_BoxRun2 HessDim Prop_Region Prop_CG Prop_TwoD Unbounded UnboundedFull Unbounded2D Converge
  BoundedGrad BoundedStep Prop_ConvergeBox.
Import ListNotations.
Local Open Scope R_scope.
Local Open Scope list_scope.

(** the step found in a subspace depends on the scaled problem only *)
Lemma same_og O r1 r2 c1 c2 : calculate O r1 = Ok c1 -> calculate O r2 = Ok c2 ->
  st_subspace r1 = st_subspace r2 -> st_shess r1 = st_shess r2 -> st_sg r1 = st_sg r2 -> st_delta r1 = st_delta r2 ->
  st_ss0 r1 = st_ss0 r2 -> length (st_s0 r1) = length (st_s0 r2) -> st_og_ss c1 = (st_og_ss c2 : list ER).
Proof.
  intros H1 H2 E1 E2 E3 E4 E5 E6.
  apply calculate_fields in H1 as (sc1 & ss1 & s1 & S1 & A1 & _ & T1 & _).
  apply calculate_fields in H2 as (sc2 & ss2 & s2 & S2 & A2 & _ & T2 & _).
  assert (sc1 = sc2) as ->.
  { unfold solved, subspace_hess in S1, S2. rewrite E1, E2, E3, E4, E5 in S1. destruct (st_subspace r2) as [|u [|v sub]]; [congruence|congruence|].
    destruct S1 as (l1 & S1), S2 as (l2 & S2). rewrite S1 in S2. now injection S2. }
  rewrite (sb_og_ss _ _ _ _ _ T1), (sb_og_ss _ _ _ _ _ T2), A1, A2, E1, E6. reflexivity.
Qed.

Lemma lincomb_le (k : nat) : forall sc sub, (length (lincomb k sc sub : list ER) <= k)%nat.
Proof.
  induction sc as [|a sc IH]; intros [|u sub]; cbn [lincomb]; try (unfold vzeros; now rewrite repeat_length).
  unfold vadd. rewrite Prop_Pred.map2_length. specialize (IH sub). lia.
Qed.

Section Deliver.
  Variables (O : StepOracles ER) (n : nat) (x g : rvec) (H : rmat) (D dv : rvec) (delta theta : R) (lb ub : list ER).
  Hypothesis P : problem n x g H D dv delta theta lb ub.
  Local Notation A := (rA x g H D dv delta theta lb ub).
  Local Notation B := (rB n g H D dv).
  Local Notation sg := (rsg g D).
  (** the same problem in the scaled variables, without bounds *)
  Local Notation A' := (rA x sg B (rones n) (rzeros n) delta theta (no_lb n) (no_ub n)).

  Lemma sg_len : length sg = n. Proof using O P. apply (rsg_length n x g H D dv delta theta lb ub P). Qed.
  Lemma B_sym : symmetric B. Proof using O P. apply (rB_sym n x g H D dv delta theta lb ub P). Qed.
  Lemma P' : problem n x sg B (rones n) (rzeros n) delta theta (no_lb n) (no_ub n).
  Proof using O P. pose proof sg_len. pose proof B_sym. pose proof P as Q. destruct Q. apply free_problem; auto. apply rB_mat. Qed.
  Lemma shess_A' : shess_of (a_scaling A') (a_hess A') (a_gd A') = fm B.
  Proof using O P. rewrite (rA_shess n x sg B (rones n) (rzeros n) delta theta (no_lb n) (no_ub n) P'). rewrite free_B; auto using sg_len. apply rB_mat. Qed.
  Lemma sg_A' : a_sg A' = fv sg.
  Proof using O P. rewrite rA_sg, free_sg; auto using sg_len. Qed.

  Lemma new_step_og typ typ' sub pd nw pd' nw' c c' :
    calculate O (new_step typ A (a_x A) sub (zeros_of A) (zeros_of A) [] [] pd nw) = Ok c ->
    calculate O (new_step typ' A' (a_x A') sub (zeros_of A') (zeros_of A') [] [] pd' nw') = Ok c' -> st_og_ss c = st_og_ss c'.
  Proof using O P.
    intros H1 H2. eapply same_og; [exact H1|exact H2|..]; cbn [new_step st_subspace st_shess st_sg st_delta st_ss0 st_s0]; auto.
    - rewrite shess_A'. apply (rA_shess n x g H D dv delta theta lb ub P).
    - rewrite sg_A'. apply rA_sg.
    - rewrite (zeros_rA n x g H D dv delta theta lb ub P). symmetry. apply (zeros_rA n x sg B (rones n) (rzeros n) delta theta (no_lb n) (no_ub n) P').
    - rewrite (zeros_rA n x g H D dv delta theta lb ub P). symmetry. rewrite (zeros_rA n x sg B (rones n) (rzeros n) delta theta (no_lb n) (no_ub n) P'). reflexivity.
  Qed.
  (** the main steps of both problems are found alike *)
  Lemma main_og sd c c' : sd = "full"%string \/ sd = "2D"%string ->
    (sd = "2D"%string -> forall e1 e2 v, so_eig O (fm B) = Some (e1, e2, v) -> (npmin e1 >? (- spacing1) * npmax e2)%num = true) -> main_step O A sd = Ok c -> main_step O A' sd = Ok c' -> st_og_ss c = st_og_ss c'.
  Proof using O P.
    intros Hsd Hpd Hm Hm'. pose proof P as Q. destruct Q. destruct Hsd as [-> | ->].
    - change (calculate O (tr_step_full A) = Ok c) in Hm. change (calculate O (tr_step_full A') = Ok c') in Hm'. unfold tr_step_full in *.
      change (a_hess A) with (fm H) in Hm. change (a_hess A') with (fm B) in Hm'. rewrite fm_length in *. rewrite (proj1 (rB_mat n g H D dv)) in Hm'. rewrite (proj1 pb_H) in Hm.
      exact (new_step_og _ _ _ _ _ _ _ _ _ Hm Hm').
    - unfold main_step in Hm, Hm'. cbn [String.eqb Ascii.eqb Bool.eqb] in Hm, Hm'.
      apply rbind_ok in Hm as (r & Hr & Hc). apply rbind_ok in Hm' as (r' & Hr' & Hc').
      unfold tr_step_2d in Hr, Hr'. cbv zeta in Hr, Hr'.
      rewrite (rA_shess n x g H D dv delta theta lb ub P), rA_sg in Hr. rewrite shess_A', sg_A' in Hr'.
      change (a_delta A) with (Fin delta) in Hr. change (a_delta A') with (Fin delta) in Hr'.
      destruct (so_lstsq O (fm B) (fv sg)) as [ls|]; [|discriminate]. destruct (so_eig O (fm B)) as [[[e1 e2] v]|]; [|discriminate].
      specialize (Hpd eq_refl e1 e2 v eq_refl). rewrite Hpd in Hr, Hr'. cbn [andb] in Hr, Hr'.
      set (cd := (norm (vopp ls) <? Fin delta)%num) in *. set (nz := normalize (vopp ls)) in *.
      destruct (fv sg) as [|e [|e' sg']].
      + destruct cd; [|destruct (_ >? _)%num]; apply Ok_inj in Hr; apply Ok_inj in Hr'; subst r r'; exact (new_step_og _ _ _ _ _ _ _ _ _ Hc Hc').
      + apply Ok_inj in Hr; apply Ok_inj in Hr'; subst r r'; exact (new_step_og _ _ _ _ _ _ _ _ _ Hc Hc').
      + set (og := vsub (e :: e' :: sg') _) in *.
        destruct cd; [|destruct (norm og >? spacing1)%num]; apply Ok_inj in Hr; apply Ok_inj in Hr'; subst r r'; exact (new_step_og _ _ _ _ _ _ _ _ _ Hc Hc').
  Qed.

  (** without bounds the step is not shortened, so it is the step found *)
  Lemma free_og sd c w : sd = "full"%string \/ sd = "2D"%string -> main_step O A' sd = Ok c -> free_step n sg B c w -> st_og_ss c = fv w.
  Proof using O P.
    intros Hsd Hm [Lw Es _ _ _]. destruct (main_calc O n x sg B (rones n) (rzeros n) delta theta (no_lb n) (no_ub n) P' sd Hsd c Hm) as (typ & sub & pd & nw & Hc & Hs).
    apply calculate_fields in Hc as (sc & ss & s & _ & Elc & Ess & Hst & _). pose proof P as Q. destruct Q.
    assert (Fs : exists v, length v = n /\ s = fv v).
    { pose proof (sb_s _ _ _ _ _ Hst) as E1. rewrite Es in E1.
      assert (Ls : length s = n) by (rewrite <- Lw, <- (fv_length w), E1; unfold vscaler; now rewrite map_length).
      destruct (fv_of s) as [v ->]; [|exists v; split; [now rewrite fv_length in Ls|reflexivity]].
      intros i Hi. assert (K : nth i (fv w) NaN = er_mul (nth i s NaN) (st_alpha c)).
      { rewrite E1. unfold vscaler. rewrite (nth_map_lt _ s i NaN) by auto. reflexivity. }
      rewrite h_nth in K by lia. destruct (nth i s NaN) as [q| | |], (st_alpha c) as [q'| | |]; cbn in K; try discriminate; eauto;
        unfold er_infmul in K; repeat match type of K with context [if ?b then _ else _] => destruct b end; discriminate. }
    assert (Ha : st_alpha c = n1).
    { eapply (free_alpha n x theta); [exact pb_n|exact pb_x|exact pb_theta|exact Hst|reflexivity..|exact Fs]. }
    destruct Fs as (v & Lv & ->). destruct Hst. rewrite sb_s, Ha, vscaler_1 in Es. apply fv_inj in Es. subst v.
    rewrite sb_og_ss. cbn [new_step st_subspace st_scaling] in Ess. change (a_scaling A') with (fv (rones n)) in Ess.
    destruct sub as [|u sub]; [congruence|].
    assert (Lss : forall i, (i < n)%nat -> nth i ss NaN = Fin (nth i w 0)).
    { intros i Hi. pose proof (f_equal (fun q => nth i q NaN) Ess) as K. cbn beta in K. rewrite nth_vmul_nan, !h_nth, nth_rones in K by (rewrite ?rones_length; lia).
      destruct (nth i ss NaN) as [q| | |]; cbn in K; try discriminate; [injection K as K; f_equal; lra| |];
        unfold er_infmul in K; repeat match type of K with context [if ?b then _ else _] => destruct b end; discriminate. }
    assert (Ln : (length ss <= n)%nat).
    { rewrite Elc. cbn [new_step st_s0]. rewrite (zeros_rA n x sg B (rones n) (rzeros n) delta theta (no_lb n) (no_ub n) P').
      eapply Nat.le_trans; [apply lincomb_le|]. rewrite fv_length, rzeros_length. lia. }
    apply (nth_ext _ _ NaN NaN).
    - rewrite fv_length. destruct (Nat.lt_ge_cases (length ss) n) as [Hl|]; [|lia].
      specialize (Lss (length ss) Hl). rewrite nth_overflow in Lss by lia. discriminate.
    - intros i Hi. rewrite h_nth by lia. apply Lss. lia.
  Qed.

  Lemma posdef_B : posdef n H -> (forall i, (i < n)%nat -> 0 <= nth i dv 0) -> posdef n B.
  Proof using O P.
    intros PH Hv z Lz [i Hi]. pose proof P as Q. destruct Q. unfold rB. rewrite rform_rshess by auto.
    assert (Hi' : (i < n)%nat) by (destruct (Nat.lt_ge_cases i n); [auto|rewrite nth_overflow in Hi by lia; lra]).
    assert (K1 : 0 < rform H (rmul D z) (rmul D z)).
    { apply PH; [now apply rmul_length|]. exists i. rewrite (nth_rmul _ _ n) by auto.
      assert (0 < nth i D 0) by (rewrite Forall_forall in pb_pos; apply pb_pos, nth_In; lia). apply Rmult_integral_contrapositive_currified; lra. }
    assert (K2 : 0 <= rsum n (fun i => nth i (rmul (rabsv g) dv) 0 * (nth i z 0 * nth i z 0))).
    { apply rsum_nonneg. intros j Hj. rewrite (nth_rmul _ _ n) by (auto; now rewrite rabsv_length). rewrite nth_rabsv.
      specialize (Hv j Hj). pose proof (Rabs_pos (nth j g 0)). apply Rmult_le_pos; [|nra]. apply Rmult_le_pos; lra. }
    lra.
  Qed.
  Lemma eig_posdef e1 e2 v : (1 <= n)%nat -> posdef n B -> exact_2d O n B -> so_eig O (fm B) = Some (e1, e2, v) -> (npmin e1 >? (- spacing1) * npmax e2)%num = true.
  Proof using O P.
    intros Hn PB ((vals & V & HD & Ee) & _) E. rewrite Ee in E. injection E as <- <- <-.
    destruct (posdef_smallest n B vals V) as (m & [(i & Hi & Ei) Hm] & Pm); auto using B_sym; [apply rB_mat|].
    rewrite (npmin_vals n B sg vals V) by auto using sg_len.
    assert (Pmin : 0 < mineig vals).
    { unfold mineig, ev. pose proof (jm_lt n B sg vals V sg_len Hn HD) as Hj. specialize (Hm _ Hj). lra. }
    destruct (npmax_abs vals) as (b & Eb & Hb); [intros ->; destruct HD as [HD _]; simpl in HD; lia|].
    rewrite Eb, spacing_fin. cbn [nopp ERNum er_opp nmul er_mul nltb er_ltb].
    assert (0 < / IZR (2 ^ 52)) by (apply Rinv_0_lt_compat, IZR_lt; reflexivity).
    destruct (Rltb_spec (- / IZR (2 ^ 52) * b) (mineig vals)); [reflexivity|]. nra.
  Qed.

  Definition chi_of (sd : string) : R := if String.eqb sd "2D" then 3 / 4 else 1.
  Lemma exact_delivers sd M2 : sd = "full"%string \/ sd = "2D"%string -> posdef n B -> curvature_le n M2 B -> 0 < M2 -> 0 < rnorm sg ->
    (sd = "full"%string -> solvable (so_sub O) n B) -> (sd = "2D"%string -> exact_2d O n B /\ 2 * / IZR (2 ^ 52) <= rnorm sg) ->
    delivers O n x g H D dv delta theta lb ub sd (chi_of sd) M2.
  Proof using O P.
    intros Hsd PB HB HM Np H1 H2 c Hc. pose proof sg_len as Lsg. pose proof P as Q. destruct Q. pose proof (rB_mat n g H D dv) as MB.
    assert (Ng : nonzero sg) by (apply nonzero_dot; rewrite <- rnorm_sq; nra).
    destruct Hsd as [-> | ->]; unfold chi_of; cbn [String.eqb Ascii.eqb Bool.eqb].
    - destruct (free_full O n x sg B delta theta) with (strat := "reflect"%string) as (c' & w & _ & E1 & E2 & E3 & E4 & _); auto using B_sym.
      assert (Hm' : main_step O A' "full" = Ok c').
      { unfold candidates in E1. destruct (main_step O A' "full") as [m|]; [|discriminate]. cbn [rbind] in E1.
        match type of E1 with context [if ?b then _ else _] => destruct b end; [|apply Ok_inj in E1; now injection E1 as <-].
        apply rbind_ok in E1 as (ex & _ & E1). apply Ok_inj in E1. now injection E1 as <-. }
      exists w. assert (Lw : length w = n) by apply E2. split; [exact Lw|]. split; [|split; [exact E3|]].
      + rewrite (main_og "full" c c'); auto; [|discriminate]. apply (free_og "full" c' w); auto.
      + rewrite Rmult_1_l. apply (cauchy_decrease n B); auto. intros a Ha. apply E4; [rlen|exact Ha].
    - destruct (H2 eq_refl) as [EX Hc2].
      destruct (free_2d O n x sg B delta theta) with (strat := "reflect"%string) as (c' & w & _ & E1 & E2 & E3 & E4 & _); auto using B_sym.
      assert (Hm' : main_step O A' "2D" = Ok c').
      { unfold candidates in E1. destruct (main_step O A' "2D") as [m|]; [|discriminate]. cbn [rbind] in E1.
        match type of E1 with context [if ?b then _ else _] => destruct b end; [|apply Ok_inj in E1; now injection E1 as <-].
        apply rbind_ok in E1 as (ex & _ & E1). apply Ok_inj in E1. now injection E1 as <-. }
      exists w. assert (Lw : length w = n) by apply E2. split; [exact Lw|]. split; [|split; [exact E3|]].
      + rewrite (main_og "2D" c c'); auto; [apply (free_og "2D" c' w); auto|]. intros _ e1 e2 v. now apply eig_posdef.
      + destruct E4 as [E4|(u & U1 & U2 & U3 & U4)].
        * assert (K : rnorm sg / 2 * Rmin delta (rnorm sg / M2) <= - qmodel B sg w) by (apply (cauchy_decrease n B); auto).
          assert (0 <= Rmin delta (rnorm sg / M2)) by (apply Rmin_glb; [lra|apply Rmult_le_pos; [lra|left; now apply Rinv_0_lt_compat]]).
          assert (0 <= rnorm sg / 2 * Rmin delta (rnorm sg / M2)) by (apply Rmult_le_pos; lra). lra.
        * apply (cauchy_near n B sg u _ e52); auto.
  Qed.
  (** a minimizer of the scaled model inside the trust region, from which no bound is nearer than the step-back asks, is the step proposed *)
  Lemma newton_proposed strat w sp : posdef n B -> solvable (so_sub O) n B -> 0 < rnorm sg -> length w = n -> rnorm w <= delta ->
    (forall y, length y = n -> qmodel B sg y <= qmodel B sg w -> y = w) ->
    (forall i m, (i < n)%nat -> nth i (breakpoints (fv x) (fv (rmul D w)) lb ub) NaN = Fin m -> 1 <= theta * m) ->
    trust_region O (fv x) (fv g) (fm H) (fv D) (Fin delta) (fv dv) (Fin theta) lb ub "full" strat = Ok sp ->
    vadd (st_ss sp) (st_ss0 sp) = fv w /\ st_qpval sp = Fin (qmodel B sg w) /\ vadd (vadd (fv x) (st_s sp)) (st_s0 sp) = fv (radd x (rmul D w)).
  Proof using O P.
    intros PB Hs Np Lw Nw Hu Hbr Htr. pose proof sg_len as Lsg. pose proof P as Q. destruct Q. pose proof (rB_mat n g H D dv) as MB.
    assert (Hsd : "full"%string = "full"%string \/ "full"%string = "2D"%string) by now left.
    unfold trust_region in Htr. cbv zeta in Htr. apply rbind_ok in Htr as (l & Hl & Hsp). change (candidates O A "full" strat = Ok l) in Hl.
    unfold candidates in Hl. apply rbind_ok in Hl as (c & Hm & Hl).
    destruct (free_full O n x sg B delta theta) with (strat := "reflect"%string) as (c' & w' & _ & E1 & E2 & E3 & E4 & _); auto using B_sym.
    assert (Hm' : main_step O A' "full" = Ok c').
    { unfold candidates in E1. destruct (main_step O A' "full") as [m|]; [|discriminate]. cbn [rbind] in E1.
      match type of E1 with context [if ?b then _ else _] => destruct b end; [|apply Ok_inj in E1; now injection E1 as <-].
      apply rbind_ok in E1 as (ex & _ & E1). apply Ok_inj in E1. now injection E1 as <-. }
    assert (Lw' : length w' = n) by apply E2.
    assert (Ew : st_og_ss c = fv w).
    { rewrite (main_og "full" c c'); auto; [|discriminate]. rewrite (free_og "full" c' w'); auto. f_equal. apply Hu; auto. }
    assert (He : 0 < / IZR (2 ^ 26)) by (apply Rinv_0_lt_compat, IZR_lt; reflexivity).
    assert (Nw' : rnorm w <= delta + / IZR (2 ^ 26)) by lra.
    pose proof (main_fcand O n x g H D dv delta theta lb ub P "full" Hsd c w Hm Ew Lw Nw') as Hf.
    assert (Ha : st_alpha c = n1).
    { destruct (fcand_alpha n x g H D dv delta theta lb ub P _ _ _ _ Hf) as (a & Ea & Ha & [[_ ->]|(m & Em & Hm0 & -> & i & Hi & Ei)]); [exact Ea|].
      rewrite Ea. change (n1 : ER) with (Fin 1). f_equal. apply Rmin_left. apply (Hbr i); auto.
      destruct (main_calc O n x g H D dv delta theta lb ub P "full" Hsd c Hm) as (typ & sub & pd & nw & Hc & Hne).
      apply calculate_fields in Hc as (sc & ss & s & _ & _ & Es & Hst & _). destruct Hst. rewrite sb_br in Ei. rewrite sb_og_ss in Ew. subst ss.
      cbn [new_step st_x st_lb st_ub st_subspace st_scaling] in Es, Ei. destruct sub as [|u sub]; [congruence|]. change (a_scaling A) with (fv D) in Es.
      rewrite h_vmul in Es. subst s. exact Ei. }
    rewrite Ha in Hl. assert (E : ((n1 : ER) <? n1)%num = false) by (cbn; destruct (Rltb_spec 1 1); [lra|reflexivity]). rewrite E in Hl. cbn [andb] in Hl.
    apply Ok_inj in Hl. subst l. cbn [map] in Hsp. assert (Earg : argmin [st_qpval c] = 0%nat) by reflexivity.
    rewrite Earg in Hsp. cbn [nth_error of_option] in Hsp. apply Ok_inj in Hsp. subst sp.
    destruct (main_uncut O n x g H D dv delta theta lb ub P "full" Hsd c w 1 Hm Ew Lw Nw' Ha ltac:(lra)) as [K1 K2]. split; [exact K1|]. split; [exact K2|].
    destruct (main_calc O n x g H D dv delta theta lb ub P "full" Hsd c Hm) as (typ & sub & pd & nw & Hc & Hne).
    rewrite (zeros_rA n x g H D dv delta theta lb ub P) in Hc.
    apply calculate_fields in Hc as (sc & ss & s & _ & _ & Es & Hst & _). destruct Hst. rewrite sb_og_ss in Ew. subst ss.
    cbn [new_step st_x st_lb st_ub st_subspace st_scaling st_s0] in *. destruct sub as [|u sub]; [congruence|]. change (a_scaling A) with (fv D) in Es.
    rewrite h_vmul in Es. subst s. rewrite sb_s, sb_s0, Ha, vscaler_1, !h_vadd. f_equal.
    assert (length (rmul D w) = n) by (now apply rmul_length). assert (length (rzeros n) = n) by apply rzeros_length.
    apply rvec_ext; [rlen|]. intros i. rewrite nth_radd, nth_rzeros by rlen. ring.
  Qed.
End Deliver.

(** the step-back parameter of finite scalings *)
Lemma theta_real tm (v g : rvec) : 0 < tm -> length v = length g -> (1 <= length g)%nat ->
  exists t, pymax (Fin tm) (n1 - norm_inf (vmul (fv v) (fv g)))%num = Fin t /\ (tm <= 1 -> 0 < t <= 1).
Proof.
  intros Ht Lv Lg. rewrite h_vmul. unfold norm_inf. rewrite h_vabs.
  assert (M : forall l a, 0 <= a -> Forall (fun b => 0 <= b) l -> exists m, fold_left npmax2 (fv l) (Fin a) = Fin m /\ 0 <= m).
  { induction l as [|b l IH]; intros a Ha Hl; [exists a; auto|]. inversion Hl; subst. cbn [fv map fold_left].
    unfold npmax2 at 2. cbn [nisnan ERNum er_isnan nltb er_ltb]. destruct (Rltb a b); apply IH; auto. }
  assert (K : exists m, npmax (fv (rabsv (rmul v g))) = Fin m /\ 0 <= m).
  { assert (Ll : length (rabsv (rmul v g)) = length g) by (rewrite rabsv_length; now apply rmul_length).
    assert (Fl : Forall (fun b => 0 <= b) (rabsv (rmul v g))).
    { unfold rabsv. apply Forall_map, Forall_forall. intros; apply Rabs_pos. }
    destruct (rabsv (rmul v g)) as [|a l]; [simpl in Ll; lia|]. inversion Fl; subst. cbn [fv map npmax]. apply M; auto. }
  destruct K as (m & -> & Hm). unfold pymax. cbn [nsub ERNum er_sub er_opp er_add n1 nofZ nltb er_ltb].
  destruct (Rltb_spec tm (1 + - m)); eexists; (split; [reflexivity|]); intros; lra.
Qed.

Section ExactRun.
  Variables (E : env ER) (C : cfg ER) (n : nat).
  Variables (F : rvec -> R) (G : rvec -> rvec) (L M W gm mu eta g1 g2 D0 tm : R).
  Local Notation O := (c_opts C).
  Local Notation chi := (chi_of (op_subspace_dim O)).
  Hypothesis BS : box_setting E C n F G L M W gm mu eta g1 g2 D0 tm chi.
  Local Notation M2' := (M2 M W gm tm).

  (** the model Hessian is positive definite with curvature at most M, and the external routines treat the scaled Hessian exactly *)
  Record exact_head (s : opt ER) : Prop := mkExactHead {
    eh_hess : exists B, o_hess s = fm B /\ is_mat n n B /\ symmetric B /\ curvature_le n M B /\ posdef n B;
    eh_solver : forall A, shess_of (a_scaling (step_args C s)) (a_hess (step_args C s)) (a_gd (step_args C s)) = fm A ->
       (op_subspace_dim O = "full"%string -> solvable (so_sub (e_la E)) n A) /\ (op_subspace_dim O = "2D"%string -> exact_2d (e_la E) n A);
    eh_real : forall sp, proposes E C s sp -> vfinite (trial_point s sp) = true
  }.

  Lemma exact_good Fs s xe x delta eps : reach C n F W Fs -> at_pt C n F G s xe x -> F xe <= Fs -> o_delta s = Fin delta -> 0 < delta ->
    0 < eps -> (op_subspace_dim O = "2D"%string -> 2 * / IZR (2 ^ 52) <= eps) -> nleb (Fin eps) (norm (scaled_gradient C s)) = true ->
    exact_head s -> good_head E C n M W gm tm chi s.
  Proof using BS.
    intros RE Ha Hf Ed Hd He Hc2 Hst [(B & EB & MB & SB & HB & PB) Hex Hre].
    destruct (geometry E C n F G L M W gm mu eta g1 g2 D0 tm chi BS Fs RE s xe x Ha Hf) as (D & dv & E1 & E2 & LD & Lv & PD & RM & D2 & V01).
    destruct Ha as [Bx Ex (Bxx & Sx & Nx) Ef Eg]. pose proof Bxx as [Lx _]. pose proof (bs_len _ _ _ _ _ _ _ _ _ _ _ _ _ _ _ _ BS xe Bx) as LG.
    pose proof (bs_lb _ _ _ _ _ _ _ _ _ _ _ _ _ _ _ _ BS) as Ll. pose proof (bs_ub _ _ _ _ _ _ _ _ _ _ _ _ _ _ _ _ BS) as Lu.
    pose proof (bs_n _ _ _ _ _ _ _ _ _ _ _ _ _ _ _ _ BS) as Hn.
    destruct (affine_fst x (G xe) (c_lb C) (c_ub C)) as (v & Ev & Lvv); try congruence.
    pose proof (bs_tm _ _ _ _ _ _ _ _ _ _ _ _ _ _ _ _ BS) as [Etm Htm].
    destruct (theta_real tm v (G xe)) as (t & Et & Ht); auto; try congruence; try lia; try lra.
    specialize (Ht (proj2 Htm)).
    assert (P : problem n x (G xe) B D dv delta t (c_lb C) (c_ub C)) by (constructor; auto; try lia; apply Bxx).
    assert (EA : step_args C s = rA x (G xe) B D dv delta t (c_lb C) (c_ub C)).
    { unfold step_args, rA. cbv zeta. rewrite Ex, Eg, EB, Ed, Ev, Etm. change (n1 - norm_inf (vmul (fv v) (fv (G xe))))%num with (nsub n1 (norm_inf (vmul (fv v) (fv (G xe))))).
      rewrite Et, E1, E2. reflexivity. }
    assert (Esg : scaled_gradient C s = fv (rsg (G xe) D)) by (unfold scaled_gradient; rewrite EA; apply rA_sg).
    rewrite Esg, h_norm in Hst. cbn [nleb ERNum er_leb] in Hst.
    assert (Hg : eps <= rnorm (rsg (G xe) D)) by (destruct (Rleb_spec eps (rnorm (rsg (G xe) D))); [lra|discriminate]).
    pose proof (posdef_B (e_la E) n x (G xe) B D dv delta t (c_lb C) (c_ub C) P PB ltac:(intros i Hi; apply V01; auto)) as PB2.
    assert (Cu : curvature_le n M2' (rB n (G xe) B D dv)).
    { intros z Lz. rewrite Rabs_pos_eq.
      2:{ destruct (nonzero_dec z) as [Hz|Hz]; [left; now apply PB2|]. rewrite (all0_zeros z Hz). unfold rform. rewrite rdot_zeros_l. lra. }
      destruct (scaled_curvature E C n F G L M W gm mu eta g1 g2 D0 tm chi BS D dv (G xe) B z) as [_ K]; auto.
      { intros i Hi. now apply (bs_grad _ _ _ _ _ _ _ _ _ _ _ _ _ _ _ _ BS). }
      eapply Rle_trans; [exact K|]. apply Rmult_le_compat_r; [rewrite <- rnorm_sq; pose proof (rnorm_nonneg z); nra|].
      apply (M2_gm E C n F G L M W gm mu eta g1 g2 D0 tm chi BS). }
    specialize (Hex (rB n (G xe) B D dv)). rewrite EA, (rA_shess n x (G xe) B D dv delta t (c_lb C) (c_ub C) P) in Hex. specialize (Hex eq_refl). destruct Hex as [X1 X2].
    constructor; [exists B; auto| |exact Hre].
    intros c delta' N Hc Ed' EN. rewrite Ed in Ed'. injection Ed' as <-. rewrite Esg, h_norm in EN. injection EN as <-. rewrite EA in Hc.
    pose proof (bs_solver _ _ _ _ _ _ _ _ _ _ _ _ _ _ _ _ BS) as Hsd.
    destruct (exact_delivers (e_la E) n x (G xe) B D dv delta t (c_lb C) (c_ub C) P (op_subspace_dim O) M2' Hsd PB2 Cu
      (M2_pos E C n F G L M W gm mu eta g1 g2 D0 tm chi BS) ltac:(lra) X1) with (c := c) as (w & Lw & Ew & Nw & Dw); auto.
    { intros K. split; [auto|]. specialize (Hc2 K). lra. }
    exists w, (qmodel (rB n (G xe) B D dv) (rsg (G xe) D) w). split; [exact Lw|]. split; [exact Ew|]. split; [exact Nw|]. split; [|exact Dw].
    destruct (main_calc (e_la E) n x (G xe) B D dv delta t (c_lb C) (c_ub C) P (op_subspace_dim O) Hsd c Hc) as (typ & sub & pd & nw & Hcc & _).
    apply calculate_fields in Hcc as (sc & ss & sv & _ & _ & _ & Hstp & _). destruct Hstp. cbn [new_step st_shess st_sg] in sb_shess, sb_sg.
    rewrite sb_shess, sb_sg, Ew. rewrite (rA_shess n x (G xe) B D dv delta t (c_lb C) (c_ub C) P), rA_sg.
    apply (h_quadratic n); auto; try apply rB_mat; try (apply (rsg_length n x (G xe) B D dv delta t (c_lb C) (c_ub C) P)).
  Qed.

  Section Start.
  Variables (ndim : nat) (x0 : rvec) (sid : option string) (h0 : hess0_arg ER) (st : opt ER) (xs : rvec).
  Hypothesis B0 : boxpt C n x0.
  Hypothesis Hxs : nudge C (fv x0) = fv xs.
  Hypothesis RE : reach C n F W (F xs).
  Local Notation steep := (steep_box E C ndim x0 sid h0 st).
  Definition exact_run (eps : R) : Prop :=
    forall f s, steep eps f s -> nleb (Fin eps) (norm (scaled_gradient C s)) = true -> exact_head s.

  (** the bound on the number of passes, and the first-order point found, for positive definite model Hessians and exact linear algebra *)
  Theorem C63_exact_solvers eps Fl p q :
    0 < eps -> (op_subspace_dim O = "2D"%string -> 2 * / IZR (2 ^ 52) <= eps) ->
    coarse_box n L M W gm mu g1 D0 tm chi eps -> exact_run eps -> (forall y, boxpt C n y -> Fl <= F y) ->
    g2 * g1 ^ p <= 1 -> D0 * g1 ^ q < least_rad L M W gm mu g1 D0 tm chi eps ->
    (forall f s, steep eps f s -> IZR (o_iter s) < most_box F L M W gm mu g1 D0 tm chi xs eps Fl p q)
    /\ forall f s, loop_head E C ndim (fv x0) sid h0 st f s -> most_box F L M W gm mu g1 D0 tm chi xs eps Fl p q <= IZR (o_iter s) ->
       exists f1 s1 xe x, loop_head E C ndim (fv x0) sid h0 st f1 s1 /\ (o_iter s1 < o_iter s)%Z
         /\ at_pt C n F G s1 xe x /\ nearly_first_order C n eps x (G xe).
  Proof using BS B0 Hxs RE.
    intros He Hc2 Hco HX HF Hp Hq.
    assert (HG : good_run E C n F G M W gm tm chi ndim x0 sid h0 st xs eps).
    { intros f s xe x delta HR Hst Ha Hf Ed Hd. apply (exact_good (F xs) s xe x delta eps); auto. apply (HX f); auto. }
    split.
    - intros f s HR. eapply C63_steep_passes_bounded; eauto.
    - intros f s HL Hit.
      destruct (C63_first_order_point_reached E C n F G L M W gm mu eta g1 g2 D0 tm chi BS ndim x0 sid h0 st xs B0 Hxs RE eps Fl p q f s He Hco HG HF Hp Hq HL Hit)
        as (f1 & s1 & xe & x & N & A1 & A2 & _ & A3 & _ & _ & A4).
      exists f1, s1, xe, x. auto.
  Qed.
  End Start.
End ExactRun.
