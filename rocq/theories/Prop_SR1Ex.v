(** C61: a concrete run.  F(x) = x^2 in one variable, started at 1 with SR1 from the identity and radius 1: the first pass moves to the
    minimizer and replaces the model's second derivative 1 by the right one, 2. *)
From Coq Require Import String ZArith List Bool Reals Lra Lia Psatz.
From Verif Require Import Num Constants Subproblem HessApprox Steps TrustRegion Minimize
  ER NumFacts MonadFacts MinFacts Spec Run RunInv HessRun RVec Quasi StepFacts Prop_Quasi Prop_Sym Prop_Run Prop_Run2 Prop_QuasiRun Unbounded UnboundedFull Converge Prop_Converge Prop_Converge2 Prop_Observers RunFrame Prop_SR1.
Import ListNotations.
Local Open Scope R_scope.
Local Open Scope list_scope.

(** a pass with an iterative scheme does not fail once a step is proposed and the objective answers at the trial point *)
Lemma iteration_total_iter {T} {N : Num T} (E : env T) (C : cfg T) f s1 sp pf fn j :
  it_tr E C s1 = Ok sp -> fun_evaluate (c_nargout C) (c_resfun C) (it_ret E s1 sp) = Ok pf ->
  typed_fout (length (deref s1 (o_x s1))) pf (length (o_heap s1)) = Ok fn -> fo_x fn = length (o_heap s1) ->
  all_finite (fo_fval fn) (fo_grad fn) (fo_hess fn) = true ->
  in_bounds C (it_trial s1 sp) = true ->
  all_finite (o_fval s1) (o_grad s1) (Some (o_hess s1)) = true -> o_happ s1 = Some (HIter j) -> has_history C = false ->
  exists f' s', iteration E C f s1 = (Ok f', s').
Proof.
  intros Itr Ev Ty Fx Fin' Ib Cur Hp Hh.
  destruct (iteration E C f s1) as [[f'|e] s'] eqn:Ei; [eauto|]. exfalso. apply iteration_inv in Ei.
  assert (Hev : forall sp2 fn2, evaluated E C s1 sp2 fn2 -> sp2 = sp /\ fn2 = fn).
  { intros sp2 fn2 [_ V2 (pf2 & V3 & V4) _]. rewrite Itr in V2. apply Ok_inj in V2. subst sp2. split; [reflexivity|].
    rewrite Ev in V3. apply Ok_inj in V3. subst pf2. rewrite Ty in V4. now apply Ok_inj in V4. }
  inversion Ei as [Hcur Er Es|e' Ht|sp2 e' Ht Hev2|sp2 pf2 e' Ht Hev2 Hy|sp2 pf2 fn2 Ht Hev2 Hy A1 A2|sp2 fn2 e' st0 Hev2 Hac Hu|sp2 fn2 st0 Hev2 Hu Hh2|]; clear Ei.
  - congruence.
  - congruence.
  - rewrite Itr in Ht. apply Ok_inj in Ht. subst sp2. congruence.
  - rewrite Itr in Ht. apply Ok_inj in Ht. subst sp2. rewrite Ev in Hev2. apply Ok_inj in Hev2. subst pf2. congruence.
  - rewrite Itr in Ht. apply Ok_inj in Ht. subst sp2. rewrite Ev in Hev2. apply Ok_inj in Hev2. subst pf2. rewrite Ty in Hy. apply Ok_inj in Hy. subst fn2. congruence.
  - destruct (Hev _ _ Hev2) as [-> ->]. rewrite update_run in Hu. unfold new_hess in Hu. rewrite s5_happ, Hp in Hu. cbn [happ_update] in Hu. cbv zeta in Hu.
    assert (Ib2 : in_bounds C (deref (it_s5 E C s1 sp fn) (fo_x fn)) = true).
    { rewrite Fx. unfold deref. rewrite s5_heap, nth_middle. exact Ib. }
    rewrite Ib2 in Hu. apply pair_equal_spec in Hu as [Hu _]. discriminate Hu.
  - congruence.
Qed.

Definition sr_E : env ER :=
  mkEnv (fun _ x => match x with
                    | [Fin a] => RTuple [PScal (Fin (a * a)); PVec [Fin (2 * a)]]
                    | _ => RRaise end)
    (fun k => Fin 0) (fun _ => "id"%string)
    (mkStepOracles ER (mkSubOracles ER (fun _ => None) (fun _ _ _ => NoConv) (fun _ _ _ _ => NoConv)) (fun _ => None) (fun _ _ => None) (fun _ _ _ _ _ _ _ => None) 10 10)
    (fun _ => None) (fun _ => None).
Definition sr_C : cfg ER :=
  mkCfg (mkOpts 1000 PInf (Fin 0) (Fin 0) (Fin 0) (Fin 0) (Fin 0) "full" "reflect" (Fin (/ 2)) (Fin 1) (Fin (/ 4)) (Fin (3 / 4)) (Fin (/ 4)) (Fin 2) None)
    [NInf] [PInf] 2 false.
Definition sr_happ : ihapp ER := mkIhapp ISR1 (mkHbase [] []).
Definition sr_st : opt ER := mkOpt [] 0 (Fin 0) [] [] 0 (Fin 0) [] (Fin 0) (Fin 0) (Fin 0) (Some (HIter sr_happ)) 0 0 (Fin 0) 0 false DID_NOT_RUN [] "" [] 0 0 [].
Definition sr_f : fout ER := mkFout (Fin (1 * 1)) [Fin (2 * 1)] None 0 [] [].
Definition sr_h1 : happ ER := HIter (mkIhapp ISR1 (mkHbase (eye 1) (mzeros_like (eye 1)))).
Definition sr_s : opt ER := set_o_conv false (pr_s4 sr_E sr_C None (fv [1]) (eye 1) (Some sr_h1) sr_f sr_st).
Lemma sr_linear : linear_gradient sr_E sr_C 1 [[2]] [0].
Proof.
  intros k p g Lp H. destruct p as [|a [|]]; try discriminate Lp. destruct a as [a| | |]; try discriminate H.
  exists [a]. split; [reflexivity|]. unfold gradient_of in H. cbn in H. injection H as H. change [Fin (2 * a)] with (fv [2 * a]) in H.
  apply fv_inj in H. subst g. cbn. f_equal. lra.
Qed.
Lemma sr_prepare : prepare sr_E sr_C 1 (fv [1]) None H0None sr_st = (Ok sr_f, sr_s).
Proof.
  destruct (prepare sr_E sr_C 1 (fv [1]) None H0None sr_st) as [r s] eqn:Ep.
  apply prepare_inv in Ep.
  assert (Hx : nudge sr_C (fv [1]) = fv [1]) by (apply (nudge_free sr_C 1); auto).
  assert (Hb : in_bounds sr_C (nudge sr_C (fv [1])) = true) by (rewrite Hx; apply (in_bounds_free sr_C 1); auto).
  assert (Er : pr_ret sr_E sr_C (fv [1]) sr_st = RTuple [PScal (Fin (1 * 1)); PVec [Fin (2 * 1)]]) by (unfold pr_ret; rewrite Hx; reflexivity).
  inversion Ep as [A1 A2|A1 A2|e A1 A2 A3|pf e A1 A2 A3 A4|pf hess h' e A1 A2 A3 A4 A5|pf hess h' f A1 A2 A3 A4 A5 A6 A7|pf hess h' f A1 A2 A3 A4 A5 A6 A7]; subst;
    try discriminate; try congruence; rewrite Er in A3; try discriminate; apply Ok_inj in A3; subst pf.
  - destruct A5; discriminate.
  - apply Ok_inj in A6. subst f. cbn in A7. discriminate.
  - apply Ok_inj in A6. subst f. apply Ok_inj in A4. apply pair_equal_spec in A4 as [<- <-]. reflexivity.
Qed.
Lemma sr_head : loop_head sr_E sr_C 1 (fv [1]) None H0None sr_st sr_f sr_s.
Proof. apply lh_start, sr_prepare. Qed.
Definition sr_F (x : rvec) : R := nth 0 x 0 * nth 0 x 0.
Definition sr_G (x : rvec) : rvec := [2 * nth 0 x 0].
Lemma sr_setting : convergence_setting sr_E sr_C 1 sr_F sr_G 2 2 (/ 4) (3 / 4) (/ 4) 2 1 (/ 2).
Proof.
  constructor; try reflexivity; try lra; try (split; [reflexivity|lra]).
  - intros k x Hx. apply one_vec in Hx as (a & ->). split; reflexivity.
  - intros x s Hx Hs. apply one_vec in Hx as (a & ->). apply one_vec in Hs as (b & ->).
    split; [reflexivity|]. unfold sr_F, sr_G. cbn. rewrite Rabs_right; nra.
  - right. left. reflexivity.
Qed.
(** the step proposed at the start is -1, to the boundary of the trust region *)
Lemma sr_step : exists sp, proposes sr_E sr_C sr_s sp /\ trial_point sr_s sp = fv [0] /\ vadd (st_ss sp) (st_ss0 sp) = fv [-1] /\ vadd (st_s sp) (st_s0 sp) = fv [-1]
  /\ st_qpval sp = Fin (qmodel [[1]] [2] [-1]) /\ scaling_derivative sr_C sr_s = fv (rzeros 1).
Proof.
  assert (Ex : deref sr_s (o_x sr_s) = fv [1]).
  { transitivity (nudge sr_C (fv [1])); [|apply (nudge_free sr_C 1); auto]. unfold sr_s, deref, pr_s4. destruct better; reflexivity. }
  assert (Eg : o_grad sr_s = fv [2]).
  { transitivity (fo_grad sr_f); [unfold sr_s, pr_s4; destruct better; reflexivity|]. cbn. f_equal. f_equal. lra. }
  assert (EB : o_hess sr_s = fm [[1]]) by (transitivity (eye 1 : list (list ER)); [unfold sr_s, pr_s4; destruct better; reflexivity|reflexivity]).
  assert (Ed : o_delta sr_s = Fin 1) by (unfold sr_s, pr_s4; destruct better; reflexivity).
  destruct (affine_free 1 [1] [2] eq_refl eq_refl) as (v & Lv & Ev & Fv).
  unfold proposes, trial_point, scaling_derivative. cbv zeta. rewrite Ex, Eg, EB, Ed.
  change (c_lb sr_C) with (no_lb 1). change (c_ub sr_C) with (no_ub 1). rewrite Ev.
  rewrite (scaling_free 1) by auto. rewrite (dv_free 1) by auto.
  destruct (theta_free (/ 2) v [2]) as (t & Et & Ht); auto; try lra. change (op_theta_max (c_opts sr_C)) with (Fin (/ 2)). rewrite Et. specialize (Ht ltac:(lra)).
  destruct (free_full (e_la sr_E) 1 [1] [2] [[1]] 1 t) with (strat := op_stepback (c_opts sr_C)) as (c & w & E1 & _ & [L1 S1 S2 S3 S4] & E3 & E4 & E5); auto; try lra; try lia.
  { split; [reflexivity|repeat constructor]. }
  { intros [|[|i]] [|[|j]]; reflexivity. }
  { intros z Lz [i Hi]. apply one_vec in Lz as (a & ->). unfold rform. cbn. destruct i as [|[|i]]; cbn in Hi; nra. }
  apply one_vec in L1 as (a & ->).
  assert (Q : forall a, qmodel [[1]] [2] [a] = / 2 * (a * a) + 2 * a) by (intros q; unfold qmodel, rform; cbn; lra).
  assert (Nm : forall a, rnorm [a] = Rabs a) by (intros q; unfold rnorm; cbn; rewrite Rplus_0_r; apply sqrt_Rsqr_abs).
  assert (Ea : a = -1).
  { rewrite Nm in E3, E5. assert (Hle : Rabs a <= 1).
    { destruct E5 as [E5|E5]; [exact E5|]. specialize (E5 [-2] eq_refl). rewrite !Q in E5. assert (a = -2) by nra. subst a.
      rewrite Rabs_left in E3 by lra. assert (IZR (2 ^ 26) > 1) by (apply IZR_lt; reflexivity).
      assert (/ IZR (2 ^ 26) < 1) by (rewrite <- Rinv_1; apply Rinv_lt_contravar; lra). lra. }
    specialize (E4 [-1] eq_refl). rewrite Nm, !Q in E4. replace (Rabs (-1)) with 1 in E4 by (rewrite Rabs_left; lra). specialize (E4 ltac:(lra)).
    pose proof (Rle_abs (- a)) as Ha. rewrite Rabs_Ropp in Ha. nra. }
  subst a. exists c. split.
  { split; [exact E1|]. rewrite S1, S2. auto. }
  split; [rewrite S1, S2, !h_vadd; f_equal; cbn; f_equal; lra|]. split; [auto|]. split; [rewrite S1, S2, !h_vadd; f_equal; cbn; f_equal; lra|auto].
Qed.
Lemma sr_continues : check_continue sr_E sr_C sr_s = (Ok true, set_o_clk (S (o_clk sr_s)) sr_s).
Proof.
  assert (E1 : o_conv sr_s = false) by (unfold sr_s, pr_s4; destruct better; reflexivity).
  assert (E2 : o_iter sr_s = 0%Z) by (unfold sr_s, pr_s4; destruct better; reflexivity).
  assert (E3 : o_delta sr_s = Fin 1) by (unfold sr_s, pr_s4; destruct better; reflexivity).
  assert (E4 : o_starttime sr_s = Fin 0) by (unfold sr_s, pr_s4; destruct better; reflexivity).
  rewrite check_continue_cases, E1, E2, E3, E4, spacing_fin.
  assert (Hs : / IZR (2 ^ 52) < 1) by (assert (IZR (2 ^ 52) > 1) by (apply IZR_lt; reflexivity); rewrite <- Rinv_1; apply Rinv_lt_contravar; lra).
  cbn. destruct (Reqb_spec 1 0); [lra|]. cbn. destruct (Rltb_spec 1 (/ 4503599627370496)); [lra|]. reflexivity.
Qed.
Lemma clk_tr E C (s : opt ER) sp k : proposes E C s sp -> it_tr E C (set_o_clk k s) = Ok sp /\ it_trial (set_o_clk k s) sp = trial_point s sp.
Proof. intros H. split; [now apply proposes_it_tr|reflexivity]. Qed.
Lemma clk_same (s : opt ER) k : deref (set_o_clk k s) (o_x (set_o_clk k s)) = deref s (o_x s) /\ o_happ (set_o_clk k s) = o_happ s
  /\ all_finite (o_fval (set_o_clk k s)) (o_grad (set_o_clk k s)) (Some (o_hess (set_o_clk k s))) = all_finite (o_fval s) (o_grad s) (Some (o_hess s)).
Proof. repeat split. Qed.
Example C61_run_ex : exists f' s', iteration sr_E sr_C sr_f (set_o_clk (S (o_clk sr_s)) sr_s) = (Ok f', s')
  /\ o_hess sr_s = fm [[1]] /\ o_hess s' = fm [[2]] /\ deref s' (o_x s') = fv [0].
Proof.
  destruct sr_step as (sp & P1 & P2 & P3 & P3' & P4 & P5).
  assert (EB : o_hess sr_s = fm [[1]]) by (transitivity (eye 1 : list (list ER)); [unfold sr_s, pr_s4; destruct better; reflexivity|reflexivity]).
  assert (Eg : o_grad sr_s = [Fin (2 * 1)]) by (unfold sr_s, pr_s4; destruct better; reflexivity).
  assert (Ef : o_fval sr_s = Fin (1 * 1)) by (unfold sr_s, pr_s4; destruct better; reflexivity).
  assert (Ex : deref sr_s (o_x sr_s) = fv [1]).
  { transitivity (nudge sr_C (fv [1])); [|apply (nudge_free sr_C 1); auto]. unfold sr_s, deref, pr_s4. destruct better; reflexivity. }
  assert (Eh : o_happ sr_s = Some sr_h1) by (unfold sr_s, pr_s4; destruct better; reflexivity).
  destruct (clk_tr sr_E sr_C sr_s sp (S (o_clk sr_s)) P1) as [Itr Itl]. rewrite P2 in Itl.
  destruct (clk_same sr_s (S (o_clk sr_s))) as (C1 & C2 & C3). rewrite Ex in C1. rewrite Eh in C2. rewrite Ef, Eg, EB in C3.
  pose proof sr_head as Hhead. pose proof sr_continues as Hcont. 
  generalize dependent sr_s. intros s P1 P2 P5 EB Eg Ef Ex Eh. set (s1 := set_o_clk (S (o_clk s)) s). intros Itr Itl C1 C2 C3 Hhead Hcont.
  destruct (iteration_total_iter sr_E sr_C sr_f s1 sp (mkPyfun (PScal (Fin (0 * 0))) (PVec [Fin (2 * 0)]) PNone [] [])
     (mkFout (Fin (0 * 0)) [Fin (2 * 0)] None (length (o_heap s1)) [] []) (mkIhapp ISR1 (mkHbase (eye 1) (mzeros_like (eye 1))))) as (f' & s' & Hi).
  { exact Itr. }
  { unfold it_ret. rewrite Itl. reflexivity. }
  { rewrite C1. reflexivity. }
  { reflexivity. }
  { reflexivity. }
  { rewrite Itl. apply (in_bounds_free sr_C 1); auto. }
  { rewrite C3. reflexivity. }
  { exact C2. }
  { reflexivity. }
  exists f', s'. split; [exact Hi|]. split; [exact EB|].
  destruct (C15_pass sr_E sr_C _ _ _ _ _ _ _ _ _ _ Hhead Hcont Hi) as (sp' & r & v & g & Q1 & Q2 & Q3 & Q4 & Q5 & Q6).
  assert (sp' = sp) as -> by (destruct P1 as [P1 _], Q1 as [Q1 _]; rewrite P1 in Q1; now apply Ok_inj in Q1).
  rewrite Q3, P2 in Q4, Q5. unfold value_of in Q4. unfold gradient_of in Q5. cbn [e_obj sr_E fv map sr_C c_nargout c_resfun] in Q4, Q5. cbn in Q4, Q5. injection Q4 as <-. injection Q5 as <-.
  assert (Hat : at_point 1 sr_F sr_G s [1]).
  { constructor; auto. }
  assert (Hacc : accepts sr_C s sp (Fin (0 * 0)) [Fin (2 * 0)] = true).
  { destruct (ratio_free sr_E sr_C 1 sr_F sr_G 2 2 (/ 4) (3 / 4) (/ 4) 2 1 (/ 2) sr_setting sp s [1] [-1] [[1]] Hat eq_refl P3) as [_ K].
    - rewrite P4. f_equal. unfold sr_G. cbn [nth]. now replace (2 * 1) with 2 by lra.
    - unfold qmodel, rform, sr_G. cbn. lra.
    - exact P5.
    - assert (X : radd [1] [-1] = [0]) by (cbn; f_equal; lra). rewrite X in K. change (fv (sr_G [0])) with [Fin (2 * 0)] in K. change (sr_F [0]) with (0 * 0) in K. rewrite K.
      assert (Y : 0 < rho sr_F sr_G [1] [-1] [[1]]) by (unfold rho, qmodel, rform, sr_F, sr_G; cbn; apply Rmult_lt_0_compat; [|apply Rinv_0_lt_compat]; lra).
      destruct (Rltb_spec 0 (rho sr_F sr_G [1] [-1] [[1]])); [reflexivity|lra]. }
  rewrite Hacc in Q6. destruct Q6 as (_ & _ & Q7 & _). rewrite P2 in Q7.
  split; [|rewrite Q7; apply (nudge_free sr_C 1); auto].
  destruct (C15_hessian_after_acceptance sr_E sr_C _ _ _ _ _ _ _ _ _ _ Hhead Hcont Hi) as (sp2 & r2 & v2 & g2 & pf & R1 & R2 & R3 & R4 & R5 & R6).
  assert (sp2 = sp) as -> by (destruct P1 as [P1 _], R1 as [R1 _]; rewrite P1 in R1; now apply Ok_inj in R1).
  assert (r2 = r) as -> by (rewrite Q2 in R2; apply app_inv_head in R2; injection R2; auto).
  rewrite Q3, P2 in R3, R4, R5. unfold value_of in R4. unfold gradient_of in R5. cbn in R3, R4, R5. injection R3 as <-. injection R4 as <-. injection R5 as <-.
  rewrite Eh in R6. destruct (R6 Hacc) as (h' & fn & U1 & U2 & U3 & U4). cbn in U2. apply Ok_inj in U2. subst fn.
  unfold happ_update, sr_h1 in U1. apply Ok_inj in U1. subst h'. cbn [fo_grad h_mat] in U4. rewrite P3', Eg in U4. rewrite U4.
  assert (Ey : vsub [Fin (2 * 0)] [Fin (2 * 1)] = fv [-2]) by (cbn; repeat f_equal; lra). rewrite Ey.
  assert (Eh0 : mkIhapp ISR1 (mkHbase (eye 1) (mzeros_like (eye 1))) = holding ISR1 [[1]] (mzeros_like (eye 1))) by reflexivity. rewrite Eh0.
  assert (Ez : rsub [-2] (rmv [[1]] [-1]) = [-1]) by (cbn; f_equal; lra).
  destruct (C44_secant 1 [[1]] (mzeros_like (eye 1)) [-1] [-2]) as (B' & K1 & [K2 K3] & K4); auto.
  - split; [reflexivity|repeat constructor].
  - rewrite Ez. cbn. lra.
  - rewrite Ez. assert (Ed : rdot [-1] [-1] = 1) by (cbn; lra). unfold sr1_threshold, rnorm. rewrite Ed, sqrt_1, Rabs_R1.
    assert (sqrt (/ IZR (2 ^ 52)) <= 1); [|lra]. rewrite <- sqrt_1. apply sqrt_le_1_alt. rewrite <- Rinv_1. apply Rinv_le_contravar; [lra|]. apply IZR_le. discriminate.
  - rewrite K1. f_equal. destruct B' as [|q [|]]; try discriminate K2. inversion K3 as [|? ? K5]. apply one_vec in K5 as (c & ->).
    cbn in K4. injection K4 as K4. do 2 f_equal. lra.
Qed.

(** any sequence: A = [[2, 1], [1, 3]] learned from the identity along the two unit vectors *)
Example C61_ex : let A := [[2; 1]; [1; 3]] in let ss := [[1; 0]; [0; 1]] in
  symmetric A /\ spans 2 ss
  /\ ih_mat (updates (quadratic_pairs A [[1; 0]]) (holding ISR1 (reye 2) [])) = fm [[2; 1]; [1; 2]]
  /\ ih_mat (updates (quadratic_pairs A ss) (holding ISR1 (reye 2) [])) = fm A.
Proof.
  cbv zeta. split; [intros [|[|[|i]]] [|[|[|j]]]; reflexivity|]. split.
  { intros [|[|j]] Hj; [exists [1; 0]|exists [0; 1]|lia]; (split; [reflexivity|cbn; repeat f_equal; lra]). }
  assert (HS : 0 < sqrt (/ IZR (2 ^ 52)) <= / 2).
  { split; [apply sqrt_lt_R0, Rinv_0_lt_compat, IZR_lt; reflexivity|].
    replace (/ 2) with (sqrt (/ 4)) by (replace (/ 4) with (/ 2 * / 2) by lra; apply sqrt_square; lra).
    apply sqrt_le_1_alt, Rinv_le_contravar; [lra|]. apply IZR_le. discriminate. }
  assert (Take : forall B D s z y, z = rsub y (rmv B s) -> rdot s s = 1 -> rdot z s = 1 -> rdot z z <= 2 ->
    ih_mat (ih_update (holding ISR1 B D) (fv s) (fv y)) = fm (rmadd B (router z z))).
  { intros B D s z y Ez H1 H2 H3. unfold ih_update, holding, ih_mat. cbn [ih_kind ih_base hb_hess]. unfold sr1_diff. cbv zeta.
    rewrite h_matvec, h_vsub, h_dot, <- Ez, sr1_test, H2, Rabs_R1.
    assert (rnorm z <= 2) by (apply rnorm_le; lra). pose proof (rnorm_nonneg z).
    assert (sr1_threshold s z <= 1) by (unfold sr1_threshold, rnorm at 1; rewrite H1, sqrt_1; nra).
    destruct (Rleb_spec (sr1_threshold s z) 1); [|lra]. rewrite h_outer, h_mdivs, h_madd by lra. f_equal.
    rewrite Rinv_1. f_equal. unfold rmscale. rewrite <- (map_id (router z z)) at 2. apply map_ext. intros q. unfold rscale. rewrite <- (map_id q) at 2. apply map_ext. intros c. lra. }
  assert (E1 : ih_mat (updates (quadratic_pairs [[2; 1]; [1; 3]] [[1; 0]]) (holding ISR1 (reye 2) [])) = fm [[2; 1]; [1; 2]]).
  { unfold updates, quadratic_pairs. cbn [map fold_left fst snd]. rewrite (Take _ _ _ [1; 1]); [f_equal; cbn; repeat f_equal; lra| | | |]; cbn; repeat f_equal; lra. }
  split; [exact E1|].
  unfold updates, quadratic_pairs in *. cbn [map fold_left fst snd] in *.
  rewrite (holding_of _ [[2; 1]; [1; 2]] (ih_update_kind (holding ISR1 (reye 2) []) _ _) E1).
  rewrite (Take _ _ _ [0; 1]); [f_equal; cbn; repeat f_equal; lra| | | |]; cbn; repeat f_equal; lra.
Qed.
