(** A concrete two-variable problem in exact arithmetic whose main step is stepped back at a bound *)
From Coq Require Import String ZArith List Bool Reals Lra Lia Psatz.
From Verif Require Import Num Subproblem Steps TrustRegion ER NumFacts RVec SubNd RShess Argmin Cand StepFacts Prop_Sub1d Prop_Pred Prop_Box Prop_Cand RealStep Prop_Grad WitnessER.
Import ListNotations.
Local Open Scope R_scope.
Local Open Scope list_scope.

Definition gx_la : StepOracles ER :=
  mkStepOracles ER er_sub_oracles (fun _ => Some ([Fin 1; Fin 1], [Fin 1; Fin 1], [[Fin 1; Fin 0]; [Fin 0; Fin 1]]))
    (fun _ _ => Some (fv [1; 0])) (fun _ _ _ _ _ _ _ => None) 10 10.
Definition gx_lb : list ER := [Fin (- / 4); NInf].
Definition gx_ub : list ER := [PInf; PInf].
Lemma gx_problem : problem 2 [0; 0] [1; 0] (reye 2) [1; 1] [0; 0] 10 (/ 2) gx_lb gx_ub.
Proof.
  constructor; try reflexivity; try lra; auto using is_mat_eye.
  - intros i j. unfold entry, reye. simpl. destruct i as [|[|[|i]]], j as [|[|[|j]]]; reflexivity.
  - repeat constructor; lra.
  - intros i Hi. destruct i as [|[|]]; [| |lia]; split; cbn; auto. destruct (Rleb_spec (- / 4) 0); [auto|lra].
Qed.
Lemma gx_strict : box_strict 2 gx_lb gx_ub [0; 0].
Proof. intros i Hi. destruct i as [|[|]]; [| |lia]; split; cbn; auto. destruct (Rltb_spec (- / 4) 0); [auto|lra]. Qed.
Definition gx_A := tr_args (fv [0; 0]) (fv [1; 0]) (fm (reye 2)) (fv [1; 1]) (Fin 10) (fv [0; 0]) (Fin (/ 2)) gx_lb gx_ub.

Lemma gx_newt : rnorm [-1; 0] = 1.
Proof. unfold rnorm. replace (rdot [-1; 0] [-1; 0]) with 1 by (unfold rdot; simpl; lra). apply sqrt_1. Qed.
(** the columns [-1;0] *)
Lemma gx_twod : tr_step_2d gx_la gx_A
  = Ok (new_step "2d" gx_A (fv [0; 0]) (fm [[-1; 0]]) (fv [0; 0]) (fv [0; 0]) [] [] (Some true) (Some true)).
Proof.
  unfold tr_step_2d. cbv zeta. cbn [so_lstsq so_eig gx_la].
  pose proof (rA_sg [0; 0] [1; 0] (reye 2) [1; 1] [0; 0] 10 (/ 2) gx_lb gx_ub) as Esg. change (rA [0; 0] [1; 0] (reye 2) [1; 1] [0; 0] 10 (/ 2) gx_lb gx_ub) with gx_A in Esg.
  assert (Pd : (- spacing1 * npmax [Fin 1; Fin 1] <? npmin [Fin 1; Fin 1])%num = true).
  { unfold npmax, npmax2, npmin, npmin2. cbn -[Rltb Rleb Reqb IZR]. rdec; cbn -[Rltb Rleb Reqb IZR]; rdec; auto. }
  rewrite Pd. rewrite Esg. unfold rsg. unfold rmul at 1. cbn [map2 fv map andb].
  change ([Fin 1; Fin 0]) with (fv [1; 0]). rewrite h_vopp.
  replace (rscale (-1) [1; 0]) with [-1; 0] by (unfold rscale; simpl; repeat f_equal; lra).
  rewrite h_norm, gx_newt. change (a_delta gx_A) with (Fin 10). cbn [nltb ERNum er_ltb].
  destruct (Rltb_spec 1 10); [|lra]. rewrite h_normalize, gx_newt.
  destruct (Rltb_spec 0 1); [|lra]. unfold zeros_of. rewrite Esg.
  do 2 f_equal.
  cbn [fm map]. f_equal. f_equal. unfold rscale. simpl. repeat f_equal; lra.
Qed.

Lemma gx_solve : solve_1d_trust_region_subproblem
   (fm (rB 2 [1; 0] (reye 2) [1; 1] [0; 0])) (fv (rsg [1; 0] [1; 1])) (fv [-1; 0]) (Fin 10) (fv (rzeros 2)) = [Fin 1].
Proof.
  pose proof gx_problem as P.
  assert (Hz : rnorm (rzeros 2) = 0).
  { apply not_nonzero_norm. intros (i & Hi). rewrite nth_rzeros in Hi. lra. }
  destruct (C25_exact_line_minimizer 2 (rB 2 [1; 0] (reye 2) [1; 1] [0; 0]) (rsg [1; 0] [1; 1]) [-1; 0] (rzeros 2) 10)
    as (tau & Et & _ & Hopt).
  - apply (rB_mat 2).
  - eapply rB_sym. exact P.
  - reflexivity.
  - reflexivity.
  - reflexivity.
  - lra.
  - exists 0%nat. simpl. lra.
  - left. rewrite Hz. lra.
  - rewrite Et. do 2 f_equal. specialize (Hopt 1).
    assert (N1 : rnorm (radd (rzeros 2) (rscale 1 [-1; 0])) <= 10).
    { replace (radd (rzeros 2) (rscale 1 [-1; 0])) with [-1; 0] by (unfold radd, rscale, rzeros; simpl; repeat f_equal; lra).
      rewrite gx_newt. lra. }
    specialize (Hopt N1).
    assert (Q : forall t, qmodel (rB 2 [1; 0] (reye 2) [1; 1] [0; 0]) (rsg [1; 0] [1; 1]) (radd (rzeros 2) (rscale t [-1; 0])) = t * t / 2 - t).
    { intros t. unfold qmodel, rform, rmv, rdot, rsg, rmul, rB, rshess, radd, rscale, rzeros, entry, reye. simpl. lra. }
    rewrite !Q in Hopt. nra.
Qed.

Lemma gx_main : exists c, main_step gx_la gx_A "2D" = Ok c /\ st_alpha c = Fin (/ 8) /\ st_og_ss c = fv [-1; 0]
  /\ st_subspace c = fm [[-1; 0]] /\ (exists q, st_qpval c = Fin q) /\ st_og_s c = fv [-1; 0] /\ st_br c = [Fin (/ 4); PInf]
  /\ st_minbr c = Fin (/ 4) /\ st_iminbr c = [0%nat] /\ st_theta c = Fin (/ 2) /\ st_ss0 c = fv [0; 0] /\ st_s0 c = fv [0; 0].
Proof.
  unfold main_step. cbn [String.eqb Ascii.eqb Bool.eqb]. rewrite gx_twod.
  set (st := new_step _ _ _ _ _ _ _ _ _ _).
  assert (Hsol : forall r', solved gx_la st r' -> r' = fv [1]).
  { intros r'. unfold solved, st. cbn [new_step st_subspace fm map st_shess st_sg st_delta st_ss0].
    change (a_delta gx_A) with (Fin 10).
    pose proof (rA_shess 2 [0; 0] [1; 0] (reye 2) [1; 1] [0; 0] 10 (/ 2) gx_lb gx_ub gx_problem) as E1.
    change (rA [0; 0] [1; 0] (reye 2) [1; 1] [0; 0] 10 (/ 2) gx_lb gx_ub) with gx_A in E1. rewrite E1.
    change (a_sg gx_A) with (a_sg (rA [0; 0] [1; 0] (reye 2) [1; 1] [0; 0] 10 (/ 2) gx_lb gx_ub)). rewrite rA_sg.
    change (fv [0; 0]) with (fv (rzeros 2)). rewrite gx_solve. auto. }
  destruct (calculate gx_la st) as [c|e] eqn:Hc.
  2:{ exfalso. unfold calculate in Hc. cbn [compute_step reduce_to_subspace st new_step set_st_chess set_st_cg st_subspace fm map] in Hc. discriminate. }
  exists c. split; [reflexivity|].
  destruct (calc_real gx_la 2 [0; 0] [1; 0] (reye 2) [1; 1] [0; 0] 10 (/ 2) gx_lb gx_ub gx_problem "2d" [0; 0] [[-1; 0]] (fv [0; 0]) [0; 0] [] [] (Some true) (Some true) c [1])
    as (Hst & _ & a & Ea & _ & Ess & Eq); auto.
  - apply (pb_box _ _ _ _ _ _ _ _ _ _ gx_problem).
  - discriminate.
  - apply calculate_fields in Hc as (sc & _ & _ & Hs & _). rewrite (Hsol _ Hs) in Hs. exact Hs.
  - assert (E1 : rlincomb 2 [1] [[-1; 0]] = [-1; 0]) by (cbn [rlincomb]; unfold radd, rscale, rzeros; simpl; repeat f_equal; lra).
    rewrite E1 in *.
    assert (E2 : rmul [1; 1] [-1; 0] = [-1; 0]) by (unfold rmul; simpl; repeat f_equal; lra). rewrite E2 in *.
    destruct Hst. cbn [new_step st_x st_lb st_ub st_theta st_subspace st_ss0 st_s0] in *.
    change (a_lb (rA [0; 0] [1; 0] (reye 2) [1; 1] [0; 0] 10 (/ 2) gx_lb gx_ub)) with gx_lb in *.
    change (a_ub (rA [0; 0] [1; 0] (reye 2) [1; 1] [0; 0] 10 (/ 2) gx_lb gx_ub)) with gx_ub in *.
    change (a_theta (rA [0; 0] [1; 0] (reye 2) [1; 1] [0; 0] 10 (/ 2) gx_lb gx_ub)) with (Fin (/ 2)) in *.
    assert (B1 : breakpoints (fv [0; 0]) (fv [-1; 0]) gx_lb gx_ub = [Fin (/ 4); PInf]).
    { unfold breakpoints, fv, gx_lb, gx_ub. cbn [map]. unfold breakpoint, npmax2.
      cbn -[Rltb Rleb Reqb IZR Rabs Rinv Rdiv]. rewrite Rabs_R0, (Rabs_left (-1)) by lra.
      rdec; cbn -[Rltb Rleb Reqb IZR Rabs Rinv Rdiv]; rdec; repeat f_equal; try lra. }
    rewrite B1 in sb_br.
    assert (M1 : npmin [Fin (/ 4); PInf] = Fin (/ 4)) by reflexivity.
    rewrite sb_br, M1 in sb_minbr.
    split; [|repeat split; auto].
    + rewrite sb_alpha, sb_minbr. cbn [nmul ERNum er_mul]. unfold npmin, npmin2. cbn -[Rltb Rleb Reqb IZR Rabs Rinv Rdiv]. rdec; f_equal; lra.
    + eauto.
    + rewrite sb_iminbr, sb_br, sb_minbr. cbn -[Rltb Rleb Reqb IZR Rabs Rinv Rdiv]. rdec; auto.
Qed.

(** hypotheses of C35_predicted_decrease, including the one about NaN, and of C34_no_worse_than_gradient *)
Example C35_ex : exists sp main l,
  problem 2 [0; 0] [1; 0] (reye 2) [1; 1] [0; 0] 10 (/ 2) gx_lb gx_ub /\ nonzero [1; 0] /\ box_strict 2 gx_lb gx_ub [0; 0]
  /\ trust_region gx_la (fv [0; 0]) (fv [1; 0]) (fm (reye 2)) (fv [1; 1]) (Fin 10) (fv [0; 0]) (Fin (/ 2)) gx_lb gx_ub "2D" "refine" = Ok sp
  /\ main_step gx_la gx_A "2D" = Ok main /\ (st_alpha main <? n1)%num = true
  /\ candidates gx_la gx_A "2D" "refine" = Ok l /\ length l = 2%nat
  /\ (forall c, In c l -> nisnan (st_qpval c) = false) /\ (st_qpval sp <? n0)%num = true.
Proof.
  destruct gx_main as (main & Hm & Ha & _ & Hsub & (q & Hq) & _).
  destruct (C35_gradient_candidate gx_la 2 [0; 0] [1; 0] (reye 2) [1; 1] [0; 0] 10 (/ 2) gx_lb gx_ub gx_problem) as (gs & q' & Hgs & Hq' & _).
  change (rA [0; 0] [1; 0] (reye 2) [1; 1] [0; 0] 10 (/ 2) gx_lb gx_ub) with gx_A in Hgs.
  assert (Hlt : (st_alpha main <? n1)%num = true).
  { rewrite Ha. cbn -[Rltb Rinv IZR]. rdec; auto. }
  assert (Hc : candidates gx_la gx_A "2D" "refine" = Ok [main; gs]).
  { unfold candidates. rewrite Hm. cbn [rbind]. rewrite Hlt. change (Nat.ltb 1 (length (a_sg gx_A))) with true. cbn [andb].
    unfold extra_steps. rewrite Hgs. cbn [rbind String.eqb Ascii.eqb Bool.eqb orb andb]. rewrite Hsub. reflexivity. }
  assert (Hnan : forall c, In c [main; gs] -> nisnan (st_qpval c) = false).
  { intros c [<-|[<-|[]]]; [rewrite Hq|rewrite Hq']; reflexivity. }
  assert (Htr : exists sp, trust_region gx_la (fv [0; 0]) (fv [1; 0]) (fm (reye 2)) (fv [1; 1]) (Fin 10) (fv [0; 0]) (Fin (/ 2)) gx_lb gx_ub "2D" "refine" = Ok sp).
  { unfold trust_region. fold gx_A. cbv zeta. rewrite Hc. cbn [rbind map]. rewrite Hq, Hq'.
    assert (B : (argmin [Fin q; Fin q'] < 2)%nat) by (apply argmin_lt; discriminate).
    destruct (argmin [Fin q; Fin q']) as [|[|k]]; [eexists; reflexivity|eexists; reflexivity|lia]. }
  destruct Htr as (sp & Htr). exists sp, main, [main; gs].
  assert (Hnz : nonzero [1; 0]) by (exists 0%nat; simpl; lra).
  assert (H12 : (1 < 2)%nat) by lia.
  destruct (C35_predicted_decrease gx_la 2 [0; 0] [1; 0] (reye 2) [1; 1] [0; 0] 10 (/ 2) gx_lb gx_ub "2D" "refine" sp main gx_problem Hnz gx_strict H12 Htr Hm Hlt)
    as (l & El & Hl).
  fold gx_A in El. rewrite Hc in El. injection El as <-.
  split; [apply gx_problem|]. split; [exact Hnz|]. split; [apply gx_strict|]. split; [exact Htr|]. split; [exact Hm|]. split; [exact Hlt|].
  split; [exact Hc|]. split; [reflexivity|]. split; [exact Hnan|apply Hl; exact Hnan].
Qed.
