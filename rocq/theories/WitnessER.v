(** A concrete run in exact arithmetic: one variable bounded above by 10, started at 0, objective with value 1,
    gradient 1 and Hessian 1.  It reaches a loop head and a step is proposed there, so the theorems about
    loop heads and proposed steps over the extended reals (C11, C23, C32, C33, ...) are not vacuous *)
From Coq Require Import String ZArith List Bool Reals Lra Lia Psatz.
From Verif Require Import Num Constants Subproblem HessApprox Steps TrustRegion Minimize
  ER NumFacts MonadFacts MinFacts Spec Run RunInv RVec Prop_Nudge Prop_BoxRun2.
Import ListNotations.
Local Open Scope R_scope.
Local Open Scope list_scope.
Definition er_sub_oracles : SubOracles ER := mkSubOracles ER (fun _ => None) (fun _ _ _ => NoConv) (fun _ _ _ _ => NoConv).
Definition er_oracles : StepOracles ER :=
  mkStepOracles ER er_sub_oracles (fun _ => Some ([Fin 1], [Fin 1], [[Fin 1]])) (fun _ _ => Some [Fin 1]) (fun _ _ _ _ _ _ _ => None) 10 10.
Definition er_world : env ER :=
  mkEnv (fun _ _ => RTuple [PScal (Fin 1); PVec [Fin 1]; PMat 1 [[Fin 1]]]) (fun _ => Fin 0) (fun _ => "id"%string) er_oracles
    (fun _ => Some (Fin 0, Fin 0)) (fun _ => Some (Fin 0)).
Definition er_opts : opts ER :=
  mkOpts 10 (Fin 1) (Fin 0) (Fin 0) (Fin 0) (Fin 0) (Fin 0) "2D" "reflect" (Fin (/ 2)) (Fin 1) (Fin (/4)) (Fin (3/4)) (Fin (/4)) (Fin 2) None.
Definition er_cfg : cfg ER := mkCfg er_opts [NInf] [Fin 10] 3 false.
Definition er_state : opt ER := mkOpt [] 0 (Fin 0) [] [] 0 (Fin 0) [] (Fin 0) (Fin 0) (Fin 0) None 0 0 (Fin 0) 0 false DID_NOT_RUN [] "" [] 0 0 [].

Ltac rdec := repeat match goal with
  | |- context [Rltb ?a ?b] => destruct (Rltb_spec a b); [try (exfalso; lra)|try (exfalso; lra)]
  | |- context [Rleb ?a ?b] => destruct (Rleb_spec a b); [try (exfalso; lra)|try (exfalso; lra)]
  | |- context [Reqb ?a ?b] => destruct (Reqb_spec a b); [try (exfalso; lra)|try (exfalso; lra)]
  end.
Lemma ex_nudge : nudge er_cfg [Fin 0] = [Fin 0].
Proof.
  unfold nudge. rewrite Prop_Nudge.eps_is_margin. 
  assert (Hm : 0 < Prop_Nudge.margin < 1) by (unfold Prop_Nudge.margin; lra).
  cbn -[Prop_Nudge.margin]. assert (Ha : Rabs (10 + - 0) = 10) by (rewrite Rabs_right; lra). rewrite Ha.
  rdec. reflexivity.
Qed.
Lemma ex_inb : in_bounds er_cfg [Fin 0] = true.
Proof. unfold in_bounds. cbn. unfold er_infmul. rdec; cbn; rdec; auto. Qed.
Definition ex_f : fout ER := mkFout (Fin 1) [Fin 1] (Some [[Fin 1]]) 0 [] [].
Definition ex_s : opt ER := set_o_conv false (pr_s4 er_world er_cfg None [Fin 0] [[Fin 1]] None ex_f er_state).
Lemma ex_prepare : prepare er_world er_cfg 1 [Fin 0] None H0None er_state = (Ok ex_f, ex_s).
Proof.
  destruct (prepare er_world er_cfg 1 [Fin 0] None H0None er_state) as [r s] eqn:Ep.
  apply prepare_inv in Ep. pose proof ex_inb as Hb. rewrite <- ex_nudge in Hb.
  inversion Ep as [A1 A2|A1 A2|e A1 A2 A3|pf e A1 A2 A3 A4|pf hess h' e A1 A2 A3 A4 A5|pf hess h' f A1 A2 A3 A4 A5 A6 A7|pf hess h' f A1 A2 A3 A4 A5 A6 A7]; subst.
  - discriminate.
  - congruence.
  - discriminate.
  - injection A3 as <-. discriminate.
  - injection A3 as <-. destruct A5; discriminate.
  - injection A3 as <-. injection A6 as <-. discriminate.
  - injection A3 as <-. injection A6 as <-. injection A4 as <- <-. reflexivity.
Qed.
Lemma ex_head : loop_head er_world er_cfg 1 [Fin 0] None H0None er_state ex_f ex_s.
Proof. apply lh_start, ex_prepare. Qed.
Lemma ex_proposes : exists sp, proposes er_world er_cfg ex_s sp.
Proof.
  unfold proposes.
  assert (Hx : deref ex_s (o_x ex_s) = [Fin 0]).
  { unfold ex_s, pr_s4. destruct better; cbn -[nudge]; apply ex_nudge. }
  assert (Hg : o_grad ex_s = [Fin 1]) by (unfold ex_s, pr_s4; destruct better; reflexivity).
  assert (Hh : o_hess ex_s = [[Fin 1]]) by (unfold ex_s, pr_s4; destruct better; reflexivity).
  assert (Hd : o_delta ex_s = Fin 1) by (unfold ex_s, pr_s4; destruct better; reflexivity).
  rewrite Hx, Hg, Hh, Hd.
  assert (Ha : affine_scaling [Fin 0] [Fin 1] (c_lb er_cfg) (c_ub er_cfg) = [(Fin 1, Fin 0)]).
  { cbn. unfold affine1. cbn. unfold npsign. cbn. rdec; cbn; rdec; repeat f_equal; lra. }
  rewrite Ha. cbn [map fst snd].
  unfold trust_region. set (A := tr_args _ _ _ _ _ _ _ _ _). unfold candidates.
  change (op_subspace_dim (c_opts er_cfg)) with "2D"%string.
  assert (Hm : exists c, main_step (e_la er_world) A "2D" = Ok c /\ length (st_s c) = 1%nat /\ length (st_s0 c) = 1%nat).
  { unfold main_step. cbn [String.eqb Ascii.eqb Bool.eqb].
    unfold tr_step_2d. cbn [e_la er_world so_lstsq so_eig er_oracles]. cbv zeta.
    set (pd := (_ <? _)%num). clearbody pd.
    change (a_sg A) with [er_mul (nsqrt (nabs (Fin 1))) (Fin 1)] at 1. cbv iota.
    unfold calculate, compute_step. cbn [reduce_to_subspace new_step st_subspace set_st_cg set_st_chess].
    eexists. split; [reflexivity|].
    unfold step_back. cbn [set_st_og_s set_st_og_ss set_st_og_sc set_st_br set_st_minbr set_st_iminbr set_st_alpha set_st_s set_st_sc set_st_ss set_st_qpval st_s st_s0 set_st_cg set_st_chess].
    split; [|reflexivity].
    unfold vscaler. rewrite map_length. set (t := solve_1d_trust_region_subproblem _ _ _ _ _).
    assert (Ht : exists q, t = [q]).
    { unfold t, solve_1d_trust_region_subproblem. cbv zeta. destruct (_ =? _)%num; [eauto|]. destruct (vall_zero _); eauto. }
    destruct Ht as [q ->]. reflexivity. }
  destruct Hm as (c & -> & H1 & H2). cbn [rbind].
  change (Nat.ltb 1 (length (a_sg A))) with false. rewrite andb_false_r. cbn [rbind map].
  exists c. split; [reflexivity|]. auto.
Qed.
(** hypotheses of C11_trial_points, C11_accepted_in_box and C11_no_bounds_error *)
Example C11_ex :
  op_theta_max (c_opts er_cfg) = Fin (/ 2) /\ 0 <= / 2 <= 1 /\ in_bounds er_cfg (nudge er_cfg [Fin 0]) = true
  /\ TRErr.roots_raise (so_sub (e_la er_world)) (fun e => e <> ERuntime)
  /\ loop_head er_world er_cfg 1 [Fin 0] None H0None er_state ex_f ex_s
  /\ exists sp, proposes er_world er_cfg ex_s sp.
Proof.
  split; [reflexivity|]. split; [lra|]. split; [rewrite ex_nudge; apply ex_inb|].
  split; [split; discriminate|]. split; [apply ex_head|apply ex_proposes].
Qed.
