(** Double-precision runs: findings about minimize (C13, C16, C17, C19) and, for the theorems of
    Prop_Run, Prop_Run2 and Prop_Reject, runs that meet their hypotheses *)
From Coq Require Import ZArith List Bool String Lia Reals.
From Flocq Require Import BinarySingleNaN.
From Verif Require Import Num Constants Subproblem HessApprox Steps TrustRegion Minimize
  ER F64 NumFacts MonadFacts MinFacts Spec Run RunInv RunFrame Witness Prop_Run Prop_Run2 Prop_Reject.
Import ListNotations.
Local Open Scope num_scope.

Definition box2 : cfg F64 * opt F64 := built (fzs [-10; -10]%Z) (fzs [10; 10]%Z) [] None false.
(** the same with a history file *)
Definition box2h : cfg F64 * opt F64 :=
  built (fzs [-10; -10]%Z) (fzs [10; 10]%Z) [(KStr "history_file", VStr "h.h5")] None false.

(** *** Non-vacuity *)
(** a run that converges: x.x from (3, 4) in the box [-10, 10]^2 with default options.  Meets the hypotheses of
    every theorem about [run = (Ok _, st')] (C06 C07 C08 C09 C10 C16 C18 C22) *)
Example run_converges :
  exists fv x g h s, run_of sumsq box2 1001 (fzs [3; 4]%Z) = (Ok (fv, x, g, h), s)
    /\ (eqflag (o_flag s) GTOL && Z.eqb (o_iter s) 4 && (fv <? nfrac 1 1000000) && o_conv s && Nat.eqb (List.length (o_evals s)) 5) = true.
Proof. apply ok_witness. vm_compute. reflexivity. Qed.
(** the same run with a history file: one group, 4 records (C20) *)
Example run_with_history :
  op_history (c_opts (fst box2h)) = Some "h.h5"%string /\
  exists fv x g h s, run_of sumsq box2h 1001 (fzs [3; 4]%Z) = (Ok (fv, x, g, h), s)
    /\ match o_files s with
       | [(file, id, hist)] => String.eqb file "h.h5" && String.eqb id "id"
           && Nat.eqb (List.length (series hist "fval")) 4
       | _ => false
       end = true.
Proof.
  split; [vm_compute; reflexivity|]. apply ok_witness. vm_compute. reflexivity.
Qed.
(** running it again without a start id when the uuid repeats: raises, file unchanged (C20_reused_id) *)
Example run_reused_id :
  exists e s, minimize (world sumsq) (fst box2h) 1001 1 (fzs [3; 4]%Z) None H0None
                (snd (run_of sumsq box2h 1001 (fzs [3; 4]%Z))) = (Err e, s)
    /\ (match e with EExternal => true | _ => false end
        && Nat.eqb (List.length (o_files s)) 1) = true.
Proof. apply err_witness. vm_compute. reflexivity. Qed.
(** a loop head and a completed pass, the hypotheses of C08_step_decreases, C14_radius_rule, C15_pass ...;
    here the pass is accepted *)
Definition one_pass {T} {N : Num T} (E : env T) (C : cfg T) x0 st
    (P : opt T -> opt T -> bool) : bool :=
  match prepare E C 1 x0 None H0None st with
  | (Ok f, s) =>
      match check_continue E C s with
      | (Ok true, s1) =>
          match iteration E C f s1 with (Ok f', s') => P s s' | _ => false end
      | _ => false
      end
  | _ => false
  end.
Lemma one_pass_head {T} {N : Num T} (E : env T) (C : cfg T) x0 st P :
  one_pass E C x0 st P = true ->
  exists f s s1 f' s', loop_head E C 1 x0 None H0None st f s
    /\ check_continue E C s = (Ok true, s1)
    /\ iteration E C f s1 = (Ok f', s') /\ P s s' = true.
Proof.
  unfold one_pass. intros H. destruct (prepare E C 1 x0 None H0None st) as [[f|e] s] eqn:Ep; [|discriminate].
  destruct (check_continue E C s) as [[[]|e] s1] eqn:Ec; try discriminate.
  destruct (iteration E C f s1) as [[f'|e] s'] eqn:Ei; try discriminate.
  exists f, s, s1, f', s'. split; [now apply lh_start|]. auto.
Qed.
Example head_exists :
  exists f s s1 f' s', loop_head (world sumsq) (fst box2h) 1 (fzs [3; 4]%Z) None H0None (snd box2h) f s
    /\ check_continue (world sumsq) (fst box2h) s = (Ok true, s1)
    /\ iteration (world sumsq) (fst box2h) f s1 = (Ok f', s') /\ o_fval s' <? o_fval s = true.
Proof. apply (one_pass_head _ _ _ _ (fun s s' => o_fval s' <? o_fval s)). vm_compute. reflexivity. Qed.
(** the first pass on [worse] is rejected with a number as ratio (C19), on [flat] with NaN *)
Example rejected_exists :
  exists f s s1 f' s', loop_head (world worse) (fst (free 2 [])) 1 (fzs [1; 2]%Z) None H0None (snd (free 2 [])) f s
    /\ check_continue (world worse) (fst (free 2 [])) s = (Ok true, s1)
    /\ iteration (world worse) (fst (free 2 [])) f s1 = (Ok f', s')
    /\ (feq (o_fval s') (o_fval s) && negb (nisnan (o_tr_ratio s')) && (o_delta s' <? o_delta s)) = true.
Proof.
  apply (one_pass_head _ _ _ _ (fun s s' => feq (o_fval s') (o_fval s) && negb (nisnan (o_tr_ratio s'))
                                            && (o_delta s' <? o_delta s))).
  vm_compute. reflexivity.
Qed.
Example nan_ratio_exists :
  exists f s s1 f' s', loop_head (world flat) (fst (free 1 [])) 1 (fzs [1]%Z) None H0None (snd (free 1 [])) f s
    /\ check_continue (world flat) (fst (free 1 [])) s = (Ok true, s1)
    /\ iteration (world flat) (fst (free 1 [])) f s1 = (Ok f', s') /\ nisnan (o_tr_ratio s') = true.
Proof. apply (one_pass_head _ _ _ _ (fun s s' => nisnan (o_tr_ratio s'))). vm_compute. reflexivity. Qed.
(** every trial rejected: stops with DELTA_TOO_SMALL after 27 passes, within the 53 of C19_stops_doubles *)
Example run_rejected :
  exists fv x g h s, run_of worse (free 2 []) 1001 (fzs [1; 2]%Z) = (Ok (fv, x, g, h), s)
    /\ (eqflag (o_flag s) DELTA_TOO_SMALL && Z.eqb (o_iter s) 27 && feq fv n0
        && feq (nth 0 (deref s x) nnan) n1) = true.
Proof. apply ok_witness. vm_compute. reflexivity. Qed.
(** a bounds violation and a non-finite gradient raise with the right flag (C07_runtime_error) *)
Example run_out_of_bounds :
  exists e s, run_of sumsq box2 1001 (fzs [11; 4]%Z) = (Err e, s)
    /\ (eqflag (o_flag s) EXCEEDED_BOUNDARY && match e with ERuntime => true | _ => false end) = true.
Proof. apply err_witness. vm_compute. reflexivity. Qed.
Definition nangrad (k : nat) (x : list F64) : retval F64 :=
  match k with
  | O => sumsq k x
  | _ => RTuple [PScal n0; PVec (map (fun _ => nnan) x); PMat (List.length x) (eye (List.length x))]
  end.
Example run_not_finite :
  exists e s, run_of nangrad box2 1001 (fzs [3; 4]%Z) = (Err e, s)
    /\ (eqflag (o_flag s) NOT_FINITE && match e with ERuntime => true | _ => false end) = true.
Proof. apply err_witness. vm_compute. reflexivity. Qed.
(** a tight time budget stops the run (C24) *)
Example run_maxtime :
  exists fv x g h s,
    run_of sumsq (built (fzs [-10; -10]%Z) (fzs [10; 10]%Z) [(KStr "maxtime", VInt 3)] None false) 1001 (fzs [3; 4]%Z)
      = (Ok (fv, x, g, h), s)
    /\ (eqflag (o_flag s) XF_MAXTIME && Z.eqb (o_iter s) 1) = true.
Proof. apply ok_witness. vm_compute. reflexivity. Qed.

(** *** Findings *)
(** C16: the returned value is not the value of the (deterministic) objective at the returned x: after the step
    onto the bounds x is nudged inwards in place and not evaluated again *)
Theorem C16_value_at_x_refuted :
  exists C st0 fv x g h st',
    optimizer_init (fun _ => false) (fzs [-10; -10]%Z) (fzs [10; 10]%Z) [] None false [] = Ok (C, st0)
    /\ minimize (world linear) C 1001 1 (fzs [3; 4]%Z) None H0None st0 = (Ok (fv, x, g, h), st')
    /\ exists v, value_of C (linear 0 (deref st' x)) = Some v /\ (fv <? v) = true.
Proof.
  assert (H : run_check linear (fzs [-10; -10]%Z) (fzs [10; 10]%Z) [] None false 1001 (fzs [3; 4]%Z)
    (fun C fv x g h s => match value_of C (linear 0 (deref s x)) with Some v => fv <? v | None => false end) = true) by (vm_compute; reflexivity).
  apply run_witness in H.
  destruct H as (C & st0 & fv & x & g & h & s & H0 & H1 & H2).
  exists C, st0, fv, x, g, h, s. split; [exact H0|]. split; [exact H1|].
  destruct (value_of C (linear 0 (deref s x))) as [v|]; [|discriminate]. exists v. split; [reflexivity|exact H2].
Qed.
(** also the attribute x_min is changed by that nudge: the best value is not attained at x_min *)
Theorem C09_exact_xmin_refuted :
  exists C st0 fv x g h st',
    optimizer_init (fun _ => false) (fzs [-10; -10]%Z) (fzs [10; 10]%Z) [] None false [] = Ok (C, st0)
    /\ minimize (world linear) C 1001 1 (fzs [3; 4]%Z) None H0None st0 = (Ok (fv, x, g, h), st')
    /\ exists v, value_of C (linear 0 (deref st' (o_xmin st'))) = Some v /\ (o_fval_min st' <? v) = true.
Proof.
  assert (H : run_check linear (fzs [-10; -10]%Z) (fzs [10; 10]%Z) [] None false 1001 (fzs [3; 4]%Z)
    (fun C fv x g h s => match value_of C (linear 0 (deref s (o_xmin s))) with Some v => o_fval_min s <? v | None => false end) = true) by (vm_compute; reflexivity).
  apply run_witness in H.
  destruct H as (C & st0 & fv & x & g & h & s & H0 & H1 & H2).
  exists C, st0, fv, x, g, h, s. split; [exact H0|]. split; [exact H1|].
  destruct (value_of C (linear 0 (deref s (o_xmin s)))) as [v|]; [|discriminate]. exists v. split; [reflexivity|exact H2].
Qed.

(** C17: GTOL although the returned gradient violates both gradient tolerances.  The trial point has an infinite value
    (so the step is rejected) and a zero gradient, which is what check_convergence looks at *)
Theorem C17_gtol_refuted :
  exists C st0 fv x g h st',
    optimizer_init (fun _ => false) (repeat (- ninf) 2) (repeat ninf 2) [] None false [] = Ok (C, st0)
    /\ minimize (world cliff) C 1001 1 (fzs [1; 2]%Z) None H0None st0 = (Ok (fv, x, g, h), st')
    /\ o_flag st' = GTOL
    /\ norm g <=? op_gatol (c_opts C) = false
    /\ norm g <=? op_grtol (c_opts C) * nabs fv = false.
Proof.
  assert (H : run_check cliff (repeat (- ninf) 2) (repeat ninf 2) [] None false 1001 (fzs [1; 2]%Z)
    (fun C fv x g h s => eqflag (o_flag s) GTOL && negb (norm g <=? op_gatol (c_opts C))
         && negb (norm g <=? op_grtol (c_opts C) * nabs fv)) = true) by (vm_compute; reflexivity).
  apply run_witness in H.
  destruct H as (C & st0 & fv & x & g & h & s & H0 & H1 & H2).
  apply andb_true_iff in H2 as [H2 H4]. apply andb_true_iff in H2 as [H2 H3].
  exists C, st0, fv, x, g, h, s. split; [exact H0|]. split; [exact H1|]. split.
  - unfold eqflag in H2. destruct (o_flag s); try discriminate H2; reflexivity.
  - apply negb_true_iff in H3, H4. split; assumption.
Qed.

(** C19: a NaN ratio rejects the step but keeps the radius, so every later pass repeats the first one and only
    maxiter stops the run (1000 evaluations at NaN; one variable, no curvature) *)
Theorem C19_nan_ratio_refuted :
  exists C st0 fv x g h st',
    optimizer_init (fun _ => false) (repeat (- ninf) 1) (repeat ninf 1) [] None false [] = Ok (C, st0)
    /\ minimize (world flat) C 1001 1 (fzs [1]%Z) None H0None st0 = (Ok (fv, x, g, h), st')
    /\ o_flag st' = XF_MAXITER /\ o_iter st' = 1000%Z
    /\ o_delta st' =? op_delta_init (c_opts C) = true
    /\ Forall (fun pr => nisnan (nth 0 (fst pr) n0) = true) (tl (o_evals st')).
Proof.
  assert (H : run_check flat (repeat (- ninf) 1) (repeat ninf 1) [] None false 1001 (fzs [1]%Z)
    (fun C fv x g h s => eqflag (o_flag s) XF_MAXITER && Z.eqb (o_iter s) 1000
         && (o_delta s =? op_delta_init (c_opts C))
         && forallb (fun pr => nisnan (nth 0 (fst pr) n0)) (tl (o_evals s))) = true) by (vm_compute; reflexivity).
  apply run_witness in H.
  destruct H as (C & st0 & fv & x & g & h & s & H0 & H1 & H2).
  apply andb_true_iff in H2 as [H2 H5]. apply andb_true_iff in H2 as [H2 H4].
  apply andb_true_iff in H2 as [H2 H3]. apply Z.eqb_eq in H3.
  exists C, st0, fv, x, g, h, s. split; [exact H0|]. split; [exact H1|]. split.
  - unfold eqflag in H2. destruct (o_flag s); try discriminate H2; reflexivity.
  - split; [exact H3|]. split; [exact H4|]. apply Forall_forall. intros pr Hin.
    now apply (proj1 (forallb_forall _ _) H5).
Qed.

(** C13: in doubles the nudge does nothing at bounds of magnitude >= 256: the start stays on the bound *)
Theorem C13_large_bounds_refuted :
  exists (C : cfg F64) (b : Z), c_lb C = [fofZ b] /\ c_ub C = [fofZ (2 * b)]
    /\ nudge C [fofZ b] = [fofZ b].
Proof.
  exists (mkCfg (c_opts dflt_cfg) [fofZ 1000] [fofZ 2000] 3 false), 1000%Z.
  split; [reflexivity|]. split; [reflexivity|]. apply veq_eq. vm_compute. reflexivity.
Qed.

Lemma conv_result_gtol {T} {N : Num T} (C : cfg T) (st : opt T) sp (f : fout T) old :
  osome (conv_result C st sp f) = true -> oflag old (conv_result C st sp f) = GTOL ->
  norm (fo_grad f) <=? op_gatol (c_opts C) = true
  \/ norm (fo_grad f) <=? op_grtol (c_opts C) * nabs (o_fval st) = true.
Proof.
  unfold conv_result. intros H1 H2.
  destruct (_ && _); [discriminate H2|]. destruct (_ && _); [discriminate H2|].
  destruct (norm (fo_grad f) <=? op_gatol (c_opts C)); [now left|].
  destruct (norm (fo_grad f) <=? op_grtol (c_opts C) * nabs (o_fval st)); [now right|discriminate H1].
Qed.

(** C17, the part that holds: if the last step was accepted the gradient returned is the one tested *)
Theorem C17_gtol_when_accepted {T} {N : Num T} {L : NumLaws T} (E : env T) (C : cfg T) fuel ndim x0 sid h0 st fv x g h st' :
  minimize E C fuel ndim x0 sid h0 st = (Ok (fv, x, g, h), st') ->
  o_flag st' = GTOL ->
  exists f s sp r v gt evals,
    loop_head E C ndim x0 sid h0 st f s /\ proposes E C s sp
    /\ o_evals st' = evals ++ [(trial_point s sp, r)]
    /\ value_of C r = Some v /\ gradient_of C r = Some gt
    /\ (norm gt <=? op_gatol (c_opts C) = true \/ norm gt <=? op_grtol (c_opts C) * nabs (o_fval s) = true)
    /\ (accepts C s sp v gt = true -> g = gt /\ fv = v)
    /\ (accepts C s sp v gt = false -> g = o_grad s /\ fv = o_fval s).
Proof.
  intros H Hfl. apply minimize_ok_inv in H as (f & s & s1 & Hl & Hc & Hw & -> & _ & -> & _).
  pose proof Hc as Hc0.
  apply check_continue_false in Hc as (fl & k & Hs1).
  assert (Hs : o_flag st' = o_flag s1 /\ o_evals st' = o_evals s /\ o_grad st' = o_grad s /\ o_fval st' = o_fval s).
  { rewrite Hs1 in Hw.
    apply write_history_inv in Hw as [(_ & _ & ->)|[(file & _ & _ & _ & ->)|(file & _ & Hno & _)]];
      [..|discriminate]; rewrite Hs1; repeat split. }
  destruct Hs as (F1 & F2 & F3 & F4). rewrite F2, F3, F4. rewrite F1 in Hfl.
  assert (Hcv : o_conv s = true /\ s1 = s).
  { rewrite check_continue_run in Hc0. destruct (o_conv s).
    - apply pair_equal_spec in Hc0 as [_ <-]. auto.
    - destruct (_ <=? _)%Z; [apply pair_equal_spec in Hc0 as [_ <-]; discriminate Hfl|].
      cbv zeta in Hc0. destruct out_of_time; [apply pair_equal_spec in Hc0 as [_ <-]; discriminate Hfl|].
      destruct (_ <? _); [apply pair_equal_spec in Hc0 as [_ <-]; discriminate Hfl|discriminate Hc0]. }
  destruct Hcv as [Hcv ->].
  destruct (head_last E C _ _ _ _ _ _ _ Hl) as [E0|(f0 & s0 & s2 & sp & fn & Hl0 & Hc1 & K)]; [congruence|].
  apply check_continue_true in Hc1 as (-> & _ & Hlt & _).
  pose proof (ik_ev _ _ _ _ _ _ _ _ K) as Kev. pose proof (ik_evals _ _ _ _ _ _ _ _ K) as Ke.
  pose proof (ik_conv _ _ _ _ _ _ _ _ K) as Kcv. pose proof (ik_flag _ _ _ _ _ _ _ _ K) as Kfl.
  pose proof (ik_grad _ _ _ _ _ _ _ _ K) as Kg. pose proof (ik_fval _ _ _ _ _ _ _ _ K) as Kf.
  destruct (ev_pf _ _ _ _ _ Kev) as (pf & Hpf & Hty).
  destruct (value_typed C _ _ _ _ _ Hpf Hty) as [Hv Hg].
  pose proof (ev_tr _ _ _ _ _ Kev) as Htr. apply proposes_it_tr in Htr.
  exists f0, s0, sp, (it_ret E (set_o_clk (S (o_clk s0)) s0) sp), (fo_fval fn), (fo_grad fn), (o_evals s0).
  split; auto. split; [exact Htr|]. split; [exact Ke|]. split; auto. split; auto.
  rewrite <- (it_acc_accepts E C s0 sp fn (S (o_clk s0))).
  split.
  - rewrite Hcv in Kcv. rewrite Hfl in Kfl.
    exact (conv_result_gtol _ _ _ _ _ (eq_sym Kcv) (eq_sym Kfl)).
  - split; intros Ha; rewrite Ha in Kg, Kf; split; assumption.
Qed.
