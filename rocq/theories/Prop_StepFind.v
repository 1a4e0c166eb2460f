(** Findings about steps: C32 (scg), C37, C39 *)
From Coq Require Import String ZArith List Bool Reals Lra Lia Psatz.
From Flocq Require Import BinarySingleNaN.
From Verif Require Import Num Constants Subproblem HessApprox Steps TrustRegion Minimize ER F64 NumFacts RVec Argmin
  Cand StepFacts Witness Prop_Sub1d SubNd RShess.
Import ListNotations.
Local Open Scope list_scope.

(** C32 is false for the scg solver: x = (0,0), g = (1,1), H = diag(1,4), unit scaling, -1/2 <= x_1.  The step is
    stepped back; the model value reported for it is smaller than the model value of the step actually
    taken by more than 1/32 (-0.4909 instead of -0.4527). *)
Definition ex32 : res (step F64) :=
  trust_region LA (fzs [0; 0]%Z) (fzs [1; 1]%Z) [fzs [1; 0]%Z; fzs [0; 4]%Z] (fzs [1; 1]%Z)
                   (fz 100) (fzs [0; 0]%Z) (nfrac 95 100) [nopp nhalf; fz (-10)]  (fzs [10; 10]%Z) "scg" "refine".
Theorem C32_scg_refuted : exists c, ex32 = Ok c
  /\ (nfrac 1 32 <? quadratic_form [fzs [1; 0]%Z; fzs [0; 4]%Z] (fzs [1; 1]%Z) (vadd (st_s c) (st_s0 c)) - st_qpval c)%num = true.
Proof.
  assert (H : match ex32 with
              | Ok c => (nfrac 1 32 <? quadratic_form [fzs [1; 0]%Z; fzs [0; 4]%Z] (fzs [1; 1]%Z) (vadd (st_s c) (st_s0 c)) - st_qpval c)%num
              | Err _ => false end = true) by (vm_compute; reflexivity).
  destruct ex32 as [c|]; [|discriminate]. eauto.
Qed.

(** C37: the reflection indices of a reflected step are those of the last reflection only, however often the
    step it continues was reflected *)
Section C37.
  Context {T : Type} {N : Num T}.
  Theorem C37_only_last_reflection_counted : forall (O : StepOracles T) A p c,
    calculate O (tr_step_reflected A p) = Ok c ->
    reflection_count c = List.length (st_iminbr p) /\ truncation_count c = 0%nat.
  Proof.
    intros O A p c H. apply calculate_fields in H as (sc & ss & s & _ & _ & _ & Hst & _).
    unfold reflection_count, truncation_count. destruct Hst. rewrite sb_refl, sb_trunc. split; reflexivity.
  Qed.
  (** [k] reflections in succession starting from the plain step [p] *)
  Inductive reflected_times (O : StepOracles T) (A : sargs T) (p : step T) : nat -> step T -> Prop :=
  | rt0 : reflected_times O A p 0 p
  | rtS k q c : reflected_times O A p k q -> calculate O (tr_step_reflected A q) = Ok c ->
      reflected_times O A p (S k) c.
End C37.
Definition ex37A : sargs F64 := tr_args (fzs [1; 1; 1]%Z) (fzs [3; 1; 2]%Z) (map (vscale n2) (eye 3)) (fzs [1; 1; 1]%Z)
                   (fz 4) (fzs [0; 0; 0]%Z) (nfrac 95 100) (fzs [0; 0; 0]%Z) (fzs [5; 5; 5]%Z).
Theorem C37_refuted : exists main l c, main_step LA ex37A "full" = Ok main /\ stepback_reflect LA ex37A main = Ok l
  /\ nth_error l 2 = Some c /\ reflected_times LA ex37A main 3 c /\ reflection_count c = 1%nat.
Proof.
  assert (H : match main_step LA ex37A "full" with
              | Ok main =>
                 match calculate LA (tr_step_reflected ex37A main) with
                 | Ok c1 => match calculate LA (tr_step_reflected ex37A c1) with
                            | Ok c2 => match calculate LA (tr_step_reflected ex37A c2) with
                                       | Ok c3 => negb (neqb (st_alpha c1) n1) && negb (neqb (st_alpha c2) n1) && Nat.eqb (reflection_count c3) 1
                                       | Err _ => false end
                            | Err _ => false end
                 | Err _ => false end
              | Err _ => false end = true) by (vm_compute; reflexivity).
  destruct (main_step LA ex37A "full") as [main|] eqn:Em; [|discriminate].
  destruct (calculate LA (tr_step_reflected ex37A main)) as [c1|] eqn:E1; [|discriminate].
  destruct (calculate LA (tr_step_reflected ex37A c1)) as [c2|] eqn:E2; [|discriminate].
  destruct (calculate LA (tr_step_reflected ex37A c2)) as [c3|] eqn:E3; [|discriminate].
  apply andb_true_iff in H as [H H3]. apply andb_true_iff in H as [H1 H2].
  apply negb_true_iff in H1, H2. apply Nat.eqb_eq in H3.
  exists main, [c1; c2; c3], c3. split; [reflexivity|].
  assert (R : forall k p, reflect_loop (S k) LA ex37A p =
     if (st_alpha p =? n1)%num then Ok [] else
       match calculate LA (tr_step_reflected ex37A p) with
       | Err e => Err e
       | Ok r => match reflect_loop k LA ex37A r with Err e => Err e | Ok l => Ok (r :: l) end
       end) by reflexivity.
  split; [|split; [reflexivity|split; [|exact H3]]].
  - unfold stepback_reflect. rewrite E1. change (List.length (a_x ex37A) - 1)%nat with 2%nat.
    rewrite R, H1, E2, R, H2, E3. reflexivity.
  - eapply rtS; [eapply rtS; [eapply rtS; [apply rt0|exact E1]|exact E2]|exact E3].
Qed.

(** C39: one variable *)
Local Open Scope R_scope.
(** With zero scaled curvature the proposed step is NaN, whatever the gradient, radius, point and bounds *)
Lemma one_NaN : forall g0 c0 delta, c0 = PInf \/ c0 = NInf \/ c0 = NaN ->
  (delta =? n0)%num = false ->
  solve_1d_trust_region_subproblem [[Fin 0]] [Fin g0] [c0] delta [Fin 0] = [NaN].
Proof.
  intros g0 c0 delta Hc Hd. unfold solve_1d_trust_region_subproblem. rewrite Hd.
  assert (Z : er_infmul true 0 = NaN /\ er_infmul false 0 = NaN).
  { unfold er_infmul. destruct (Rltb_spec 0 0); [lra|]. auto. }
  destruct Z as [Z1 Z2].
  assert (E : vall_zero [c0] = false) by (destruct Hc as [->|[->| ->]]; reflexivity). rewrite E. cbv zeta.
  assert (M : matvec [[Fin 0]] [c0] = [NaN]).
  { unfold matvec, dot, vsum, map2, map, fold_right. cbn [nmul nadd ERNum er_mul er_add].
    destruct Hc as [->|[->| ->]]; cbn [er_mul]; rewrite ?Z1, ?Z2; reflexivity. }
  rewrite M.
  assert (Ea : dot [NaN] [c0] = NaN) by (destruct Hc as [->|[->| ->]]; reflexivity). rewrite Ea.
  assert (En : (nhalf * NaN : ER)%num = NaN) by (rewrite half_fin; reflexivity). rewrite En.
  change ((NaN >? n0 : bool)%num) with false. cbn [andb].
  assert (Eb : get_1d_trust_region_boundary_solution [[Fin 0]] [Fin g0] [c0] [Fin 0] delta = NaN).
  { unfold get_1d_trust_region_boundary_solution. cbv zeta.
    assert (D0 : dot [Fin 0] [c0] = NaN).
    { unfold dot, vsum, map2, fold_right. cbn [nmul nadd ERNum].
      destruct Hc as [->|[->| ->]]; cbn [er_mul]; rewrite ?Z1, ?Z2; reflexivity. }
    rewrite D0. change (n2 * NaN : ER)%num with NaN. 
    assert (N0 : forall y : ER, (NaN + y)%num = NaN) by reflexivity. rewrite !N0.
    change (- NaN : ER)%num with NaN.
    assert (N1 : forall y : ER, (NaN / y)%num = NaN) by (intros []; reflexivity).
    assert (N2 : forall y : ER, (y / NaN)%num = NaN) by (intros []; reflexivity).
    rewrite !N1, !N2. match goal with |- nth (argmin ?q) _ _ = _ => destruct (argmin q) as [|[|[|k]]]; reflexivity end. }
  rewrite Eb. reflexivity.
Qed.

Section C39.
  Variables (O : StepOracles ER) (x lb ub : ER) (g h d dv delta : R) (theta : ER) (strat : string) (sp : step ER).
  Local Notation curv := (d * h * d + Rabs g * dv).
  Local Notation tr := (trust_region O [x] [Fin g] [[Fin h]] [Fin d] (Fin delta) [Fin dv] theta [lb] [ub] "2D" strat).
  Hypothesis Hdelta : delta <> 0.

  Lemma one_var : tr = Ok sp -> exists pd,
    calculate O (new_step "2d" (tr_args [x] [Fin g] [[Fin h]] [Fin d] (Fin delta) [Fin dv] theta [lb] [ub])
       [x] [[(Fin (- (d * g)) / Fin curv)%num]] [Fin 0] [Fin 0] [] [] (Some pd) None) = Ok sp.
  Proof.
    intros H. apply trust_region_in in H as (l & Hl & Hn). unfold candidates in Hl.
    apply rbind_ok in Hl as (m & Hm & Hl).
    change (List.length (a_sg (tr_args [x] [Fin g] [[Fin h]] [Fin d] (Fin delta) [Fin dv] theta [lb] [ub]))) with 1%nat in Hl.
    change (Nat.ltb 1 1) with false in Hl. rewrite andb_false_r in Hl. injection Hl as <-.
    assert (m = sp) as ->.
    { assert (E : argmin (map st_qpval [m]) = 0%nat) by reflexivity. rewrite E in Hn. now injection Hn. }
    unfold main_step in Hm. change (String.eqb "2D" "2D") with true in Hm. cbv iota in Hm.
    unfold tr_step_2d in Hm. cbv zeta in Hm.
    set (A := tr_args [x] [Fin g] [[Fin h]] [Fin d] (Fin delta) [Fin dv] theta [lb] [ub]) in *.
    assert (Es : shess_of (a_scaling A) (a_hess A) (a_gd A) = [[Fin curv]]) by reflexivity.
    rewrite Es in Hm. change (a_sg A) with [Fin (d * g)] in Hm.
    destruct (so_lstsq O _ _); [|discriminate]. destruct (so_eig O _) as [[[e1 e2] v]|]; [|discriminate].
    eexists. exact Hm.
  Qed.

  (** zero scaled curvature: the proposed step is NaN *)
  Theorem C39_zero_curvature_is_NaN : curv = 0 -> tr = Ok sp -> st_s sp = [NaN].
  Proof.
    intros Hc H. apply one_var in H as (pd & H). rewrite Hc in H.
    apply calculate_fields in H as (sc & ss & s & Hsol & Ess & Es & Hst & _).
    set (c0 := (Fin (- (d * g)) / Fin 0)%num) in *.
    assert (H0 : c0 = PInf \/ c0 = NInf \/ c0 = NaN).
    { subst c0. cbn. destruct (Reqb_spec 0 0); [|lra]. unfold er_infmul.
      destruct (Rltb 0 (- (d * g))); auto. destruct (Rltb (- (d * g)) 0); auto. }
    unfold solved in Hsol. cbn [new_step st_subspace st_shess st_sg st_delta st_ss0] in Hsol.
    assert (Esh : shess_of (a_scaling (tr_args [x] [Fin g] [[Fin h]] [Fin d] (Fin delta) [Fin dv] theta [lb] [ub]))
                    (a_hess (tr_args [x] [Fin g] [[Fin h]] [Fin d] (Fin delta) [Fin dv] theta [lb] [ub]))
                    (a_gd (tr_args [x] [Fin g] [[Fin h]] [Fin d] (Fin delta) [Fin dv] theta [lb] [ub])) = [[Fin 0]]).
    { rewrite <- Hc. reflexivity. }
    rewrite Esh in Hsol.
    change (a_sg (tr_args [x] [Fin g] [[Fin h]] [Fin d] (Fin delta) [Fin dv] theta [lb] [ub])) with [Fin (d * g)] in Hsol.
    change (a_delta (tr_args [x] [Fin g] [[Fin h]] [Fin d] (Fin delta) [Fin dv] theta [lb] [ub])) with (Fin delta) in Hsol.
    rewrite one_NaN in Hsol; auto.
    2:{ cbn. destruct (Reqb_spec delta 0); [contradiction|reflexivity]. }
    cbn [new_step st_subspace st_s0 st_scaling] in Ess, Es.
    assert (Ess' : ss = [NaN]).
    { rewrite Ess, Hsol. change (List.length [Fin 0]) with 1%nat. unfold lincomb, vadd, vscale, vzeros.
      cbn [map map2 repeat]. reflexivity. }
    rewrite Ess' in Es. destruct Hst. rewrite sb_s, Es. cbn. destruct (st_alpha sp); reflexivity.
  Qed.

  (** non-zero scaled curvature: the step (before and after step-back) is finite and inside the region *)
  Theorem C39_curved_is_finite : curv <> 0 -> 0 < delta -> tr = Ok sp ->
    exists z, st_og_ss sp = [Fin z] /\ st_og_s sp = [Fin (d * z)] /\ Rabs z <= delta.
  Proof.
    intros Hc Hd H. apply one_var in H as (pd & H).
    apply calculate_fields in H as (sc & ss & s & Hsol & Ess & Es & Hst & _).
    set (A := tr_args [x] [Fin g] [[Fin h]] [Fin d] (Fin delta) [Fin dv] theta [lb] [ub]) in *.
    assert (Ec : (Fin (- (d * g)) / Fin curv)%num = Fin (- (d * g) / curv)).
    { cbn [ndiv ERNum er_div]. destruct (Reqb_spec curv 0); [contradiction|reflexivity]. }
    rewrite Ec in *. set (c0 := - (d * g) / curv) in *.
    unfold solved in Hsol. cbn [new_step st_subspace st_shess st_sg st_delta st_ss0] in Hsol.
    assert (Esh : shess_of (a_scaling A) (a_hess A) (a_gd A) = fm [[curv]]) by reflexivity.
    rewrite Esh in Hsol. change (a_sg A) with (fv [d * g]) in Hsol. change (a_delta A) with (Fin delta) in Hsol.
    change [Fin c0] with (fv [c0]) in Hsol. change [Fin 0] with (fv [0]) in Hsol.
    cbn [new_step st_subspace st_s0 st_scaling] in Ess, Es. change (List.length [Fin 0]) with 1%nat in Ess.
    assert (HB : is_mat 1 1 [[curv]]) by (split; [reflexivity|repeat constructor]).
    assert (HT : exists tau, sc = [Fin tau] /\ Rabs (tau * c0) <= delta).
    { destruct (Req_dec c0 0) as [Z|Z].
      - exists 0. split; [|rewrite Rmult_0_l, Rabs_R0; lra]. rewrite Hsol. apply C25_degenerate. right.
        intros [[|[|i]] Hi]; simpl in Hi; lra.
      - destruct (C25_exact_line_minimizer 1 [[curv]] [d * g] [c0] [0] delta) as (tau & E1 & E2 & _); auto.
        + intros [|[|i]] [|[|j]]; reflexivity.
        + exists 0%nat. exact Z.
        + left. apply rnorm_lt; simpl; nra.
        + exists tau. split; [rewrite Hsol; exact E1|].
          apply rnorm_le in E2; [|lra]. simpl in E2.
          apply Rsqr_le_abs_0_alt in E2 || idtac.
          assert ((tau * c0) * (tau * c0) <= delta * delta) by lra.
          apply Rabs_le. split; nra. }
    destruct HT as (tau & -> & HT). exists (tau * c0).
    assert (Ess' : ss = [Fin (tau * c0)]).
    { rewrite Ess. unfold lincomb, vadd, vscale, vzeros. cbn [map map2 repeat]. cbn. f_equal. f_equal. lra. }
    destruct Hst. rewrite sb_og_ss, sb_og_s, Es, Ess'. split; [reflexivity|]. split; [reflexivity|exact HT].
  Qed.
End C39.
(** In doubles: x = 1, g = 1, h = 0, no bounds: all inputs finite, the step is NaN (the corresponding run is
    C19_nan_ratio_refuted) *)
Theorem C39_refuted : exists sp : step F64,
  trust_region LA [n1] [n1] [[n0]] [n1] n1 [n0] (nfrac 95 100) [- ninf]%num [ninf] "2D" "reflect" = Ok sp
  /\ map nisnan (st_s sp) = [true].
Proof.
  assert (H : match trust_region LA [n1 : F64] [n1] [[n0]] [n1] n1 [n0] (nfrac 95 100) [- ninf]%num [ninf] "2D" "reflect" with
              | Ok sp => match map nisnan (st_s sp) with [b] => b | _ => false end
              | Err _ => false end = true) by (vm_compute; reflexivity).
  destruct (trust_region _ _ _ _ _ _ _ _ _ _ _ _) as [sp|]; [|discriminate]. exists sp. split; [reflexivity|].
  destruct (map nisnan (st_s sp)) as [|b [|? ?]]; try discriminate. now subst b.
Qed.
