(** What the fields of a computed step are *)
From Coq Require Import ZArith List Bool String Reals Lra Lia.
From Verif Require Import Num Subproblem Steps TrustRegion ER NumFacts Argmin Cand.
Import ListNotations.
Local Open Scope num_scope.
Local Open Scope list_scope.

Lemma Ok_inj {X} (a b : X) : Ok a = Ok b -> a = b.
Proof. congruence. Qed.

Section StepFacts.
  Context {T : Type} {N : Num T}.

  (** the outcome [c] of stepping back the step [s], [ss], [sc] from the point of [r] *)
  Record stepped (r : step T) (s ss sc : list T) (c : step T) : Prop := mkStepped {
    sb_type : st_type c = st_type r;
    sb_x : st_x c = st_x r;
    sb_sg : st_sg c = st_sg r;
    sb_scaling : st_scaling c = st_scaling r;
    sb_delta : st_delta c = st_delta r;
    sb_theta : st_theta c = st_theta r;
    sb_lb : st_lb c = st_lb r;
    sb_ub : st_ub c = st_ub r;
    sb_shess : st_shess c = st_shess r;
    sb_subspace : st_subspace c = st_subspace r;
    sb_s0 : st_s0 c = st_s0 r;
    sb_ss0 : st_ss0 c = st_ss0 r;
    sb_refl : st_refl c = st_refl r;
    sb_trunc : st_trunc c = st_trunc r;
    sb_og_s : st_og_s c = s;
    sb_og_ss : st_og_ss c = ss;
    sb_og_sc : st_og_sc c = sc;
    sb_br : st_br c = breakpoints (st_x r) s (st_lb r) (st_ub r);
    sb_minbr : st_minbr c = npmin (st_br c);
    sb_iminbr : st_iminbr c = where_ (map (fun b => b =? st_minbr c) (st_br c));
    sb_alpha : st_alpha c = npmin [n1; st_theta r * st_minbr c];
    sb_s : st_s c = vscaler s (st_alpha c);
    sb_ss : st_ss c = vscaler ss (st_alpha c);
    sb_sc : st_sc c = vscaler sc (st_alpha c)
  }.

  Lemma step_back_fields r : stepped r (st_s r) (st_ss r) (st_sc r) (step_back r)
    /\ st_chess (step_back r) = st_chess r /\ st_cg (step_back r) = st_cg r.
  Proof. split; [constructor; reflexivity|]. split; reflexivity. Qed.

  Lemma stepped_qp q r s ss sc c : stepped r s ss sc c -> stepped r s ss sc (set_st_qpval q c).
  Proof. intros H. destruct H. constructor; assumption. Qed.

  Lemma stepped_ext r r' s ss sc c :
    st_type r = st_type r' -> st_x r = st_x r' -> st_sg r = st_sg r' -> st_scaling r = st_scaling r' -> st_delta r = st_delta r' ->
    st_theta r = st_theta r' -> st_lb r = st_lb r' -> st_ub r = st_ub r' -> st_shess r = st_shess r' ->
    st_subspace r = st_subspace r' -> st_s0 r = st_s0 r' -> st_ss0 r = st_ss0 r' ->
    st_refl r = st_refl r' -> st_trunc r = st_trunc r' ->
    stepped r s ss sc c -> stepped r' s ss sc c.
  Proof.
    intros E0 E1 E2 E3 E4 E5 E6 E7 E8 E9 E10 E11 E12 E13 H. destruct H.
    constructor; try congruence.
  Qed.

  (** result of the subproblem solver called by compute_step *)
  Definition subspace_hess (r : step T) : list (list T) :=
    map (fun ci => map (fun cj => dot ci (matvec (st_shess r) cj)) (st_subspace r)) (st_subspace r).
  Definition solved (O : StepOracles T) (r : step T) (sc : list T) : Prop :=
    match st_subspace r with
    | [] => sc = []
    | [col] => sc = solve_1d_trust_region_subproblem (st_shess r) (st_sg r) col (st_delta r) (st_ss0 r)
    | _ => exists lab, solve_nd_trust_region_subproblem (so_sub O) (subspace_hess r)
                         (tmatvec (st_subspace r) (st_sg r))
                         (nsqrt (pymax (nsq (st_delta r) - nsq (norm (st_ss0 r))) n0)) = Ok (sc, lab)
    end.

  Lemma calculate_fields O r c : calculate O r = Ok c ->
    exists sc ss s, solved O r sc
      /\ ss = lincomb (List.length (st_s0 r)) sc (st_subspace r)
      /\ s = match st_subspace r with [] => ss | _ => vmul (st_scaling r) ss end
      /\ stepped r s ss sc c
      /\ st_qpval c = quadratic_form (st_shess r) (st_sg r) (vadd (st_ss c) (st_ss0 r))
      /\ st_chess c = subspace_hess r /\ st_cg c = tmatvec (st_subspace r) (st_sg r).
  Proof.
    unfold calculate. set (r0 := reduce_to_subspace r).
    destruct (compute_step O r0) as [r1|] eqn:E; [|discriminate].
    intros H. injection H as <-.
    assert (F : exists sc ss s, solved O r sc /\ ss = lincomb (List.length (st_s0 r)) sc (st_subspace r)
              /\ s = match st_subspace r with [] => ss | _ => vmul (st_scaling r) ss end
              /\ r1 = set_st_s s (set_st_ss ss (set_st_sc sc r0))).
    { unfold compute_step in E. change (st_subspace r0) with (st_subspace r) in E.
      change (st_s0 r0) with (st_s0 r) in E. change (st_shess r0) with (st_shess r) in E.
      change (st_sg r0) with (st_sg r) in E. change (st_delta r0) with (st_delta r) in E.
      change (st_ss0 r0) with (st_ss0 r) in E. change (st_scaling r0) with (st_scaling r) in E.
      change (st_chess r0) with (subspace_hess r) in E.
      change (st_cg r0) with (tmatvec (st_subspace r) (st_sg r)) in E.
      unfold solved. destruct (st_subspace r) as [|c1 [|c2 cs]] eqn:Es.
      - injection E as <-. exists [], (vzeros (List.length (st_s0 r))), (vzeros (List.length (st_s0 r))). auto.
      - injection E as <-. eauto 10.
      - destruct (solve_nd_trust_region_subproblem _ _ _ _) as [[sc lab]|] eqn:En; [|discriminate].
        injection E as <-. exists sc. eexists _, _. split; [eauto|]. split; [reflexivity|]. split; [reflexivity|].
        reflexivity. }
    destruct F as (sc & ss & s & Hsol & Ess & Es & ->). exists sc, ss, s.
    split; [exact Hsol|]. split; [exact Ess|]. split; [exact Es|].
    set (r1 := set_st_s s (set_st_ss ss (set_st_sc sc r0))).
    destruct (step_back_fields r1) as (Hsb & Hc & Hcg).
    set (q := quadratic_form _ _ _).
    split; [|split; [|split]].
    - destruct Hsb. constructor; try reflexivity.
    - subst q. reflexivity.
    - reflexivity.
    - reflexivity.
  Qed.

  Lemma refined_fields O A p c : refined_step O A p = Ok c ->
    exists sc ss s, ss = lincomb (List.length (a_sg A)) sc (st_subspace p) /\ s = vmul (a_scaling A) ss
      /\ stepped (new_step "ref" A (a_x A) (st_subspace p) (zeros_of A) (zeros_of A)
                         (st_refl p) (st_trunc p) None None) s ss sc c
      /\ st_qpval c = quadratic_form (st_shess c) (st_sg c) (st_ss c)
      /\ so_refine O (st_chess p) (st_cg p) (st_sc p) (st_subspace p) (a_delta A)
           (map2 ndiv (vscale (a_theta A) (vsub (a_lb A) (a_x A))) (a_scaling A))
           (map2 ndiv (vscale (a_theta A) (vsub (a_ub A) (a_x A))) (a_scaling A)) = Some sc.
  Proof.
    unfold refined_step. cbv zeta.
    destruct (so_refine _ _ _ _ _ _ _ _) as [sc|] eqn:E; [|discriminate]. intros H.
    set (ss := lincomb (List.length (a_sg A)) sc (st_subspace p)) in *.
    set (base := new_step _ _ _ _ _ _ _ _ _ _) in *. set (b2 := set_st_chess _ _) in *.
    set (r1 := set_st_s _ _) in H. set (s := vmul (a_scaling A) ss).
    destruct (step_back_fields r1) as (Hsb & _ & _).
    set (r2 := step_back r1) in *. apply Ok_inj in H. rewrite <- H. clear H.
    exists sc, ss, s. split; [reflexivity|]. split; [reflexivity|]. split.
    - apply stepped_qp. revert Hsb. change (st_s r1) with s. change (st_ss r1) with ss. change (st_sc r1) with sc.
      apply stepped_ext; reflexivity.
    - clearbody r2. split; reflexivity.
  Qed.

  Lemma cg_fields O A c : cg_step O A = Ok c ->
    exists sub sc ss ss0 s,
      cg_loop (so_cgfuel O) (shess_of (a_scaling A) (a_hess A) (a_gd A)) (a_sg A) (a_delta A)
        (pymin nhalf (nsqrt (norm (a_sg A))) * norm (a_sg A)) (zeros_of A) (a_sg A) (vopp (a_sg A))
        = Ok (sub, sc, ss, ss0)
      /\ s = vmul (a_scaling A) (vadd ss ss0)
      /\ stepped (new_step "cgs" A (a_x A) sub (zeros_of A) ss0 [] [] None None) s ss sc c
      /\ st_qpval c = quadratic_form (st_shess c) (st_sg c) (vadd (st_ss c) (st_ss0 c)).
  Proof.
    unfold cg_step. cbv zeta. destruct (norm (a_sg A) <? _); [discriminate|].
    match goal with |- context [cg_loop ?a ?b ?c ?d ?e ?f ?g ?h] =>
      destruct (cg_loop a b c d e f g h) as [[[[sub sc] ss] ss0]|] eqn:E; [|discriminate] end.
    intros H. set (base := new_step _ _ _ _ _ _ _ _ _ _) in *.
    set (s := vmul (a_scaling A) (vadd ss ss0)).
    set (r0 := set_st_subspace _ _) in H. change (vmul (st_scaling r0) (vadd ss ss0)) with s in H.
    set (r1 := set_st_s s r0) in *. destruct (step_back_fields r1) as (Hsb & _ & _).
    set (r2 := step_back r1) in *. apply Ok_inj in H. rewrite <- H. clear H.
    exists sub, sc, ss, ss0, s. split; [exact E|]. split; [reflexivity|]. split.
    - apply stepped_qp. revert Hsb. change (st_s r1) with s. change (st_ss r1) with ss. change (st_sc r1) with sc.
      apply stepped_ext; reflexivity.
    - clearbody r2. reflexivity.
  Qed.
End StepFacts.
