(** Which exceptions the inner layers can raise (proof library) *)
From Coq Require Import ZArith List Bool String Lia.
From Verif Require Import Num Constants Subproblem HessApprox Steps TrustRegion Minimize MonadFacts MinFacts.
Import ListNotations.
Local Open Scope num_scope.

Section TRErr.
  Context {T : Type} {N : Num T}.
  Local Notation vec := (list T).
  Local Notation mat := (list (list T)).

  (** the root finders never raise (beyond failing to converge) an exception outside P *)
  Definition roots_raise (O : SubOracles T) (P : exn -> Prop) : Prop :=
    (forall f f' x e, sp_newton O f f' x = RootRaise e -> P e) /\
    (forall f a b n e, sp_brentq O f a b n = RootRaise e -> P e).

  Variable O : StepOracles T.
  Variable P : exn -> Prop.
  Hypothesis HO : roots_raise (so_sub O) P.
  Hypothesis Hext : P EExternal.

  Lemma solve_nd_err b g d e : solve_nd_trust_region_subproblem (so_sub O) b g d = Err e -> P e.
  Proof.
    destruct HO as [Hn Hb]. unfold solve_nd_trust_region_subproblem.
    destruct (d =? n0); [discriminate|].
    destruct (sp_eig (so_sub O) b) as [[ev vecs]|]; [|injection 1 as <-; auto].
    intros H. cbv zeta in H.
    repeat match type of H with
    | (if ?c then _ else _) = _ => destruct c; try discriminate H
    | match sp_newton ?a ?f ?f' ?x with _ => _ end = _ =>
        destruct (sp_newton a f f' x) eqn:?; try discriminate H
    | match sp_brentq ?a ?f ?f' ?x ?y with _ => _ end = _ =>
        destruct (sp_brentq a f f' x y) eqn:?; try discriminate H
    | (let '(_, _) := expand_bracket ?p ?n ?x ?y in _) = _ =>
        destruct (expand_bracket p n x y) as [[? ?] [|?]]; try discriminate H
    | Err _ = Err _ => injection H as <-; eauto
    end.
  Qed.

  Lemma compute_step_err r e : compute_step O r = Err e -> P e.
  Proof.
    unfold compute_step. destruct (st_subspace r) as [|c [|c' l]]; try discriminate.
    destruct (solve_nd_trust_region_subproblem _ _ _ _) as [[sc ?]|e'] eqn:Es; [discriminate|].
    injection 1 as <-. eapply solve_nd_err; eauto.
  Qed.
  Lemma calculate_err r e : calculate O r = Err e -> P e.
  Proof.
    unfold calculate. destruct (compute_step O _) eqn:Es; [discriminate|]. injection 1 as <-.
    eapply compute_step_err; eauto.
  Qed.
  Lemma reflect_loop_err k A : forall r e, reflect_loop k O A r = Err e -> P e.
  Proof.
    induction k; cbn [reflect_loop]; intros r e; [discriminate|].
    destruct (_ =? _); [discriminate|].
    destruct (calculate O _) eqn:Ec; [|injection 1 as <-; eapply calculate_err; eauto].
    destruct (reflect_loop _ O A _) eqn:El; [discriminate|]. injection 1 as <-. eapply IHk; eauto.
  Qed.
  Lemma stepback_reflect_err A r e : stepback_reflect O A r = Err e -> P e.
  Proof.
    unfold stepback_reflect.
    destruct (calculate O _) eqn:Ec; [|injection 1 as <-; eapply calculate_err; eauto].
    destruct (reflect_loop _ O A _) eqn:El; [discriminate|]. injection 1 as <-. eapply reflect_loop_err; eauto.
  Qed.
  Lemma truncate_loop_err k A : P EDiverge -> forall r e, truncate_loop k O A r = Err e -> P e.
  Proof.
    intros Hd. induction k; cbn [truncate_loop]; intros r e; [now injection 1 as <-|].
    destruct (st_subspace r); [discriminate|]. destruct (_ =? _); [discriminate|].
    destruct (calculate O _) eqn:Ec; [|injection 1 as <-; eapply calculate_err; eauto].
    destruct (truncate_loop _ O A _) eqn:El; [discriminate|]. injection 1 as <-. eapply IHk; eauto.
  Qed.
  Lemma cg_loop_err k : P EDiverge -> forall sh sg d eps z r dd e,
    cg_loop k sh sg d eps z r dd = Err e -> P e.
  Proof.
    intros Hd. induction k; cbn [cg_loop]; cbv zeta; intros; [congruence|].
    destruct (_ || _); [discriminate|]. destruct (_ <? _); [discriminate|]. eauto.
  Qed.

  (** exceptions of trust_region: those of the external routines, KeyError for an unknown subspace
      solver, AttributeError for scg with a zero gradient, non-termination of the two inner
      while loops *)
  Lemma trust_region_err x g h sc d dv th lb ub dim strat e :
    trust_region O x g h sc d dv th lb ub dim strat = Err e ->
    P EKey ->
    (dim = "scg"%string -> P EAttr /\ P EDiverge) ->
    (strat = "truncate"%string \/ strat = "mixed"%string -> P EDiverge) ->
    P e.
  Proof.
    unfold trust_region. intros H Hk Hcg Htr.
    set (A := tr_args _ _ _ _ _ _ _ _ _) in *.
    destruct (candidates O A dim strat) as [l|e'] eqn:Ec; simpl in H.
    - exfalso. destruct (nth_error l (argmin (map st_qpval l))) eqn:En; [discriminate|].
      apply nth_error_None in En.
      assert (Hl : l <> []).
      { unfold candidates in Ec. destruct main_step; cbn [rbind] in Ec; [|discriminate].
        destruct (_ && _); [destruct extra_steps; cbn [rbind] in Ec; [|discriminate]|]; injection Ec as <-; discriminate. }
      destruct l as [|a l]; [congruence|].
      assert (Ha : forall l bi (bv : T) i, (bi < i)%nat -> (argmin_from bi bv i l < i + List.length l)%nat).
      { induction l0 as [|y l0 IH]; simpl; intros bi bv i Hi; [lia|].
        destruct (negb _ && _).
        - specialize (IH i y (S i)). lia.
        - specialize (IH bi bv (S i)). lia. }
      unfold argmin in En. simpl in En.
      specialize (Ha (map st_qpval l) 0%nat (st_qpval a) 1%nat). rewrite map_length in Ha. lia.
    - injection H as <-. unfold candidates in Ec.
      destruct (main_step O A dim) as [tr|e1] eqn:Em; cbn [rbind] in Ec.
      2:{ injection Ec as <-. unfold main_step in Em.
          destruct (String.eqb_spec dim "2D") as [_|_].
          { unfold tr_step_2d in Em. destruct so_lstsq; [|injection Em as <-; auto].
            destruct so_eig as [[[er ea] v]|]; [|injection Em as <-; auto].
            match type of Em with match ?m with _ => _ end = _ => destruct m eqn:E2 end.
            - eapply calculate_err; eauto.
            - exfalso. destruct (a_sg A) as [|s0 [|s1 l3]]; try discriminate;
              destruct (_ && _) in E2; try discriminate; destruct (_ <? _) in E2; discriminate. }
          destruct (String.eqb_spec dim "full") as [_|_]; [eapply calculate_err; eauto|].
          destruct (String.eqb_spec dim "scg") as [->|_]; [|injection Em as <-; auto].
          destruct (Hcg eq_refl) as [Ha Hd]. unfold cg_step in Em. cbv zeta in Em.
          destruct (_ <? _) in Em; [injection Em as <-; auto|].
          destruct (cg_loop _ _ _ _ _ _ _ _) as [[[[? ?] ?] ?]|] eqn:El in Em; [discriminate|]. injection Em as <-.
          eapply cg_loop_err; eauto. }
      destruct (_ && _) in Ec; [|discriminate].
      destruct (extra_steps O A strat tr) as [ex|e1] eqn:Ee; cbn [rbind] in Ec; [discriminate|].
      injection Ec as <-. unfold extra_steps in Ee.
      destruct (calculate O _) as [gs|e2] eqn:Eg in Ee; cbn [rbind] in Ee;
        [|injection Ee as <-; eapply calculate_err; eauto].
      match type of Ee with (rbind ?m _) = _ => destruct m as [sr|e2] eqn:E1; cbn [rbind] in Ee end.
      2:{ injection Ee as <-. destruct (String.eqb strat "reflect_single") in E1; [|discriminate].
          destruct (calculate O _) eqn:Eq in E1; cbn [rbind] in E1; [discriminate|]. injection E1 as <-.
          eapply calculate_err; eauto. }
      match type of Ee with (rbind ?m _) = _ => destruct m as [rf|e2] eqn:E2; cbn [rbind] in Ee end.
      2:{ injection Ee as <-. destruct (_ || _) in E2; [|discriminate].
          eapply stepback_reflect_err; eauto. }
      match type of Ee with (rbind ?m _) = _ => destruct m as [tt'|e2] eqn:E3; cbn [rbind] in Ee end.
      2:{ injection Ee as <-. destruct (_ || _) eqn:Eo in E3; [|discriminate].
          apply orb_true_iff in Eo. rewrite !String.eqb_eq in Eo.
          unfold stepback_truncate in E3.
          destruct (calculate O _) eqn:Eq in E3; [|injection E3 as <-; eapply calculate_err; eauto].
          destruct (truncate_loop _ O A _) eqn:El in E3; [discriminate|]. injection E3 as <-.
          eapply truncate_loop_err; eauto. }
      match type of Ee with (rbind ?m _) = _ => destruct m as [re|e2] eqn:E4; cbn [rbind] in Ee end.
      { discriminate. }
      injection Ee as <-. destruct (_ && _) in E4; [|discriminate].
      unfold refined_step in E4. cbv zeta in E4. destruct so_refine; cbn [rbind] in E4; [discriminate|].
      injection E4 as <-. auto.
  Qed.

  (** exceptions while evaluating / updating *)
  Lemma fun_evaluate_err n b (r : retval T) e : fun_evaluate n b r = Err e -> e = EUser \/ e = EValue.
  Proof.
    unfold fun_evaluate. destruct r as [l| |]; try (injection 1; auto).
    destruct (negb _); [injection 1; auto|].
    destruct b.
    - destruct l as [|[] [|[] [|]]]; try (injection 1; auto). destruct (_ && _); [discriminate|injection 1; auto].
    - destruct l as [|? [|? [|? [|]]]]; try discriminate; injection 1; auto.
  Qed.
  Lemma typed_fout_err n (p : pyfun T) x e : typed_fout n p x = Err e -> e = EValue.
  Proof.
    unfold typed_fout. destruct (pf_fval p); try (injection 1; auto; fail); try congruence.
    destruct (pf_grad p); try congruence. destruct (Nat.eqb _ _); try congruence.
    destruct (pf_hess p); try congruence. destruct (rect _ _ _); congruence.
  Qed.
  Lemma checkdims_err n (p : pyfun T) e : checkdims n p = Err e -> e = EValue \/ e = EAttr.
  Proof.
    unfold checkdims. destruct (pf_fval p); try (injection 1; auto; fail).
    destruct (pf_grad p); try (injection 1; auto; fail).
    destruct (negb _); try (injection 1; auto; fail).
    destruct (pf_hess p); try discriminate; try (injection 1; auto; fail).
    destruct (negb _); try (injection 1; auto; fail).
    destruct (negb _); try discriminate; try (injection 1; auto; fail).
  Qed.

  Lemma new_hess_err (s : opt T) sp f fold e :
    new_hess s sp f fold = Err e -> e = EType \/ e = EAttr \/ e = EValue.
  Proof.
    unfold new_hess. destruct (o_happ s) as [h|].
    - destruct happ_update as [h'|e1] eqn:Eh; [discriminate|]. injection 1 as <-.
      unfold happ_update in Eh. destruct h; try discriminate Eh.
      all: destruct (fo_hess f); try discriminate Eh; try (injection Eh as <-; auto; fail).
      unfold fx_update in Eh. destruct (_ <=? _) in Eh; [|discriminate Eh].
      unfold ih_set_mat, hb_set_mat in Eh. destruct shape_eqb in Eh; [discriminate Eh|].
      injection Eh as <-; auto.
    - destruct (fo_hess f); [discriminate|]. injection 1 as <-; auto.
  Qed.
  Lemma h_init_err (h : happ T) n a e : h_init h n a = Err e -> e = EValue.
  Proof.
    unfold h_init, ih_init, sh_init, hb_init.
    destruct h, a; repeat (destruct (Nat.eqb _ _)); try discriminate; congruence.
  Qed.
  Lemma pr_hess_err h n h0 (pf : pyfun T) e : pr_hess h n h0 pf = Err e -> e = EAttr \/ e = EValue.
  Proof.
    unfold pr_hess, pr_hess0. destruct h as [h|].
    - destruct h0; try (destruct (pf_hess pf)); try (injection 1; auto; fail);
      match goal with |- context [h_init ?a ?b ?c] => destruct (h_init a b c) eqn:Eh end; try discriminate;
      injection 1 as <-; apply h_init_err in Eh; auto.
    - destruct (pf_hess pf); try discriminate; injection 1; auto.
  Qed.
End TRErr.
