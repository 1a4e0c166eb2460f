(** Induction principle over the candidate steps of trust_region *)
From Coq Require Import ZArith List Bool String Reals Lra Lia.
From Verif Require Import Num Subproblem Steps TrustRegion ER NumFacts Argmin.
Import ListNotations.
Local Open Scope num_scope.
Local Open Scope list_scope.

Lemma rbind_ok {A B} (m : res A) (f : A -> res B) b :
  rbind m f = Ok b -> exists a, m = Ok a /\ f a = Ok b.
Proof. destruct m; simpl; [eauto|discriminate]. Qed.

Section Cand.
  Context {T : Type} {N : Num T} {L : NumLaws T}.

  Lemma lt_neq (x y : T) : x <? y = true -> x =? y = false.
  Proof.
    rewrite emb_ltb, emb_eqb. destruct (emb x), (emb y); cbn [er_ltb er_eqb]; try discriminate; auto.
    intros H. er_bool; auto; lra.
  Qed.

  Variables (O : StepOracles T) (A : sargs T).
  Variable P : step T -> Prop.

  Section Principle.
    Hypothesis Hrefl : forall p c, P p -> st_alpha p =? n1 = false ->
      calculate O (tr_step_reflected A p) = Ok c -> P c.
    Hypothesis Htrunc : forall p c, P p -> st_alpha p =? n1 = false ->
      calculate O (tr_step_truncated A p) = Ok c -> P c.

    Lemma reflect_loop_all : forall k p l, P p -> reflect_loop k O A p = Ok l -> Forall P l.
    Proof.
      induction k; intros p l Hp H; cbn [reflect_loop] in H; [injection H as <-; constructor|].
      destruct (st_alpha p =? n1) eqn:Ea; [injection H as <-; constructor|].
      destruct (calculate O (tr_step_reflected A p)) as [r|] eqn:Er; [|discriminate].
      destruct (reflect_loop k O A r) as [l'|] eqn:El; [|discriminate].
      injection H as <-. assert (Hr : P r) by (eapply Hrefl; eauto). constructor; auto. apply (IHk r l'); auto.
    Qed.
    Lemma stepback_reflect_all p l : P p -> st_alpha p =? n1 = false ->
      stepback_reflect O A p = Ok l -> Forall P l.
    Proof.
      intros Hp Ha H. unfold stepback_reflect in H.
      destruct (calculate O (tr_step_reflected A p)) as [r|] eqn:Er; [|discriminate].
      destruct (reflect_loop _ O A r) as [l'|] eqn:El; [|discriminate].
      injection H as <-. assert (Hr : P r) by (eapply Hrefl; eauto). constructor; auto. eapply reflect_loop_all; eauto.
    Qed.
    Lemma truncate_loop_all : forall k p l, P p -> truncate_loop k O A p = Ok l -> Forall P l.
    Proof.
      induction k; intros p l Hp H; cbn [truncate_loop] in H; [discriminate|].
      destruct (st_subspace p); [injection H as <-; constructor|].
      destruct (st_alpha p =? n1) eqn:Ea; [injection H as <-; constructor|].
      destruct (calculate O (tr_step_truncated A p)) as [r|] eqn:Er; [|discriminate].
      destruct (truncate_loop k O A r) as [l'|] eqn:El; [|discriminate].
      injection H as <-. assert (Hr : P r) by (eapply Htrunc; eauto). constructor; auto. apply (IHk r l'); auto.
    Qed.
    Lemma stepback_truncate_all p l : P p -> st_alpha p =? n1 = false ->
      stepback_truncate O A p = Ok l -> Forall P l.
    Proof.
      intros Hp Ha H. unfold stepback_truncate in H.
      destruct (calculate O (tr_step_truncated A p)) as [r|] eqn:Er; [|discriminate].
      destruct (truncate_loop _ O A r) as [l'|] eqn:El; [|discriminate].
      injection H as <-. assert (Hr : P r) by (eapply Htrunc; eauto). constructor; auto. eapply truncate_loop_all; eauto.
    Qed.

    Hypothesis Hgrad : forall c, calculate O (gradient_step A) = Ok c -> P c.
    Hypothesis Href : forall p c, P p -> refined_step O A p = Ok c -> P c.
    Lemma extra_all strat p l : P p -> st_alpha p =? n1 = false ->
      extra_steps O A strat p = Ok l -> Forall P l.
    Proof.
      intros Hp Ha H. unfold extra_steps in H.
      apply rbind_ok in H as (gs & Hgs & H). apply rbind_ok in H as (sr & Hsr & H).
      apply rbind_ok in H as (rf & Hrf & H). apply rbind_ok in H as (tt' & Htt & H).
      apply rbind_ok in H as (re & Hre & H). injection H as <-.
      constructor; [auto|]. rewrite !Forall_app. repeat split.
      - destruct (String.eqb _ _) in Hsr; [|injection Hsr as <-; constructor].
        apply rbind_ok in Hsr as (r & Hr & E). injection E as <-. constructor; [eauto|constructor].
      - destruct (_ || _) in Hrf; [|injection Hrf as <-; constructor]. eapply stepback_reflect_all; eauto.
      - destruct (_ || _) in Htt; [|injection Htt as <-; constructor]. eapply stepback_truncate_all; eauto.
      - destruct (_ && _) in Hre; [|injection Hre as <-; constructor].
        apply rbind_ok in Hre as (r & Hr & E). injection E as <-. constructor; [eauto|constructor].
    Qed.
    Lemma candidates_all sd strat l :
      (forall c, main_step O A sd = Ok c -> P c) ->
      candidates O A sd strat = Ok l -> Forall P l.
    Proof.
      intros Hm H. unfold candidates in H. apply rbind_ok in H as (p & Hp & H).
      destruct (_ && _) eqn:Ec in H.
      - apply andb_true_iff in Ec as [Ec _]. apply lt_neq in Ec.
        apply rbind_ok in H as (ex & Hex & E). injection E as <-. constructor; auto.
        eapply extra_all; eauto.
      - injection H as <-. constructor; auto.
    Qed.
  End Principle.

  (** main steps by solver *)
  Lemma main_step_cases sd c : main_step O A sd = Ok c ->
    (sd = "2D"%string /\ exists r, tr_step_2d O A = Ok r /\ calculate O r = Ok c)
    \/ (sd = "full"%string /\ calculate O (tr_step_full A) = Ok c)
    \/ (sd = "scg"%string /\ cg_step O A = Ok c).
  Proof.
    unfold main_step. destruct (String.eqb_spec sd "2D").
    - destruct (tr_step_2d O A) as [r|] eqn:E; [|discriminate]. intros H. left. eauto.
    - destruct (String.eqb_spec sd "full"); [auto|].
      destruct (String.eqb_spec sd "scg"); [auto|discriminate].
  Qed.
End Cand.

(** The step returned by trust_region is one of the candidates; the number of candidates *)
Section Best.
  Context {T : Type} {N : Num T} {L : NumLaws T}.

  Lemma candidates_nonempty (O : StepOracles T) A sd strat l :
    candidates O A sd strat = Ok l -> l <> [].
  Proof.
    unfold candidates. intros H. apply rbind_ok in H as (p & _ & H).
    destruct (_ && _) in H.
    - apply rbind_ok in H as (ex & _ & E). injection E as <-. discriminate.
    - injection H as <-. discriminate.
  Qed.
  Lemma trust_region_in O x g hess sc delta dv theta lb ub sd strat (sp : step T) :
    trust_region O x g hess sc delta dv theta lb ub sd strat = Ok sp ->
    exists l, candidates O (tr_args x g hess sc delta dv theta lb ub) sd strat = Ok l
      /\ nth_error l (argmin (map st_qpval l)) = Some sp.
  Proof.
    unfold trust_region. cbv zeta. intros H. apply rbind_ok in H as (l & Hl & H). exists l.
    split; auto. destruct (nth_error l (argmin (map st_qpval l))); [|discriminate].
    cbn in H. now injection H as <-.
  Qed.
End Best.
