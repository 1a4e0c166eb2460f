(** C34: the best candidate is chosen.  C36 (reflection part): bounded number of candidates *)
From Coq Require Import ZArith List Bool String Reals Lra Lia.
From Flocq Require Import BinarySingleNaN.
From Verif Require Import Num Constants Subproblem HessApprox Steps TrustRegion Minimize ER F64 NumFacts Argmin Cand Witness.
Import ListNotations.
Local Open Scope num_scope.
Local Open Scope list_scope.

Section C34.
  Context {T : Type} {N : Num T} {L : NumLaws T}.

  (** In any IEEE-like number system: trust_region returns one of its candidates; if no candidate's model
      value is NaN it is one with the smallest model value; if some model value is NaN, the model value of
      the returned step is NaN. *)
  Theorem C34_best_candidate : forall (O : StepOracles T) x g hess sc delta dv theta lb ub sd strat sp,
    trust_region O x g hess sc delta dv theta lb ub sd strat = Ok sp ->
    exists l, candidates O (tr_args x g hess sc delta dv theta lb ub) sd strat = Ok l /\ In sp l
      /\ ((forall c, In c l -> nisnan (st_qpval c) = false) ->
          forall c, In c l -> st_qpval sp <=? st_qpval c = true)
      /\ ((exists c, In c l /\ nisnan (st_qpval c) = true) -> nisnan (st_qpval sp) = true).
  Proof.
    intros O x g hess sc delta dv theta lb ub sd strat sp H.
    apply trust_region_in in H as (l & Hl & Hn). exists l. split; [exact Hl|].
    split; [now apply nth_error_In in Hn|].
    assert (Hq : forall i c, nth_error l i = Some c -> nth i (map st_qpval l) nnan = st_qpval c
                 /\ (i < List.length (map st_qpval l))%nat).
    { intros i c Hi. split.
      - apply (map_nth_error st_qpval) in Hi. now apply nth_error_nth with (d := nnan) in Hi.
      - rewrite map_length. apply nth_error_Some. congruence. }
    destruct (Hq _ _ Hn) as [Es _]. split.
    - intros Hall c Hc. apply In_nth_error in Hc as [i Hi]. destruct (Hq _ _ Hi) as [Ec Hlt].
      rewrite <- Es, <- Ec. apply argmin_le; auto.
      apply Forall_forall. intros q Hq'. apply in_map_iff in Hq' as (c' & <- & Hc'). auto.
    - intros (c & Hc & Hnan). apply In_nth_error in Hc as [i Hi]. destruct (Hq _ _ Hi) as [Ec Hlt].
      rewrite <- Es. apply (argmin_nan _ i); auto. now rewrite Ec.
  Qed.

  (** Whenever the main step had to be stepped back in a problem with several variables, the stepped-back
      scaled-gradient step is one of the candidates, so the returned step is at least as good. *)
  Theorem C34_no_worse_than_gradient : forall (O : StepOracles T) x g hess sc delta dv theta lb ub sd strat sp main,
    let A := tr_args x g hess sc delta dv theta lb ub in
    trust_region O x g hess sc delta dv theta lb ub sd strat = Ok sp ->
    main_step O A sd = Ok main -> st_alpha main <? n1 = true -> (1 < List.length (vmul sc g))%nat ->
    exists gs l, calculate O (gradient_step A) = Ok gs /\ candidates O A sd strat = Ok l /\ In gs l /\ In main l
      /\ ((forall c, In c l -> nisnan (st_qpval c) = false) ->
          st_qpval sp <=? st_qpval gs = true /\ st_qpval sp <=? st_qpval main = true).
  Proof.
    intros O x g hess sc delta dv theta lb ub sd strat sp main A H Hm Ha Hn.
    apply C34_best_candidate in H as (l & Hl & Hin & Hmin & _). fold A in Hl.
    assert (exists gs ex, calculate O (gradient_step A) = Ok gs /\ l = main :: gs :: ex) as (gs & ex & Hg & El).
    { unfold candidates in Hl. rewrite Hm in Hl. cbn [rbind] in Hl.
      replace ((st_alpha main <? n1) && Nat.ltb 1 (List.length (a_sg A))) with true in Hl.
      2:{ symmetry. apply andb_true_iff. split; [exact Ha|]. now apply Nat.ltb_lt. }
      apply rbind_ok in Hl as (ex & Hex & E). injection E as <-.
      unfold extra_steps in Hex. apply rbind_ok in Hex as (gs & Hgs & H).
      apply rbind_ok in H as (? & _ & H). apply rbind_ok in H as (? & _ & H).
      apply rbind_ok in H as (? & _ & H). apply rbind_ok in H as (? & _ & H). injection H as <-.
      eauto. }
    subst l. exists gs, (main :: gs :: ex). split; [auto|]. split; [auto|]. split; [right; now left|].
    split; [now left|]. intros Hall. split; apply Hmin; auto; simpl; auto.
  Qed.

  (** C36, first half: recursive reflection adds at most n candidates (n = number of variables) *)
  Lemma reflect_loop_length (O : StepOracles T) A : forall k p l, reflect_loop k O A p = Ok l -> (List.length l <= k)%nat.
  Proof.
    induction k; intros p l H; cbn [reflect_loop] in H; [injection H as <-; simpl; lia|].
    destruct (st_alpha p =? n1); [injection H as <-; simpl; lia|].
    destruct (calculate O (tr_step_reflected A p)) as [r|]; [|discriminate].
    destruct (reflect_loop k O A r) as [l'|] eqn:El; [|discriminate]. injection H as <-.
    apply IHk in El. simpl. lia.
  Qed.
  Theorem C36_reflections_bounded : forall (O : StepOracles T) A p l, (1 <= List.length (a_x A))%nat ->
    stepback_reflect O A p = Ok l -> (1 <= List.length l <= List.length (a_x A))%nat.
  Proof.
    intros O A p l Hn H. unfold stepback_reflect in H.
    destruct (calculate O (tr_step_reflected A p)) as [r|]; [|discriminate].
    destruct (reflect_loop _ O A r) as [l'|] eqn:El; [|discriminate]. injection H as <-.
    apply reflect_loop_length in El. simpl. lia.
  Qed.
End C34.

(** a double-precision call with step-back where several candidates compete and none is NaN *)
Definition ex34 (strat : string) : res (list (step F64)) :=
  candidates LA (tr_args (fzs [1; 1; 1]%Z) (fzs [3; 1; 2]%Z) (map (vscale n2) (eye 3)) (fzs [1; 1; 1]%Z)
                   (fz 4%Z) (fzs [0; 0; 0]%Z) (nfrac 95%Z 100%Z) (fzs [0; 0; 0]%Z) (fzs [5; 5; 5]%Z)) "full"%string strat.
Definition ex34_tr (strat : string) : res (step F64) :=
  trust_region LA (fzs [1; 1; 1]%Z) (fzs [3; 1; 2]%Z) (map (vscale n2) (eye 3)) (fzs [1; 1; 1]%Z)
               (fz 4%Z) (fzs [0; 0; 0]%Z) (nfrac 95%Z 100%Z) (fzs [0; 0; 0]%Z) (fzs [5; 5; 5]%Z) "full"%string strat.
Example C34_ex : exists l sp, ex34 "mixed"%string = Ok l /\ ex34_tr "mixed"%string = Ok sp /\ List.length l = 7%nat
  /\ forallb (fun c => negb (nisnan (st_qpval c))) l = true
  /\ (exists c, In c l /\ st_qpval sp <? st_qpval c = true).
Proof.
  assert (H : match ex34 "mixed"%string with
              | Ok l => match ex34_tr "mixed"%string with
                        | Ok sp => Nat.eqb (List.length l) 7 && forallb (fun c => negb (nisnan (st_qpval c))) l
                                   && existsb (fun c => st_qpval sp <? st_qpval c) l
                        | Err _ => false end
              | Err _ => false end = true) by (vm_compute; reflexivity).
  destruct (ex34 "mixed"%string) as [l|]; [|discriminate]. destruct (ex34_tr "mixed"%string) as [sp|]; [|discriminate].
  apply andb_true_iff in H as [H H3]. apply andb_true_iff in H as [H1 H2].
  exists l, sp. apply Nat.eqb_eq in H1. apply existsb_exists in H3. auto.
Qed.
