(** C59: what the step-back strategies have to do with each other (any IEEE-like number system) *)
From Coq Require Import ZArith List Bool String Reals Lra Lia.
From Verif Require Import Num Constants Subproblem HessApprox Steps TrustRegion Minimize ER F64 NumFacts Argmin Cand Witness StepFacts Prop_Cand.
Import ListNotations.
Local Open Scope num_scope.
Local Open Scope list_scope.

Section Extra.
  Context {T : Type} {N : Num T}.
  Variables (O : StepOracles T) (A : sargs T) (m : step T).
  Lemma extra_mixed l : extra_steps O A "mixed" m = Ok l ->
    exists gs rf tt, calculate O (gradient_step A) = Ok gs /\ stepback_reflect O A m = Ok rf /\ stepback_truncate O A m = Ok tt /\ l = gs :: rf ++ tt.
  Proof.
    unfold extra_steps. cbn [String.eqb Ascii.eqb Bool.eqb orb andb]. intros H.
    apply rbind_ok in H as (gs & Hg & H). apply rbind_ok in H as (sr & Hs & H). apply rbind_ok in H as (rf & Hr & H).
    apply rbind_ok in H as (tt & Ht & H). apply rbind_ok in H as (re & He & H).
    apply Ok_inj in Hs, He, H. subst sr re l. exists gs, rf, tt. rewrite app_nil_r. auto.
  Qed.
  Lemma extra_reflect gs rf : calculate O (gradient_step A) = Ok gs -> stepback_reflect O A m = Ok rf -> extra_steps O A "reflect" m = Ok (gs :: rf).
  Proof. intros Hg Hr. unfold extra_steps. rewrite Hg, Hr. cbn [String.eqb Ascii.eqb Bool.eqb orb andb rbind app]. now rewrite app_nil_r. Qed.
  Lemma extra_reflect_inv l : extra_steps O A "reflect" m = Ok l -> exists gs rf, calculate O (gradient_step A) = Ok gs /\ stepback_reflect O A m = Ok rf /\ l = gs :: rf.
  Proof.
    unfold extra_steps. cbn [String.eqb Ascii.eqb Bool.eqb orb andb]. intros H.
    apply rbind_ok in H as (gs & Hg & H). apply rbind_ok in H as (sr & Hs & H). apply rbind_ok in H as (rf & Hr & H).
    apply rbind_ok in H as (tt & Ht & H). apply rbind_ok in H as (re & He & H).
    apply Ok_inj in Hs, Ht, He, H. subst sr re tt l. exists gs, rf. cbn [app]. rewrite app_nil_r. auto.
  Qed.
  Lemma extra_truncate gs tt : calculate O (gradient_step A) = Ok gs -> stepback_truncate O A m = Ok tt -> extra_steps O A "truncate" m = Ok (gs :: tt).
  Proof. intros Hg Hr. unfold extra_steps. rewrite Hg, Hr. cbn [String.eqb Ascii.eqb Bool.eqb orb andb rbind app]. now rewrite app_nil_r. Qed.
  Lemma extra_single gs rf : calculate O (gradient_step A) = Ok gs -> stepback_reflect O A m = Ok rf ->
    exists r, In r rf /\ extra_steps O A "reflect_single" m = Ok [gs; r].
  Proof.
    intros Hg Hr. unfold stepback_reflect in Hr. destruct (calculate O (tr_step_reflected A m)) as [r|] eqn:E; [|discriminate].
    destruct (reflect_loop _ O A r) as [l|]; [|discriminate]. apply Ok_inj in Hr. subst rf. exists r. split; [now left|].
    unfold extra_steps. rewrite Hg, E. reflexivity.
  Qed.
  Lemma extra_unknown gs strat : calculate O (gradient_step A) = Ok gs -> ~ In strat ["reflect"; "truncate"; "reflect_single"; "mixed"; "refine"]%string ->
    extra_steps O A strat m = Ok [gs].
  Proof.
    intros Hg Hs. assert (E : forall s, In s ["reflect"; "truncate"; "reflect_single"; "mixed"; "refine"]%string -> String.eqb strat s = false).
    { intros s Hin. destruct (String.eqb_spec strat s) as [->|]; [contradiction|reflexivity]. }
    unfold extra_steps. rewrite Hg, !E by (cbn [In]; tauto). reflexivity.
  Qed.
  Lemma candidates_split sd strat l : candidates O A sd strat = Ok l ->
    exists m', main_step O A sd = Ok m' /\ ((((st_alpha m' <? n1) && Nat.ltb 1 (List.length (a_sg A))) = false /\ l = [m'])
      \/ (((st_alpha m' <? n1) && Nat.ltb 1 (List.length (a_sg A))) = true /\ exists ex, extra_steps O A strat m' = Ok ex /\ l = m' :: ex)).
  Proof.
    unfold candidates. intros H. apply rbind_ok in H as (m' & Hm & H). exists m'. split; [exact Hm|]. destruct (_ && _); [right|left].
    - split; [reflexivity|]. apply rbind_ok in H as (ex & He & H). apply Ok_inj in H. subst l. eauto.
    - apply Ok_inj in H. auto.
  Qed.
  Lemma candidates_some sd strat m' ex : main_step O A sd = Ok m' -> ((st_alpha m' <? n1) && Nat.ltb 1 (List.length (a_sg A))) = true ->
    extra_steps O A strat m' = Ok ex -> candidates O A sd strat = Ok (m' :: ex).
  Proof. intros Hm Hc He. unfold candidates. rewrite Hm. cbn [rbind]. rewrite Hc, He. reflexivity. Qed.
  Lemma candidates_none sd strat m' : main_step O A sd = Ok m' -> ((st_alpha m' <? n1) && Nat.ltb 1 (List.length (a_sg A))) = false ->
    candidates O A sd strat = Ok [m'].
  Proof. intros Hm Hc. unfold candidates. rewrite Hm. cbn [rbind]. now rewrite Hc. Qed.
End Extra.

Section C59.
  Context {T : Type} {N : Num T} {L : NumLaws T}.
  Variables (O : StepOracles T) (x g : list T) (hess : list (list T)) (sc : list T) (delta : T) (dv : list T) (theta : T) (lb ub : list T) (sd : string).
  Local Notation A := (tr_args x g hess sc delta dv theta lb ub).
  Local Notation chosen strat := (trust_region O x g hess sc delta dv theta lb ub sd strat).

  Lemma found strat l : candidates O A sd strat = Ok l -> exists sp, chosen strat = Ok sp /\ In sp l.
  Proof.
    intros Hl. assert (Hn : l <> []).
    { apply candidates_split in Hl as (m & _ & [[_ ->]|(_ & ex & _ & ->)]); discriminate. }
    unfold trust_region. cbv zeta. rewrite Hl. cbn [rbind].
    assert (Hi : (argmin (map st_qpval l) < List.length (map st_qpval l))%nat) by (apply argmin_lt; destruct l; [congruence|discriminate]).
    rewrite map_length in Hi. destruct (nth_error l (argmin (map st_qpval l))) as [sp|] eqn:E.
    - exists sp. split; [reflexivity|]. now apply nth_error_In in E.
    - apply nth_error_None in E. lia.
  Qed.

  (** a strategy that considers all candidates of another predicts at least as much decrease *)
  Lemma dominates s1 s2 sp : chosen s1 = Ok sp ->
    (forall l, candidates O A sd s1 = Ok l -> (forall c, In c l -> nisnan (st_qpval c) = false) /\ exists l2, candidates O A sd s2 = Ok l2 /\ forall c, In c l2 -> In c l) ->
    exists sp2, chosen s2 = Ok sp2 /\ st_qpval sp <=? st_qpval sp2 = true.
  Proof.
    intros H1 H2. destruct (C34_best_candidate O x g hess sc delta dv theta lb ub sd s1 sp H1) as (l & El & Hin & Hbest & _).
    destruct (H2 l El) as (Hnan & l2 & El2 & Hsub). destruct (found s2 l2 El2) as (sp2 & E2 & Hin2).
    exists sp2. split; [exact E2|]. apply Hbest; auto.
  Qed.

  (** the main step is used unchanged, whatever the strategy, if it need not be shortened or there is only one parameter *)
  Theorem C59_main_step_alone : forall main, main_step O A sd = Ok main ->
    (st_alpha main <? n1 = false \/ (List.length (vmul sc g) <= 1)%nat) -> forall strat, chosen strat = Ok main.
  Proof.
    intros main Hm Hc strat. unfold trust_region, candidates. cbv zeta. rewrite Hm. cbn [rbind].
    replace ((st_alpha main <? n1) && Nat.ltb 1 (List.length (a_sg A))) with false; [reflexivity|].
    symmetry. apply andb_false_iff. destruct Hc as [Hc|Hc]; [left; exact Hc|right]. apply Nat.ltb_ge. exact Hc.
  Qed.

  Definition no_nan strat : Prop := forall l c, candidates O A sd strat = Ok l -> In c l -> nisnan (st_qpval c) = false.

  (** whenever 'mixed' finds a step, so do 'reflect', 'truncate' and 'reflect_single', and it predicts at least as much decrease as each of them *)
  Theorem C59_mixed_best : forall sp, chosen "mixed" = Ok sp -> no_nan "mixed" -> forall strat, In strat ["reflect"; "truncate"; "reflect_single"]%string ->
    exists sp2, chosen strat = Ok sp2 /\ st_qpval sp <=? st_qpval sp2 = true.
  Proof.
    intros sp H1 Hn strat Hs. apply (dominates "mixed" strat sp H1). intros l El. split; [intros c; now apply Hn|].
    apply candidates_split in El as (m & Hm & [[Hc ->]|(Hc & ex & He & ->)]).
    - exists [m]. split; [now apply candidates_none|auto].
    - apply extra_mixed in He as (gs & rf & tt & Hg & Hr & Ht & ->). destruct Hs as [<-|[<-|[<-|[]]]].
      + exists (m :: gs :: rf). split; [apply candidates_some; auto; now apply extra_reflect|]. intros c. cbn [In]. rewrite in_app_iff. tauto.
      + exists (m :: gs :: tt). split; [apply candidates_some; auto; now apply extra_truncate|]. intros c. cbn [In]. rewrite in_app_iff. tauto.
      + destruct (extra_single O A m gs rf Hg Hr) as (r & Hin & He). exists [m; gs; r]. split; [now apply candidates_some|].
        intros c [<-|[<-|[<-|[]]]]; cbn [In]; rewrite ?in_app_iff; tauto.
  Qed.

  (** 'reflect' predicts at least as much decrease as 'reflect_single' *)
  Theorem C59_reflect_better_than_single : forall sp, chosen "reflect" = Ok sp -> no_nan "reflect" ->
    exists sp2, chosen "reflect_single" = Ok sp2 /\ st_qpval sp <=? st_qpval sp2 = true.
  Proof.
    intros sp H1 Hn. apply (dominates "reflect" "reflect_single" sp H1). intros l El. split; [intros c; now apply Hn|].
    apply candidates_split in El as (m & Hm & [[Hc ->]|(Hc & ex & He & ->)]).
    - exists [m]. split; [now apply candidates_none|auto].
    - apply extra_reflect_inv in He as (gs & rf & Hg & Hr & ->).
      destruct (extra_single O A m gs rf Hg Hr) as (r & Hin & He). exists [m; gs; r]. split; [now apply candidates_some|].
      intros c [<-|[<-|[<-|[]]]]; cbn [In]; tauto.
  Qed.

  (** every strategy has the main step and the gradient step to fall back on: a strategy can only fail where the main step, the gradient step
      or a step of its own fails; a strategy name that is none of the known ones uses just these two *)
  Theorem C59_unknown_strategy : forall main gs strat, main_step O A sd = Ok main -> st_alpha main <? n1 = true -> (1 < List.length (vmul sc g))%nat ->
    calculate O (gradient_step A) = Ok gs -> ~ In strat ["reflect"; "truncate"; "reflect_single"; "mixed"; "refine"]%string ->
    exists sp, chosen strat = Ok sp /\ (sp = main \/ sp = gs).
  Proof.
    intros main gs strat Hm Ha Hn Hg Hs.
    assert (El : candidates O A sd strat = Ok [main; gs]).
    { apply candidates_some; auto; [|now apply extra_unknown]. apply andb_true_iff. split; [exact Ha|]. now apply Nat.ltb_lt. }
    destruct (found strat _ El) as (sp & E & Hin). exists sp. split; [exact E|]. destruct Hin as [<-|[<-|[]]]; auto.
  Qed.
End C59.

(** in doubles: seven candidates for 'mixed', none NaN, and it is strictly better than 'reflect_single' *)
Example C59_ex : exists l sp sp2, ex34 "mixed" = Ok l /\ ex34_tr "mixed" = Ok sp /\ ex34_tr "reflect_single" = Ok sp2
  /\ List.length l = 7%nat /\ (forall c, In c l -> nisnan (st_qpval c) = false) /\ st_qpval sp <? st_qpval sp2 = true.
Proof.
  assert (H : match ex34 "mixed"%string with
              | Ok l => match ex34_tr "mixed"%string with
                        | Ok sp => match ex34_tr "reflect_single"%string with
                          | Ok sp2 => Nat.eqb (List.length l) 7 && forallb (fun c => negb (nisnan (st_qpval c))) l && (st_qpval sp <? st_qpval sp2)
                          | Err _ => false end
                        | Err _ => false end
              | Err _ => false end = true) by (vm_compute; reflexivity).
  destruct (ex34 "mixed"%string) as [l|]; [|discriminate]. destruct (ex34_tr "mixed"%string) as [sp|]; [|discriminate].
  destruct (ex34_tr "reflect_single"%string) as [sp2|]; [|discriminate].
  apply andb_true_iff in H as [H H3]. apply andb_true_iff in H as [H1 H2]. rewrite forallb_forall in H2.
  exists l, sp, sp2. apply Nat.eqb_eq in H1. repeat (split; auto). intros c Hc. specialize (H2 c Hc). now destruct (nisnan (st_qpval c)).
Qed.
