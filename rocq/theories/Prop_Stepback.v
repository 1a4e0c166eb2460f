(** C36: every candidate set is finite and found in finitely many passes (exact arithmetic) *)
From Coq Require Import String ZArith List Bool Reals Lra Lia Psatz.
From Verif Require Import Num Subproblem Steps TrustRegion ER NumFacts RVec SubNd RShess Argmin Cand StepFacts Prop_Sub1d Prop_Pred Prop_Box Prop_Cand TRErr RealStep Prop_Grad Region Prop_Trunc Prop_CG WitnessER GradEx.
Import ListNotations.
Local Open Scope R_scope.
Local Open Scope list_scope.

Section Stepback.
  Variables (O : StepOracles ER) (n : nat) (x g : rvec) (H : rmat) (D dv : rvec) (delta theta : R) (lb ub : list ER).
  Hypothesis P : problem n x g H D dv delta theta lb ub.
  Local Notation A := (rA x g H D dv delta theta lb ub).

  Lemma cg_regular c : nonzero g -> (n <= so_cgfuel O)%nat -> cg_step O A = Ok c -> exists sub, regular n x g H D dv delta theta lb ub false sub c.
  Proof.
    intros Hnz Hf Hc. destruct (C31_step O n x g H D dv delta theta lb ub P Hnz Hf) as (c' & u & t & z & Ec & Hst & Lu & Lz & _).
    rewrite Hc in Ec. apply Ok_inj in Ec. subst c'. exists [u]. pose proof P as P'. destruct P'.
    assert (Bx : boxed A theta c).
    { eapply (start_boxed A theta); [reflexivity|apply (A_len n x g H D dv delta theta lb ub P)|apply (A_box n x g H D dv delta theta lb ub P)|exact Hst]. }
    destruct Hst. constructor; auto.
    - exists (rzeros n). rewrite sb_s0. cbn [new_step st_s0]. rewrite (zeros_rA n x g H D dv delta theta lb ub P). split; [reflexivity|apply repeat_length].
    - exists z. auto.
    - right. exists (rmul D (radd (rscale t u) z)), (rscale t u). rewrite sb_og_s, sb_og_ss. split; [reflexivity|].
      split; [apply rmul_length; auto; rlen|]. split; [reflexivity|]. split; [rlen|discriminate].
  Qed.

  Lemma main_regular sd c : (1 < n)%nat -> finite_eig (so_sub O) -> finite_2d O n ->
    (sd = "scg"%string -> nonzero g /\ (n <= so_cgfuel O)%nat) ->
    main_step O A sd = Ok c -> exists lv sub, regular n x g H D dv delta theta lb ub lv sub c.
  Proof.
    intros Hn He H2 Hs Hm. apply main_step_cases in Hm as [(_ & r & Hr & Hc)|[(_ & Hc)|(E & Hc)]].
    - destruct (main_2d_regular O n x g H D dv delta theta lb ub P He r c) as (sub & Hsub); eauto.
    - destruct (main_full_regular O n x g H D dv delta theta lb ub P He c) as (sub & Hsub); eauto.
    - destruct (Hs E) as [Hnz Hf]. destruct (cg_regular c Hnz Hf Hc) as (sub & Hsub). eauto.
  Qed.

  (** For every solver and step-back strategy: the candidate set is computed in finitely many passes of the loops
      (no loop is cut short by the model's pass limits) and has at most 2n+3 members *)
  Theorem C36_candidate_set : forall sd strat,
    finite_eig (so_sub O) -> finite_2d O n -> roots_raise (so_sub O) (fun e => e <> EDiverge) ->
    (n + 1 <= so_trfuel O)%nat -> (sd = "scg"%string -> nonzero g /\ (n <= so_cgfuel O)%nat) ->
    match candidates O A sd strat with
    | Ok l => (1 <= length l <= 2 * n + 3)%nat
    | Err e => e <> EDiverge
    end.
  Proof.
    intros sd strat He H2 HR Hf Hs. pose proof P as P'. destruct P'.
    assert (CE : forall r e, calculate O r = Err e -> e <> EDiverge).
    { intros r e Er. apply (calculate_err O (fun e => e <> EDiverge) HR) in Er; [exact Er|discriminate]. }
    unfold candidates. destruct (main_step O A sd) as [tr|e] eqn:Em; cbn [rbind].
    2:{ unfold main_step in Em. destruct (String.eqb_spec sd "2D").
        - unfold tr_step_2d in Em. cbv zeta in Em. destruct so_lstsq; [|injection Em as <-; discriminate].
          destruct so_eig as [[[er ea] v]|]; [|injection Em as <-; discriminate].
          match type of Em with match ?m with _ => _ end = _ => destruct m eqn:E2 end; [eapply CE; eauto|].
          exfalso. destruct (a_sg A) as [|s0 [|s1 l3]]; try discriminate;
            destruct (_ && _) in E2; try discriminate; destruct (_ <? _)%num in E2; discriminate.
        - destruct (String.eqb_spec sd "full"); [eapply CE; eauto|].
          destruct (String.eqb_spec sd "scg") as [Es|]; [|injection Em as <-; discriminate].
          destruct (Hs Es) as [Hnz Hcf]. destruct (C31_step O n x g H D dv delta theta lb ub P Hnz Hcf) as (c' & u & t & z & Ec & _).
          rewrite Em in Ec. discriminate. }
    destruct (_ && _) eqn:Ea; [|simpl; lia]. apply andb_true_iff in Ea as [Ea En].
    apply Nat.ltb_lt in En. rewrite rA_sg, fv_length, (rsg_length n x g H D dv delta theta lb ub P) in En.
    assert (Ea' : (st_alpha tr =? n1)%num = false).
    { destruct (st_alpha tr) as [a| | |]; try discriminate; try reflexivity.
      cbn [nltb neqb ERNum er_ltb er_eqb n1 nofZ] in *. destruct (Rltb_spec a 1); [|discriminate]. destruct (Reqb_spec a 1); [lra|reflexivity]. }
    destruct (main_regular sd tr En He H2 Hs Em) as (lv & sub & Hreg).
    unfold extra_steps. destruct (calculate O (gradient_step A)) as [gs|e] eqn:Eg; cbn [rbind]; [|eapply CE; eauto].
    match goal with |- context [rbind (if ?c then ?a else ?b) _] => assert (K1 : match (if c then a else b) with Ok l => (length l <= if String.eqb strat "reflect_single" then 1 else 0)%nat | Err e => e <> EDiverge end) end.
    { destruct (String.eqb strat "reflect_single"); [|simpl; lia].
      destruct (calculate O (tr_step_reflected A tr)) eqn:Er; cbn [rbind]; [simpl; lia|eapply CE; eauto]. }
    match type of K1 with match ?m with _ => _ end => destruct m as [sr|e]; cbn [rbind]; [|exact K1] end.
    match goal with |- context [rbind (if ?c then ?a else ?b) _] => assert (K2 : match (if c then a else b) with Ok l => (length l <= if c then n else 0)%nat | Err e => e <> EDiverge end) end.
    { match goal with |- context [if ?c then _ else _] => destruct c end; [|simpl; lia]. destruct (stepback_reflect O A tr) as [l|e] eqn:Er.
      - apply C36_reflections_bounded in Er; change (a_x A) with (fv x) in *; rewrite fv_length, pb_x in *; [lia|auto].
      - apply (stepback_reflect_err O (fun e => e <> EDiverge) HR) in Er; [exact Er|discriminate]. }
    match type of K2 with match ?m with _ => _ end => destruct m as [rf|e]; cbn [rbind]; [|exact K2] end.
    match goal with |- context [rbind (if ?c then ?a else ?b) _] => assert (K3 : match (if c then a else b) with Ok l => (length l <= if c then n + 1 else 0)%nat | Err e => e <> EDiverge end) end.
    { match goal with |- context [if ?c then _ else _] => destruct c end; [|simpl; lia].
      destruct (truncations_bounded O n x g H D dv delta theta lb ub P He lv sub tr) as [(l & El & Hl)|(e & El & Hl)]; auto.
      - destruct lv; lia.
      - rewrite El. destruct lv; lia.
      - rewrite El. exact Hl. }
    match type of K3 with match ?m with _ => _ end => destruct m as [tt'|e]; cbn [rbind]; [|exact K3] end.
    match goal with |- context [rbind (if ?c then ?a else ?b) _] => assert (K4 : match (if c then a else b) with Ok l => (length l <= if String.eqb strat "refine" then 1 else 0)%nat | Err e => e <> EDiverge end) end.
    { destruct (String.eqb strat "refine"); cbn [andb]; [|simpl; lia]. destruct (Nat.ltb 1 _); [|simpl; lia].
      destruct (refined_step O A tr) as [r|e] eqn:Er; cbn [rbind]; [simpl; lia|].
      unfold refined_step in Er. destruct (so_refine _ _ _ _ _ _ _ _); [discriminate|]. injection Er as <-. discriminate. }
    match type of K4 with match ?m with _ => _ end => destruct m as [re|e]; cbn [rbind]; [|exact K4] end.
    cbn [length]. rewrite !app_length. destruct (String.eqb_spec strat "reflect_single") as [->|].
    - simpl in K2, K3, K4. lia.
    - destruct (String.eqb_spec strat "refine") as [->|]; [simpl in K2, K3; lia|].
      destruct (_ || _) in K2; destruct (_ || _) in K3; lia.
  Qed.
End Stepback.

(** one- and zero-dimensional subproblems need no external routine *)
Lemma calculate_small (O : StepOracles ER) r : (length (st_subspace r) <= 1)%nat -> exists c, calculate O r = Ok c.
Proof.
  intros Hl. unfold calculate. assert (E : exists c, compute_step O (reduce_to_subspace r) = Ok c); [|destruct E as (c & ->); eexists; reflexivity].
  unfold compute_step. change (st_subspace (reduce_to_subspace r)) with (st_subspace r).
  destruct (st_subspace r) as [|u [|u' l]]; [eexists; reflexivity|eexists; reflexivity|simpl in Hl; lia].
Qed.
Lemma reflections_found (O : StepOracles ER) A p : exists l, stepback_reflect O A p = Ok l.
Proof.
  unfold stepback_reflect. destruct (calculate_small O (tr_step_reflected A p)) as (r & ->); [simpl; lia|].
  assert (G : forall k r, exists l, reflect_loop k O A r = Ok l).
  { induction k; intros q; cbn [reflect_loop]; [eexists; reflexivity|]. destruct (_ =? _)%num; [eexists; reflexivity|].
    destruct (calculate_small O (tr_step_reflected A q)) as (q' & ->); [simpl; lia|].
    destruct (IHk q') as (l & ->). eexists. reflexivity. }
  destruct (G (length (a_x A) - 1)%nat r) as (l & ->). eexists. reflexivity.
Qed.

(** the hypotheses hold in the two-variable problem of GradEx, whose main step is stepped back; all candidates are found *)
Example C36_ex : finite_eig (so_sub gx_la) /\ finite_2d gx_la 2 /\ roots_raise (so_sub gx_la) (fun e => e <> EDiverge)
  /\ (2 + 1 <= so_trfuel gx_la)%nat /\ nonzero [1; 0] /\ (2 <= so_cgfuel gx_la)%nat
  /\ problem 2 [0; 0] [1; 0] (reye 2) [1; 1] [0; 0] 10 (/ 2) gx_lb gx_ub
  /\ exists l, candidates gx_la gx_A "2D" "mixed" = Ok l /\ (4 <= length l <= 7)%nat.
Proof.
  assert (F1 : finite_eig (so_sub gx_la)) by (intros b ev vecs E; discriminate).
  assert (F2 : finite_2d gx_la 2).
  { split.
    - intros m v l E. injection E as <-. exists [1; 0]. split; reflexivity.
    - intros m re ab v E. injection E as <- <- <-. exists [[1; 0]; [0; 1]]. repeat split. repeat constructor. }
  assert (F3 : roots_raise (so_sub gx_la) (fun e => e <> EDiverge)).
  { split; intros; discriminate. }
  assert (Hnz : nonzero [1; 0]) by (exists 0%nat; simpl; lra).
  assert (Ht : (2 + 1 <= so_trfuel gx_la)%nat) by (simpl; lia). assert (Hcf : (2 <= so_cgfuel gx_la)%nat) by (simpl; lia).
  repeat (split; [assumption|]). split; [apply gx_problem|].
  destruct gx_main as (main & Hm & Ha & _ & Hsub & _ & _ & _ & _ & Him & _).
  destruct (calculate_small gx_la (gradient_step gx_A)) as (gs & Hgs); [simpl; lia|].
  assert (Hlt : (st_alpha main <? n1)%num = true).
  { rewrite Ha. cbn -[Rltb Rinv IZR]. rdec; auto. }
  destruct (reflections_found gx_la gx_A main) as (rf & Hrf).
  assert (Es : st_subspace (tr_step_truncated gx_A main) = []).
  { unfold tr_step_truncated. cbn [new_step st_subspace]. rewrite Hsub, Him. unfold trunc_subspace, fm, fv, mapi. cbn [map mapi_from mem existsb Nat.eqb orb].
    unfold vall_zero. cbn -[Reqb IZR]. rdec; reflexivity. }
  destruct (calculate_small gx_la (tr_step_truncated gx_A main)) as (tt' & Htt); [rewrite Es; simpl; lia|].
  assert (Est : st_subspace tt' = []).
  { apply calculate_fields in Htt as (sc & ss & s & _ & _ & _ & Hst & _). destruct Hst. now rewrite sb_subspace. }
  assert (Hst : stepback_truncate gx_la gx_A main = Ok [tt']).
  { unfold stepback_truncate. rewrite Htt. cbn [so_trfuel gx_la truncate_loop]. rewrite Est. reflexivity. }
  assert (Hc : candidates gx_la gx_A "2D" "mixed" = Ok (main :: gs :: rf ++ [tt'])).
  { unfold candidates. rewrite Hm. cbn [rbind]. rewrite Hlt. change (Nat.ltb 1 (length (a_sg gx_A))) with true. cbn [andb].
    unfold extra_steps. rewrite Hgs. cbn [rbind String.eqb Ascii.eqb Bool.eqb orb andb]. rewrite Hrf. cbn [rbind]. rewrite Hst. reflexivity. }
  exists (main :: gs :: rf ++ [tt']). split; [exact Hc|].
  pose proof (C36_candidate_set gx_la 2 [0; 0] [1; 0] (reye 2) [1; 1] [0; 0] 10 (/ 2) gx_lb gx_ub gx_problem "2D" "mixed" F1 F2 F3 Ht) as K.
  change (rA [0; 0] [1; 0] (reye 2) [1; 1] [0; 0] 10 (/ 2) gx_lb gx_ub) with gx_A in K. rewrite Hc in K.
  assert (Hr : (1 <= length rf)%nat).
  { apply C36_reflections_bounded in Hrf; [lia|]. change (a_x gx_A) with (fv [0; 0]). simpl. lia. }
  assert (K' := K (fun E => ltac:(discriminate))). cbn [length] in *. rewrite app_length in *. cbn [length] in *. lia.
Qed.
