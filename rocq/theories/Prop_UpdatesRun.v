(** C47 for whole runs: the update the history reports is what was added to the matrix of the quadratic model. *)
From Coq Require Import String ZArith List Bool Lia.
From Verif Require Import Num Constants Subproblem HessApprox Steps TrustRegion Minimize
  ER NumFacts RVec Quasi MonadFacts MinFacts Spec Run RunInv RunFrame HessRun StepFacts Prop_Run Prop_Run2 Prop_Quasi Prop_Quasi2 Prop_Reuse Prop_History F64 Witness.
Import ListNotations.
Local Open Scope list_scope.
Local Open Scope num_scope.

Section UpdatesRun.
  Context {T : Type} {N : Num T} {L : NumLaws T}.
  Local Notation opt := (opt T).
  Variables (E : env T) (C : cfg T).
  Variables (ndim : nat) (x0 : list T) (sid : option string) (h0 : hess0_arg T) (st : opt).
  (** the kinds of scheme that one scheme can turn into during a run *)
  Definition kind_of (h : happ T) : happ T -> Prop := fun h' =>
    match h, h' with
    | HIter i, HIter i' => ih_kind i' = ih_kind i
    | HFixed i _ k _, HFixed i' _ k' _ => ih_kind i' = ih_kind i /\ k' = k
    | HFraction i _ t _, HFraction i' _ t' _ => ih_kind i' = ih_kind i
    | HFX i _ t, HFX i' _ t' => ih_kind i' = ih_kind i
    | HStruct sh, HStruct sh' => sh_kind sh' = sh_kind sh
    | _, _ => False
    end.
  Lemma ih_upd_kind (i : ihapp T) a b : ih_kind (ih_update i a b) = ih_kind i.
  Proof. destruct i as [[] b0]; reflexivity. Qed.
  Lemma h_init_kind h n arg h' : h_init h n arg = Ok h' -> kind_of h h'.
  Proof.
    destruct h as [i|i b k sw|i b t sw|i b t|sh]; cbn [h_init]; unfold ih_init, sh_init; destruct (hb_init n arg); try discriminate;
      intros H; injection H as <-; cbn; auto.
  Qed.
  Lemma happ_update_kind g h s grad since ninter iter fnew fold h' :
    kind_of g h -> happ_update h s grad since ninter iter fnew fold = Ok h' -> kind_of g h'.
  Proof.
    intros K H. unfold happ_update in H. destruct h as [i|i b k sw|i b t sw|i b t|sh].
    - injection H as <-. destruct g; cbn in *; auto. now rewrite ih_upd_kind.
    - destruct (fo_hess fnew); [|discriminate]. injection H as <-. unfold fixed_update, switched_update.
      destruct g; cbn in *; auto. now rewrite ih_upd_kind.
    - destruct (fo_hess fnew); [|discriminate]. injection H as <-. unfold fraction_update, switched_update.
      destruct g; cbn in *; auto. now rewrite ih_upd_kind.
    - destruct (fo_hess fnew); [|discriminate]. unfold fx_update in H. cbv zeta in H. destruct (_ <=? _).
      + unfold ih_set_mat, hb_set_mat in H. destruct shape_eqb; [|discriminate]. injection H as <-. destruct g; cbn in *; auto.
      + injection H as <-. destruct g; cbn in *; auto. now rewrite ih_upd_kind.
    - destruct (fo_hess fnew); [|discriminate]. injection H as <-. destruct g; cbn in *; auto.
      unfold sh_update. cbv zeta. destruct (sh_kind sh) eqn:Ek; try (destruct (_ <? _)); cbn [sh_kind]; congruence.
  Qed.
  Lemma held h f s : o_happ st = Some h -> loop_head E C ndim x0 sid h0 st f s ->
    exists h1, o_happ s = Some h1 /\ o_hess s = h_mat h1 /\ kind_of h h1.
  Proof.
    intros Hh. apply (run_hess_ind E C ndim x0 sid h0 st (fun m o => exists h1, o = Some h1 /\ m = h_mat h1 /\ kind_of h h1)).
    - intros m o pf fo k _ _ Hp. unfold pr_hess in Hp. rewrite Hh in Hp. destruct (pr_hess0 h0 pf) as [arg|]; [|discriminate].
      destruct (h_init h (List.length x0) arg) as [h1|] eqn:E1; [|discriminate]. injection Hp as <- <-. exists h1.
      split; [reflexivity|]. split; [reflexivity|]. now apply h_init_kind in E1.
    - intros m o sv grad since ninter iter fnew fold k r r' m' o' (h1 & -> & -> & K) _ _ _ _ _ _ _ _ _ Hst.
      unfold hess_step in Hst. destruct (happ_update _ _ _ _ _ _ _ _) as [h2|] eqn:E2; [|discriminate]. injection Hst as <- <-.
      exists h2. split; [reflexivity|]. split; [reflexivity|]. eapply happ_update_kind; eauto.
  Qed.

  (** one pass, whether the step was accepted, and the smallest and largest eigenvalue the history gets for the update *)
  Definition recorded (f : fout T) (s : opt) (f' : fout T) (s' : opt) (accepted : bool) (range : T * T) : Prop :=
    exists s1 sp v g, loop_head E C ndim x0 sid h0 st f s /\ check_continue E C s = (Ok true, s1) /\ iteration E C f s1 = (Ok f', s')
      /\ proposes E C s sp
      /\ value_of C (e_obj E (List.length (o_evals s)) (trial_point s sp)) = Some v
      /\ gradient_of C (e_obj E (List.length (o_evals s)) (trial_point s sp)) = Some g
      /\ accepted = accepts C s sp v g
      /\ series (o_hist s') "hess_update_min_ev" = series (o_hist s) "hess_update_min_ev" ++ [HNum (fst range)]
      /\ series (o_hist s') "hess_update_max_ev" = series (o_hist s) "hess_update_max_ev" ++ [HNum (snd range)].

  Lemma pass_recorded f s s1 f' s' : op_history (c_opts C) <> None ->
    loop_head E C ndim x0 sid h0 st f s -> check_continue E C s = (Ok true, s1) -> iteration E C f s1 = (Ok f', s') ->
    exists accepted range, recorded f s f' s' accepted range
      /\ update_range E accepted (o_happ s') range
      /\ if accepted
         then forall h, o_happ s = Some h -> exists h' sv grad since ninter iter fn,
                happ_update h sv grad since ninter iter fn f = Ok h' /\ o_happ s' = Some h' /\ o_hess s' = h_mat h'
         else o_hess s' = o_hess s /\ o_happ s' = o_happ s.
  Proof.
    intros Hh HL Hc Hi.
    destruct (C20_every_series E C _ _ _ _ _ _ _ _ _ _ Hh HL Hc Hi) as (sp & v & g & ev & up & sup & ch & cs & P1 & P2 & P3 & _ & _ & _ & P4 & _ & P5).
    exists (accepts C s sp v g), up. split; [|split; [exact P4|]].
    - exists s1, sp, v, g. do 7 (split; auto). split; apply P5; cbn [In]; tauto.
    - destruct (accepts C s sp v g) eqn:Ea.
      + intros h Eh. destruct (C15_hessian_after_acceptance E C _ _ _ _ _ _ _ _ _ _ HL Hc Hi) as (sp2 & r & v2 & g2 & pf & Q1 & Q2 & _ & Q4 & Q5 & Q6).
        assert (sp2 = sp) as -> by (destruct P1 as [P1 _], Q1 as [Q1 _]; rewrite P1 in Q1; now apply Ok_inj in Q1).
        destruct (C15_pass E C _ _ _ _ _ _ _ _ _ _ HL Hc Hi) as (sp3 & r3 & v3 & g3 & R1 & R2 & R3 & R4 & R5 & _).
        assert (sp3 = sp) as -> by (destruct P1 as [P1 _], R1 as [R1 _]; rewrite P1 in R1; now apply Ok_inj in R1).
        assert (r3 = r) as -> by (rewrite Q2 in R2; apply app_inv_head in R2; injection R2; auto).
        subst r. rewrite P2 in Q4. rewrite P3 in Q5. injection Q4 as <-. injection Q5 as <-. rewrite Eh in Q6.
        destruct (Q6 Ea) as (h' & fn & B1 & _ & B2 & B3). repeat eexists; eauto.
      + destruct (C15_pass E C _ _ _ _ _ _ _ _ _ _ HL Hc Hi) as (sp3 & r3 & v3 & g3 & R1 & R2 & R3 & R4 & R5 & R6).
        assert (sp3 = sp) as -> by (destruct P1 as [P1 _], R1 as [R1 _]; rewrite P1 in R1; now apply Ok_inj in R1).
        subst r3. rewrite P2 in R4. rewrite P3 in R5. injection R4 as <-. injection R5 as <-. rewrite Ea in R6. tauto.
  Qed.

  (** iterative schemes other than BB, in the arithmetic of the machine *)
  Theorem C47_run_iterative : forall i f s s1 f' s',
    o_happ st = Some (HIter i) -> ih_kind i <> IBB -> op_history (c_opts C) <> None ->
    loop_head E C ndim x0 sid h0 st f s -> check_continue E C s = (Ok true, s1) -> iteration E C f s1 = (Ok f', s') ->
    exists accepted range, recorded f s f' s' accepted range
      /\ if accepted then exists D, o_hess s' = madd (o_hess s) D /\ e_minmax E D = Some range
         else o_hess s' = o_hess s /\ range = (n0, n0).
  Proof.
    intros i f s s1 f' s' Hst Hk Hh HL Hc Hi. destruct (held _ _ _ Hst HL) as (h1 & E1 & E2 & K).
    destruct h1 as [i1|i1 ? ? ?|i1 ? ? ?|i1 ? ?|sh1]; cbn in K; try contradiction.
    destruct (pass_recorded f s s1 f' s' Hh HL Hc Hi) as (a & rg & R & U & X). exists a, rg. split; [exact R|].
    destruct a.
    - destruct (X _ E1) as (h' & sv & grad & since & ninter & iter & fn & B1 & B2 & B3). cbn in B1. injection B1 as <-.
      rewrite B2 in U. cbn in U. eexists. split; [|exact U]. rewrite B3, E2. cbn [h_mat h_diff]. apply C47_iterative. congruence.
    - destruct X as [X1 X2]. split; [exact X1|]. rewrite X2, E1 in U. exact U.
  Qed.
End UpdatesRun.

(** every scheme except BB and FX around BB, in exact arithmetic, as long as the matrices of the model are finite *)
Theorem C47_run : forall (E : env ER) (C : cfg ER) ndim x0 sid h0 (st : opt ER) h f s s1 f' s' n A A',
  o_happ st = Some h -> ~ adds_up_excluded h -> op_history (c_opts C) <> None ->
  loop_head E C ndim x0 sid h0 st f s -> check_continue E C s = (Ok true, s1) -> iteration E C f s1 = (Ok f', s') ->
  o_hess s = fm A -> is_mat n n A -> o_hess s' = fm A' -> is_mat n n A' ->
  exists accepted range, recorded E C ndim x0 sid h0 st f s f' s' accepted range
    /\ if accepted then exists D, o_hess s' = madd (o_hess s) D /\ e_minmax E D = Some range
       else o_hess s' = o_hess s /\ range = (n0, n0).
Proof.
  intros E C ndim x0 sid h0 st h f s s1 f' s' n A A' Hst Hx Hh HL Hc Hi EA MA EA' MA'.
  destruct (held E C ndim x0 sid h0 st _ _ _ Hst HL) as (h1 & E1 & E2 & K).
  assert (Hx1 : ~ adds_up_excluded h1).
  { intros Q. apply Hx. destruct h, h1; cbn in *; try contradiction; unfold is_BB in *; congruence. }
  destruct (pass_recorded E C ndim x0 sid h0 st f s s1 f' s' Hh HL Hc Hi) as (a & rg & R & U & X). exists a, rg. split; [exact R|].
  destruct a.
  - destruct (X _ E1) as (h' & sv & grad & since & ninter & iter & fn & B1 & B2 & B3).
    rewrite B2 in U. cbn in U. exists (h_diff h'). split; [|exact U]. rewrite B3, E2.
    eapply (C47_updates_add_up n h1 _ _ _ _ _ _ _ h' A A'); eauto; congruence.
  - destruct X as [X1 X2]. split; [exact X1|]. rewrite X2, E1 in U. exact U.
Qed.

(** non-vacuity, in doubles: x1^4 + x2^2 from (2, 3) with BFGS and a history file: the first step is accepted and changes the matrix *)
Definition quartic (_ : nat) (x : list F64) : retval F64 :=
  let a := nth 0 x nnan in let b := nth 1 x nnan in
  RTuple [PScal (a * a * a * a + b * b); PVec [fz 4 * a * a * a; fz 2 * b]].
Definition recording : cfg F64 * opt F64 :=
  built (repeat (- ninf) 2) (repeat ninf 2) [(KStr "history_file", VStr "h.h5")]%string (Some (HIter (mkIhapp (BFGS true) hb_empty))) false.
Definition first_pass (obj : nat -> list F64 -> retval F64) (p : cfg F64 * opt F64) (x0 : list F64) (P : opt F64 -> opt F64 -> bool) : bool :=
  let E := world obj in
  match prepare E (fst p) 1 x0 None H0None (snd p) with
  | (Ok f, s) =>
      match check_continue E (fst p) s with
      | (Ok true, s1) => match iteration E (fst p) f s1 with (Ok f', s') => P s s' | _ => false end
      | _ => false
      end
  | _ => false
  end.
Lemma first_pass_ok obj p x0 P : first_pass obj p x0 P = true -> exists f s s1 f' s',
  loop_head (world obj) (fst p) 1 x0 None H0None (snd p) f s
  /\ check_continue (world obj) (fst p) s = (Ok true, s1) /\ iteration (world obj) (fst p) f s1 = (Ok f', s') /\ P s s' = true.
Proof.
  unfold first_pass. intros H. destruct (prepare _ _ _ _ _ _ _) as [[f|e] s] eqn:Ep; [|discriminate]. cbv zeta in H.
  destruct (check_continue _ _ s) as [[[]|] s1] eqn:Ec; try discriminate.
  destruct (iteration _ _ f s1) as [[f'|] s'] eqn:Ei; [|discriminate]. exists f, s, s1, f', s'. split; [now apply lh_start|]. auto.
Qed.
Example C47_run_ex : exists f s s1 f' s',
  loop_head (world quartic) (fst recording) 1 [fz 2; fz 3] None H0None (snd recording) f s
  /\ check_continue (world quartic) (fst recording) s = (Ok true, s1) /\ iteration (world quartic) (fst recording) f s1 = (Ok f', s')
  /\ op_history (c_opts (fst recording)) <> None /\ o_hess s' <> o_hess s
  /\ exists i, o_happ (snd recording) = Some (HIter i) /\ ih_kind i <> IBB.
Proof.
  assert (H : first_pass quartic recording [fz 2; fz 3] (fun s s' =>
    match op_history (c_opts (fst recording)) with Some _ => true | None => false end
    && negb (nth 0 (nth 0 (o_hess s') []) nnan =? nth 0 (nth 0 (o_hess s) []) nnan)
    && (nth 0 (nth 0 (o_hess s) []) nnan =? nth 0 (nth 0 (o_hess s) []) nnan)) = true) by (vm_compute; reflexivity).
  apply first_pass_ok in H as (f & s & s1 & f' & s' & H1 & H2 & H3 & H4). exists f, s, s1, f', s'. do 3 (split; [assumption|]).
  rewrite !andb_true_iff in H4. destruct H4 as [[K1 K2] K3]. split; [|split].
  - destruct (op_history (c_opts (fst recording))); [discriminate|discriminate K1].
  - intros E. rewrite E in K2. apply negb_true_iff in K2. congruence.
  - assert (B : match o_happ (snd recording) with Some (HIter i) => match ih_kind i with IBroyden _ _ => true | _ => false end | _ => false end = true)
      by (vm_compute; reflexivity).
    destruct (o_happ (snd recording)) as [[i| | | |]|]; try discriminate B. exists i. split; [reflexivity|].
    destruct (ih_kind i); discriminate.
Qed.
