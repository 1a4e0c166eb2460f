(** C48 for whole runs: which matrix the quadratic model of a run with HybridFixed / HybridFraction uses *)
From Coq Require Import ZArith String List Bool Lia.
From Verif Require Import Num Constants Subproblem HessApprox Steps TrustRegion Minimize
  ER NumFacts MonadFacts MinFacts Spec Run RunInv Prop_Run Prop_Run2 Prop_Quasi2 F64 Witness Prop_Reuse.
Import ListNotations.
Local Open Scope list_scope.
Local Open Scope num_scope.

Section HybridRun.
  Context {T : Type} {N : Num T} {L : NumLaws T}.
  Variables (E : env T) (C : cfg T) (ndim : nat) (x0 : list T) (sid : option string) (h0 : hess0_arg T) (st : opt T).

  (** ** Vocabulary *)

  (** the pass from the loop head [a] to the loop head [a'] accepted its step; [u] holds the step, the difference of
      the gradients, the objective's Hessian at the new point and the counters after that pass *)
  Definition accepted_pass (a a' : opt T) (u : hyb_in T) : Prop :=
    exists sp r v g pf nc, proposes E C a sp
      /\ o_evals a' = o_evals a ++ [(trial_point a sp, r)]
      /\ fun_evaluate (c_nargout C) (c_resfun C) r = Ok pf
      /\ value_of C r = Some v /\ gradient_of C r = Some g
      /\ accepts C a sp v g = true
      /\ hy_s u = vadd (st_s sp) (st_s0 sp) /\ hy_y u = vsub g (o_grad a) /\ pf_hess pf = PMat nc (hy_hess u)
      /\ hy_since u = o_since a' /\ hy_ninter u = o_ninter a' /\ hy_iter u = o_iter a'.
  Definition rejected_pass (a a' : opt T) : Prop :=
    exists sp r v g, proposes E C a sp
      /\ o_evals a' = o_evals a ++ [(trial_point a sp, r)]
      /\ value_of C r = Some v /\ gradient_of C r = Some g
      /\ accepts C a sp v g = false.

  (** the accepted passes of a run of minimize up to a loop head, in order *)
  Inductive accepted_so_far : list (hyb_in T) -> fout T -> opt T -> Prop :=
  | asf_start f s : prepare E C ndim x0 sid h0 st = (Ok f, s) -> accepted_so_far [] f s
  | asf_accept us u f s s1 f' s' : accepted_so_far us f s ->
      check_continue E C s = (Ok true, s1) -> iteration E C f s1 = (Ok f', s') ->
      accepted_pass s s' u -> accepted_so_far (us ++ [u]) f' s'
  | asf_reject us f s s1 f' s' : accepted_so_far us f s ->
      check_continue E C s = (Ok true, s1) -> iteration E C f s1 = (Ok f', s') ->
      rejected_pass s s' -> accepted_so_far us f' s'.

  (** the matrix a switching scheme shows after the updates [us]: the initial one before the first update; then the
      objective's Hessian, or, if [cond] held at an update before the last one (or the scheme had switched before the
      run), the matrix of the iterative scheme, updated with every accepted pass of the run *)
  Definition shown (cond : hyb_in T -> bool) (already : bool) (i0 : ihapp T) (us : list (hyb_in T)) : list (list T) :=
    match rev us with
    | [] => ih_mat i0
    | u :: before => if already || existsb cond before then ih_mat (run_inner us i0) else hy_hess u
    end.

  (** ** Proofs *)
  Lemma asf_head us f s : accepted_so_far us f s -> loop_head E C ndim x0 sid h0 st f s.
  Proof using. induction 1; [now apply lh_start|eapply lh_next; eauto|eapply lh_next; eauto]. Qed.
  Lemma same_answer a a' sp r sp' r' : proposes E C a sp -> o_evals a' = o_evals a ++ [(trial_point a sp, r)] ->
    proposes E C a sp' -> o_evals a' = o_evals a ++ [(trial_point a sp', r')] -> sp' = sp /\ r' = r.
  Proof using.
    intros [H1 _] E1 [H2 _] E2. cbv zeta in H1, H2. rewrite H1 in H2. injection H2 as <-.
    rewrite E1 in E2. apply app_inv_head in E2. injection E2 as <-. auto.
  Qed.

  (** what a pass does to the scheme and its matrix *)
  Definition applies (h : happ T) (u : hyb_in T) : happ T :=
    match h with
    | HFixed i b k sw => fixed_update i b k sw (hy_s u) (hy_y u) (hy_hess u) (hy_since u)
    | HFraction i b t sw => fraction_update i b t sw (hy_s u) (hy_y u) (hy_hess u) (hy_ninter u) (hy_iter u)
    | _ => h
    end.
  Definition switching (h : happ T) : Prop := match h with HFixed _ _ _ _ | HFraction _ _ _ _ => True | _ => False end.

  Lemma pass_update f s s1 f' s' h : loop_head E C ndim x0 sid h0 st f s ->
    check_continue E C s = (Ok true, s1) -> iteration E C f s1 = (Ok f', s') ->
    o_happ s = Some h -> switching h ->
    (exists u, accepted_pass s s' u /\ o_happ s' = Some (applies h u) /\ o_hess s' = h_mat (applies h u))
    \/ (rejected_pass s s' /\ o_happ s' = o_happ s /\ o_hess s' = o_hess s).
  Proof using L.
    intros Hl Hc Hi Hh Hs.
    destruct (C15_pass E C _ _ _ _ _ _ _ _ _ _ Hl Hc Hi) as (sp & r & v & g & P1 & P2 & _ & P3 & P4 & P5).
    destruct (C15_hessian_after_acceptance E C _ _ _ _ _ _ _ _ _ _ Hl Hc Hi) as (sp' & r' & v' & g' & pf & Q1 & Q2 & Q3 & Q4 & Q5 & Q6).
    destruct (same_answer _ _ _ _ _ _ P1 P2 Q1 Q2) as [-> ->].
    rewrite P3 in Q4. injection Q4 as <-. rewrite P4 in Q5. injection Q5 as <-.
    destruct (accepts C s sp v g) eqn:Ea.
    - left. specialize (Q6 eq_refl). rewrite Hh in Q6. destruct Q6 as (h' & fn & U1 & U2 & U3 & U4).
      destruct (value_typed C _ _ _ _ _ Q3 U2) as [_ Hg]. rewrite P4 in Hg. injection Hg as Eg.
      assert (Hk : exists hess, fo_hess fn = Some hess).
      { unfold happ_update in U1. destruct h; cbn in Hs; try tauto; destruct (fo_hess fn); eauto; discriminate. }
      destruct Hk as [hess Ek].
      pose proof (typed_fout_inv _ _ _ _ U2) as (_ & _ & _ & _ & _ & _ & Kh). rewrite Ek in Kh. destruct Kh as (nc & Kh & _).
      exists (mkHyb T (vadd (st_s sp) (st_s0 sp)) (vsub g (o_grad s)) hess (o_since s') (o_ninter s') (o_iter s')).
      split.
      + exists sp, r, v, g, pf, nc. cbn [hy_s hy_y hy_hess hy_since hy_ninter hy_iter]. auto 15.
      + assert (Eu : h' = applies h (mkHyb T (vadd (st_s sp) (st_s0 sp)) (vsub g (o_grad s)) hess (o_since s') (o_ninter s') (o_iter s'))).
        { unfold happ_update in U1. rewrite Ek, <- Eg in U1. destruct h; cbn in Hs; try tauto; injection U1 as <-; reflexivity. }
        rewrite <- Eu. auto.
    - right. destruct P5 as (_ & _ & A & B & _). split; auto. exists sp, r, v, g. auto 10.
  Qed.

  Lemma accepted_not_rejected a a' u : accepted_pass a a' u -> rejected_pass a a' -> False.
  Proof using.
    intros (sp & r & v & g & pf & nc & A1 & A2 & _ & A3 & A4 & A5 & _) (sp' & r' & v' & g' & B1 & B2 & B3 & B4 & B5).
    destruct (same_answer _ _ _ _ _ _ A1 A2 B1 B2) as [-> ->].
    rewrite A3 in B3. injection B3 as <-. rewrite A4 in B4. injection B4 as <-. congruence.
  Qed.
  Lemma accepted_unique a a' u u' : accepted_pass a a' u -> accepted_pass a a' u' -> u' = u.
  Proof using.
    intros (sp & r & v & g & pf & nc & A1 & A2 & A3 & A4 & A5 & _ & A6 & A7 & A8 & A9 & A10 & A11)
      (sp' & r' & v' & g' & pf' & nc' & B1 & B2 & B3 & B4 & B5 & _ & B6 & B7 & B8 & B9 & B10 & B11).
    destruct (same_answer _ _ _ _ _ _ A1 A2 B1 B2) as [-> ->].
    rewrite A4 in B4. injection B4 as <-. rewrite A5 in B5. injection B5 as <-.
    rewrite A3 in B3. injection B3 as <-. rewrite A8 in B8. injection B8 as _ E8.
    destruct u as [q1 q2 q3 q4 q5 q6], u' as [w1 w2 w3 w4 w5 w6]. cbn [hy_s hy_y hy_hess hy_since hy_ninter hy_iter] in *. congruence.
  Qed.

  Lemma switching_applies h u : switching h -> switching (applies h u).
  Proof using. destruct h; cbn; auto. Qed.
  Lemma switching_init h n arg h' : switching h -> h_init h n arg = Ok h' -> switching h'.
  Proof using.
    intros Hs H. unfold h_init in H. destruct h; cbn in Hs; try tauto; destruct ih_init; try discriminate; destruct hb_init; try discriminate;
      injection H as <-; exact I.
  Qed.

  Definition state_of (h : happ T) (us : list (hyb_in T)) : happ T := fold_left applies us h.
  Lemma prepare_scheme f s h : prepare E C ndim x0 sid h0 st = (Ok f, s) -> o_happ st = Some h ->
    exists arg h1, h_init h (List.length x0) arg = Ok h1 /\ o_happ s = Some h1 /\ o_hess s = h_mat h1.
  Proof using.
    intros H Hh. apply prepare_inv in H. inversion H as [| | | | | |pf hess h' f' Hd Hb Hpf Hp Hc Ht Hf Ef Es].
    rewrite Hh in Hp. unfold pr_hess in Hp. destruct pr_hess0 as [arg|]; [|discriminate].
    destruct (h_init h (List.length x0) arg) as [h1|] eqn:Ei; [|discriminate]. injection Hp as <- <-.
    exists arg, h1. split; [exact Ei|]. split; unfold pr_s4; destruct better; reflexivity.
  Qed.

  Lemma run_scheme h : o_happ st = Some h -> switching h ->
    forall us f s, accepted_so_far us f s ->
    exists f0 s0 arg h1, prepare E C ndim x0 sid h0 st = (Ok f0, s0) /\ h_init h (List.length x0) arg = Ok h1
      /\ o_hess s0 = h_mat h1 /\ o_happ s = Some (state_of h1 us) /\ o_hess s = h_mat (state_of h1 us).
  Proof using L.
    intros Hh Hs us f s Ha. induction Ha as [f s H|us u f s s1 f' s' Ha IH Hc Hi Hp|us f s s1 f' s' Ha IH Hc Hi Hp].
    - destruct (prepare_scheme _ _ _ H Hh) as (arg & h1 & A & B & D). exists f, s, arg, h1. auto.
    - destruct IH as (f0 & s0 & arg & h1 & A & B & D & F & G). exists f0, s0, arg, h1.
      assert (Sw : switching (state_of h1 us)).
      { clear - B Hs. assert (switching h1) by (eapply switching_init; eauto). clear B. revert h1 H. unfold state_of.
        induction us; intros; cbn [fold_left]; auto using switching_applies. }
      destruct (pass_update _ _ _ _ _ _ (asf_head _ _ _ Ha) Hc Hi F Sw) as [(u' & P & Q & R)|(P & _)].
      + rewrite (accepted_unique _ _ _ _ Hp P) in *. unfold state_of in *. rewrite fold_left_app. cbn [fold_left]. auto.
      + exfalso. eapply accepted_not_rejected; eauto.
    - destruct IH as (f0 & s0 & arg & h1 & A & B & D & F & G). exists f0, s0, arg, h1.
      assert (Sw : switching (state_of h1 us)).
      { clear - B Hs. assert (switching h1) by (eapply switching_init; eauto). clear B. revert h1 H. unfold state_of.
        induction us; intros; cbn [fold_left]; auto using switching_applies. }
      destruct (pass_update _ _ _ _ _ _ (asf_head _ _ _ Ha) Hc Hi F Sw) as [(u' & P & Q & R)|(P & Q & R)].
      + exfalso. eapply accepted_not_rejected; eauto.
      + rewrite Q, R. auto.
  Qed.
  (** every loop head of such a run is reached with some list of accepted passes *)
  Theorem C48_passes : forall h f s, o_happ st = Some h -> switching h ->
    loop_head E C ndim x0 sid h0 st f s -> exists us, accepted_so_far us f s.
  Proof using L.
    intros h f s Hh Hs Hl. induction Hl as [f s H|f s s1 f' s' Hl [us IH] Hc Hi].
    - exists []. now apply asf_start.
    - destruct (run_scheme h Hh Hs _ _ _ IH) as (f0 & s0 & arg & h1 & A & B & D & F & G).
      assert (Sw : switching (state_of h1 us)).
      { clear - B Hs. assert (switching h1) by (eapply switching_init; eauto). clear B. revert h1 H. unfold state_of.
        induction us; intros; cbn [fold_left]; auto using switching_applies. }
      destruct (pass_update _ _ _ _ _ _ Hl Hc Hi F Sw) as [(u' & P & Q & R)|(P & Q & R)].
      + exists (us ++ [u']). eapply asf_accept; eauto.
      + exists us. eapply asf_reject; eauto.
  Qed.

  Lemma state_fixed us : forall i b k sw,
    state_of (HFixed i b k sw) us = run_fixed us (HFixed i b k sw).
  Proof using.
    induction us as [|u us IH]; intros i b k sw; [reflexivity|].
    unfold state_of, run_fixed in *. cbn [fold_left]. unfold applies at 2. unfold fixed_update, switched_update. apply IH.
  Qed.
  Lemma state_fraction us : forall i b t sw,
    state_of (HFraction i b t sw) us = run_fraction us (HFraction i b t sw).
  Proof using.
    induction us as [|u us IH]; intros i b t sw; [reflexivity|].
    unfold state_of, run_fraction in *. cbn [fold_left]. unfold applies at 2. unfold fraction_update, switched_update. apply IH.
  Qed.
  Lemma rev_cases {A} (l : list A) : l = [] \/ exists b u, l = b ++ [u].
  Proof using. induction l using rev_ind; eauto. Qed.
  Lemma existsb_rev {A} (p : A -> bool) l : existsb p (rev l) = existsb p l.
  Proof using.
    induction l as [|a l IH]; auto. cbn [rev existsb]. rewrite existsb_app, IH. cbn. rewrite orb_false_r. apply orb_comm.
  Qed.

  (** HybridFixed(i, k): the matrix used at any loop head of a run *)
  Theorem C48_run_fixed : forall i b k already us f s,
    o_happ st = Some (HFixed i b k already) -> accepted_so_far us f s ->
    exists f0 s0 i0, prepare E C ndim x0 sid h0 st = (Ok f0, s0)
      /\ ih_kind i0 = ih_kind i /\ ih_mat i0 = o_hess s0
      /\ o_hess s = shown (fun u => (k <=? hy_since u)%Z) already i0 us.
  Proof using L.
    intros i b k already us f s Hh Ha.
    destruct (run_scheme _ Hh I _ _ _ Ha) as (f0 & s0 & arg & h1 & A & B & D & F & G).
    unfold h_init in B. destruct (ih_init i (List.length x0) arg) as [i0|] eqn:Ei; [|discriminate].
    destruct (hb_init (List.length x0) arg) as [b0|] eqn:Eb; [|discriminate]. injection B as <-.
    unfold ih_init in Ei. rewrite Eb in Ei. injection Ei as <-.
    exists f0, s0, (mkIhapp (ih_kind i) b0). split; [exact A|]. split; [reflexivity|]. split; [symmetry; exact D|].
    rewrite G, state_fixed. unfold shown. destruct (rev_cases us) as [->|(before & u & ->)]; [reflexivity|].
    rewrite rev_app_distr. cbn [rev app]. unfold run_fixed. rewrite fold_left_app.
    destruct (run_fixed_state before (mkIhapp (ih_kind i) b0) b0 k already) as [b' Er]. unfold run_fixed in Er. rewrite Er.
    cbn [fold_left]. unfold fixed_update, switched_update, run_inner. rewrite fold_left_app, existsb_rev.
    cbn [h_mat hb_store hb_hess fold_left]. unfold fixed_condition. reflexivity.
  Qed.
  (** HybridFraction(i, t) *)
  Theorem C48_run_fraction : forall i b t already us f s,
    o_happ st = Some (HFraction i b t already) -> accepted_so_far us f s ->
    exists f0 s0 i0, prepare E C ndim x0 sid h0 st = (Ok f0, s0)
      /\ ih_kind i0 = ih_kind i /\ ih_mat i0 = o_hess s0
      /\ o_hess s = shown (fun u => (25 <? hy_iter u)%Z && (t <? nofZ (hy_ninter u) / nofZ (hy_iter u))) already i0 us.
  Proof using L.
    intros i b t already us f s Hh Ha.
    destruct (run_scheme _ Hh I _ _ _ Ha) as (f0 & s0 & arg & h1 & A & B & D & F & G).
    unfold h_init in B. destruct (ih_init i (List.length x0) arg) as [i0|] eqn:Ei; [|discriminate].
    destruct (hb_init (List.length x0) arg) as [b0|] eqn:Eb; [|discriminate]. injection B as <-.
    unfold ih_init in Ei. rewrite Eb in Ei. injection Ei as <-.
    exists f0, s0, (mkIhapp (ih_kind i) b0). split; [exact A|]. split; [reflexivity|]. split; [symmetry; exact D|].
    rewrite G, state_fraction. unfold shown. destruct (rev_cases us) as [->|(before & u & ->)]; [reflexivity|].
    rewrite rev_app_distr. cbn [rev app]. unfold run_fraction. rewrite fold_left_app.
    destruct (run_fraction_state before (mkIhapp (ih_kind i) b0) b0 t already) as [b' Er]. unfold run_fraction in Er. rewrite Er.
    cbn [fold_left]. unfold fraction_update, switched_update, run_inner. rewrite fold_left_app, existsb_rev.
    cbn [h_mat hb_store hb_hess fold_left]. unfold fraction_condition. reflexivity.
  Qed.
End HybridRun.

(** the hypotheses are met: x^4 - type objective, HybridFixed(BFGS, 0): the run accepts steps and switches *)
Definition hyb_box := built (fzs [-10]%Z) (fzs [10]%Z) [] (Some (HFixed (mkIhapp (BFGS false) hb_empty) hb_empty 0 false)) false.
Lemma switched_run obj (p : cfg F64 * opt F64) fuel x0 i b k :
  o_happ (snd p) = Some (HFixed i b k false) ->
  match run_of obj p fuel x0 with
  | (Ok (_, _, _, _), s) => match o_happ s with Some (HFixed _ _ _ true) => true | _ => false end
  | _ => false
  end = true ->
  exists us f s, accepted_so_far (world obj) (fst p) 1 x0 None H0None (snd p) us f s
    /\ existsb (fun u => (k <=? hy_since u)%Z) us = true.
Proof.
  intros Hh H.
  destruct (ok_witness (fun _ _ _ _ s => match o_happ s with Some (HFixed _ _ _ true) => true | _ => false end)
    (run_of obj p fuel x0) H) as (fv & x & g & h & s & Hr & Hp). clear H.
  unfold run_of in Hr. apply minimize_ok_inv in Hr as (f & s0 & s1 & Hl & Hc & Hw & _).
  destruct (C48_passes _ _ _ _ _ _ _ _ _ _ Hh I Hl) as [us Hu].
  exists us, f, s0. split; [exact Hu|].
  destruct (run_scheme _ _ _ _ _ _ _ _ Hh I _ _ _ Hu) as (f0 & s2 & arg & h1 & A & B & D & F & G).
  assert (Ho : o_happ s = o_happ s0).
  { apply check_continue_false in Hc as (fl & n & ->).
    apply write_history_inv in Hw as [(_ & _ & ->)|[(file & _ & _ & _ & ->)|(file & _ & _ & -> & _)]]; reflexivity. }
  rewrite Ho, F in Hp. unfold h_init in B. destruct ih_init as [i0|]; [|discriminate]. destruct hb_init as [b0|]; [|discriminate].
  injection B as <-. rewrite state_fixed in Hp. destruct (run_fixed_state us i0 b0 k false) as [b' Er]. rewrite Er in Hp.
  cbn [orb] in Hp. unfold fixed_condition in Hp. destruct existsb; auto.
Qed.
Example C48_run_ex : exists i b us f s,
  o_happ (snd hyb_box) = Some (HFixed i b 0 false)
  /\ accepted_so_far (world Prop_Reuse.quartic) (fst hyb_box) 1 (fzs [2]%Z) None H0None (snd hyb_box) us f s
  /\ existsb (fun u => (0 <=? hy_since u)%Z) us = true.
Proof.
  assert (Hb : match o_happ (snd hyb_box) with Some (HFixed _ _ 0%Z false) => true | _ => false end = true) by (vm_compute; reflexivity).
  destruct (o_happ (snd hyb_box)) as [[| i b [| |] [|]| | |]|] eqn:Hh; try discriminate Hb.
  exists i, b. destruct (switched_run Prop_Reuse.quartic hyb_box 60 (fzs [2]%Z) i b 0%Z Hh) as (us & f & s & H).
  - vm_compute. reflexivity.
  - exists us, f, s. split; [reflexivity|exact H].
Qed.
