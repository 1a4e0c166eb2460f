(** C52 and C23 at the level of runs: what the first quadratic model is built from, and the
    step-back parameter used in every pass. *)
From Coq Require Import ZArith List Bool String Lia Reals.
From Flocq Require Import Core BinarySingleNaN.
From Verif Require Import Num Constants Subproblem HessApprox Steps TrustRegion Minimize
  ER F64 NumFacts MonadFacts MinFacts Spec Run RunInv Prop_Run Cand StepFacts Prop_BoxRun Witness Prop_Sym Prop_RunEx.
Import ListNotations.
Local Open Scope num_scope.

Lemma ok_inj1 {A} (a b : A) : Ok a = Ok b -> a = b.
Proof. intros H. injection H as H. exact H. Qed.

Section Start.
  Context {T : Type} {N : Num T} {L : NumLaws T}.
  Local Notation vec := (list T).
  Local Notation mat := (list (list T)).

  (** every entry of the difference matrix is zero and it has the rows of m *)
  Definition zero_like (m d : mat) : Prop :=
    List.length d = List.length m
    /\ forall i, (i < List.length m)%nat -> nth i d [] = repeat n0 (List.length (nth i m [])).
  (** identity matrix times a scalar *)
  Definition scaled_identity (n : nat) (c : T) (m : mat) : Prop :=
    square n m /\ forall i j, (i < n)%nat -> (j < n)%nat -> cell m i j = (if Nat.eqb i j then n1 else n0) * c.
  (** what an approximation reports: the matrices and differences it holds *)
  Definition holds_matrix (h : happ T) (m : mat) : Prop :=
    h_mat h = m /\ zero_like m (h_diff h)
    /\ match h with
       | HIter _ => True
       | HFixed i _ _ _ | HFraction i _ _ _ | HFX i _ _ => ih_mat i = m /\ zero_like m (ih_diff i)
       | HStruct s => scaled_identity (List.length m) spacing1 (sh_A s)
       end.

  Lemma square_eye n : square n (eye n).
  Proof using N.
    split; [unfold eye; now rewrite map_length, seq_length|]. unfold eye. apply Forall_map, Forall_forall. intros i _.
    now rewrite map_length, seq_length.
  Qed.
  Lemma nth_map_seq {A} (F : nat -> A) d n i : (i < n)%nat -> nth i (map F (seq 0 n)) d = F i.
  Proof using.
    intros Hi. rewrite (nth_indep _ d (F O)) by now rewrite map_length, seq_length.
    rewrite map_nth. now rewrite seq_nth.
  Qed.
  Lemma cell_eye n i j : (i < n)%nat -> (j < n)%nat -> cell (eye n) i j = if Nat.eqb i j then n1 else n0.
  Proof using N. intros Hi Hj. unfold cell, eye. now rewrite !nth_map_seq. Qed.
  Lemma zero_like_mzeros (m : mat) : zero_like m (mzeros_like m).
  Proof.
    unfold mzeros_like. split; [now rewrite map_length|]. intros i Hi.
    rewrite (nth_indep _ [] (map (fun _ : T => n0) [])) by now rewrite map_length.
    rewrite (map_nth (map (fun _ : T => n0))). generalize (nth i m []) as r. 
    induction r; simpl; congruence.
  Qed.

  (** Initialization: the given matrix (or the identity), zero differences, the inner approximation
      of a hybrid the same; the structured part starts at the identity times the spacing of one. *)
  Theorem C52_init_contents : forall (h : happ T) dim arg h',
    h_init h dim arg = Ok h' ->
    holds_matrix h' (match arg with None => eye dim | Some m => m end).
  Proof.
    assert (HB : forall dim arg b, hb_init dim arg = Ok b ->
       hb_hess b = match arg with None => eye dim | Some m => m end
       /\ zero_like (hb_hess b) (hb_diff b) /\ List.length (hb_hess b) = dim).
    { intros dim [m|] b H; unfold hb_init in H.
      - destruct (Nat.eqb_spec (List.length m) dim) as [El|]; [|discriminate]. injection H as <-.
        split; [reflexivity|]. split; [apply zero_like_mzeros|exact El].
      - injection H as <-. split; [reflexivity|]. split; [apply zero_like_mzeros|]. cbn [hb_hess]. unfold eye. now rewrite map_length, seq_length. }
    assert (HI : forall i dim arg i', ih_init i dim arg = Ok i' ->
       ih_mat i' = match arg with None => eye dim | Some m => m end
       /\ zero_like (ih_mat i') (ih_diff i')).
    { intros i dim arg i' H. unfold ih_init in H. destruct (hb_init dim arg) as [b|] eqn:Eb; [|discriminate].
      injection H as <-. apply HB in Eb as (E1 & E2 & _). split; [exact E1|exact E2]. }
    intros h dim arg h' H. set (m := match arg with None => eye dim | Some m => m end).
    destruct h; cbn [h_init] in H.
    - destruct (ih_init i dim arg) as [i'|] eqn:Ei; [|discriminate]. injection H as <-.
      apply HI in Ei as [E1 E2]. fold m in E1. rewrite E1 in E2. split; [exact E1|]. split; [exact E2|exact I].
    - destruct (ih_init inner dim arg) as [i'|] eqn:Ei; [|discriminate].
      destruct (hb_init dim arg) as [b|] eqn:Eb; [|discriminate]. injection H as <-.
      apply HI in Ei as [E1 E2]. apply HB in Eb as (E3 & E4 & _). fold m in E1, E3. rewrite E1 in E2. rewrite E3 in E4.
      split; [exact E3|]. split; [exact E4|]. split; assumption.
    - destruct (ih_init inner dim arg) as [i'|] eqn:Ei; [|discriminate].
      destruct (hb_init dim arg) as [b|] eqn:Eb; [|discriminate]. injection H as <-.
      apply HI in Ei as [E1 E2]. apply HB in Eb as (E3 & E4 & _). fold m in E1, E3. rewrite E1 in E2. rewrite E3 in E4.
      split; [exact E3|]. split; [exact E4|]. split; assumption.
    - destruct (ih_init inner dim arg) as [i'|] eqn:Ei; [|discriminate].
      destruct (hb_init dim arg) as [b|] eqn:Eb; [|discriminate]. injection H as <-.
      apply HI in Ei as [E1 E2]. apply HB in Eb as (E3 & E4 & _). fold m in E1, E3. rewrite E1 in E2. rewrite E3 in E4.
      split; [exact E1|]. split; [exact E4|]. split; assumption.
    - unfold sh_init in H. destruct (hb_init dim arg) as [b|] eqn:Eb; [|discriminate]. injection H as <-.
      apply HB in Eb as (E3 & E4 & E5). fold m in E3. rewrite E3 in E4, E5.
      split; [exact E3|]. split; [exact E4|]. cbn [sh_A]. rewrite E5.
      pose proof (square_eye dim) as Sq. split.
      + destruct Sq as [S1 S2]. split; [now rewrite map_length|]. apply Forall_map. eapply Forall_impl; [|exact S2].
        intros a Ha. now rewrite map_length.
      + intros i j Hi Hj. rewrite (cell_map dim) by auto. now rewrite cell_eye.
  Qed.

  (** The first quadratic model of a run.  [f] is what the objective returned at the start. *)
  Theorem C52_first_model : forall E (C : cfg T) ndim x0 sid h0 st f s,
    prepare E C ndim x0 sid h0 st = (Ok f, s) ->
    match o_happ st with
    | None => o_happ s = None /\ fo_hess f = Some (o_hess s)
    | Some h =>
        exists h', o_happ s = Some h' /\ holds_matrix h' (o_hess s)
        /\ match h0 with
           | H0None => o_hess s = eye (List.length x0)
           | H0Mat m => o_hess s = m
           | H0Hess => o_hess s = match fo_hess f with None => eye (List.length x0) | Some m => m end
           | H0OtherStr => False
           end
    end.
  Proof.
    intros E C ndim x0 sid h0 st f s H. apply prepare_inv in H.
    inversion H as [| | | | | |pf hess h' f' Hd Hb Hpf Hh Hc Ht Hf Ef Es]. subst f'. clear H.
    subst s.
    assert (E1 : o_hess (set_o_conv false (pr_s4 E C sid x0 hess h' f st)) = hess) by (unfold pr_s4; destruct better; reflexivity).
    assert (E2 : o_happ (set_o_conv false (pr_s4 E C sid x0 hess h' f st)) = h') by (unfold pr_s4; destruct better; reflexivity).
    rewrite !E1, E2. apply typed_fout_inv in Ht as (_ & _ & _ & _ & _ & _ & Ht).
    assert (Hph : match fo_hess f with
                  | None => pf_hess pf = PNone
                  | Some m => exists nc, pf_hess pf = PMat nc m end).
    { destruct (fo_hess f) as [m|]; [|exact Ht]. destruct Ht as (nc & Ht & _). eauto. }
    unfold pr_hess in Hh. destruct (o_happ st) as [h|].
    - destruct (pr_hess0 h0 pf) as [arg|] eqn:Ea; [|discriminate].
      destruct (h_init h (List.length x0) arg) as [h2|] eqn:Ei; [|discriminate].
      apply ok_inj1, pair_equal_spec in Hh as [Hm Hs]. exists h2. split; [auto|].
      apply C52_init_contents in Ei. pose proof Ei as (Em & _). rewrite Em in Hm.
      split; [now rewrite Hm in Ei|]. unfold pr_hess0 in Ea. destruct h0.
      + apply ok_inj1 in Ea. now subst.
      + apply ok_inj1 in Ea. now subst.
      + destruct (fo_hess f) as [m|].
        * destruct Hph as (nc & Hph). rewrite Hph in Ea. apply ok_inj1 in Ea. now subst.
        * rewrite Hph in Ea. apply ok_inj1 in Ea. now subst.
      + discriminate.
    - destruct (fo_hess f) as [m|].
      + destruct Hph as (nc & Hph). rewrite Hph in Hh. apply ok_inj1, pair_equal_spec in Hh as [Hm Hs].
        split; congruence.
      + rewrite Hph in Hh. discriminate.
  Qed.

  (** C23: every pass of every run evaluates the objective at a trial point whose step-back
      parameter is at least theta_max, at most one, and is the documented maximum. *)
  Theorem C23_theta_of_every_pass : forall E (C : cfg T) ndim x0 sid h0 st f s s1 f' s',
    op_theta_max (c_opts C) <=? n1 = true ->
    loop_head E C ndim x0 sid h0 st f s -> check_continue E C s = (Ok true, s1) ->
    iteration E C f s1 = (Ok f', s') ->
    exists sp r v, o_evals s' = o_evals s ++ [(trial_point s sp, r)]
      /\ v = map fst (affine_scaling (deref s (o_x s)) (o_grad s) (c_lb C) (c_ub C))
      /\ st_theta sp = pymax (op_theta_max (c_opts C)) (n1 - norm_inf (vmul v (o_grad s)))
      /\ op_theta_max (c_opts C) <=? st_theta sp = true /\ st_theta sp <=? n1 = true.
  Proof.
    intros E C ndim x0 sid h0 st f s s1 f' s' Ht HL Hc Hi.
    destruct (C15_pass E C ndim x0 sid h0 st f s s1 f' s' HL Hc Hi) as (sp & r & v & g & Hp & He & _).
    exists sp, r. eexists. split; [exact He|]. split; [reflexivity|].
    split; [|now apply (C23_theta_range E C s sp)].
    destruct Hp as (H & _ & _). apply trust_region_in in H as (l & Hl & Hn).
    apply nth_error_In in Hn. pose proof (candidates_theta _ _ _ _ _ Hl) as HF. rewrite Forall_forall in HF.
    exact (HF _ Hn).
  Qed.
End Start.

(** Non-vacuity: double precision, BFGS started from hess0 = [[4]] on x.x *)
Example C52_ex : exists f s, prepare (world sumsq2) (fst bfgs2) 1 (fzs [3; 4]%Z) None (H0Mat [fzs [4; 1]%Z; fzs [1; 4]%Z]) (snd bfgs2) = (Ok f, s)
  /\ o_hess s = [fzs [4; 1]%Z; fzs [1; 4]%Z].
Proof.
  destruct (prepare (world sumsq2) (fst bfgs2) 1 (fzs [3; 4]%Z) None (H0Mat [fzs [4; 1]%Z; fzs [1; 4]%Z]) (snd bfgs2)) as [[f|e] s] eqn:E.
  - exists f, s. split; [reflexivity|]. pose proof (C52_first_model _ _ _ _ _ _ _ _ _ E) as H.
    assert (Eh : o_happ (snd bfgs2) = Some (HIter (mkIhapp (BFGS true) hb_empty))) by reflexivity.
    rewrite Eh in H. destruct H as (h' & _ & _ & H). exact H.
  - exfalso. assert (K : match fst (prepare (world sumsq2) (fst bfgs2) 1 (fzs [3; 4]%Z) None (H0Mat [fzs [4; 1]%Z; fzs [1; 4]%Z]) (snd bfgs2)) with Ok _ => true | Err _ => false end = true) by (vm_compute; reflexivity).
    rewrite E in K. discriminate.
Qed.
