(** C40, C43, C44, C45 and C74 for whole runs: what an iterative approximation scheme does at an accepted step of minimize, in
    terms of the gradients the objective returned at the two points. *)
From Coq Require Import String ZArith List Bool Reals Lra Lia.
From Verif Require Import Num Constants Subproblem HessApprox Steps TrustRegion Minimize
  ER NumFacts MonadFacts MinFacts Spec Run RunInv RunFrame HessRun RVec Quasi Prop_Quasi Prop_Quasi2 Prop_Sym
  Prop_Run Prop_Run2 Prop_Update Prop_QuasiRun Prop_StructRun F64 Witness Prop_RunEx Prop_UpdatesRun Prop_Textbook.
Import ListNotations.
Local Open Scope R_scope.
Local Open Scope list_scope.

Section SecantRun.
  Variables (E : env ER) (C : cfg ER) (ndim : nat) (x0 : list ER) (sid : option string) (h0 : hess0_arg ER) (st : opt ER).
  Local Notation n := (length x0).
  Local Notation head := (loop_head E C ndim x0 sid h0 st).

  (** the objective answered [r_old] with gradient [g0] at the point the pass started from and [r] with gradient [g1] at
      the trial point, [w] is the step to the trial point and [B] the model Hessian in use *)
  Definition seen (s : opt ER) (sp : step ER) (r_old r : retval ER) (B : rmat) (w g0 g1 : rvec) : Prop :=
    o_hess s = fm B /\ is_mat n n B /\ vadd (st_s sp) (st_s0 sp) = fv w /\ length w = n
    /\ gradient_of C r_old = Some (fv g0) /\ gradient_of C r = Some (fv g1) /\ length g0 = n /\ length g1 = n.

  (** what holds of the pass from [s] to [s'] if its step is accepted *)
  Definition accepted_pass (s s' : opt ER) (P : rmat -> rvec -> rvec -> Prop) : Prop :=
    exists sp r_old r v g, pass_data E C st s s' sp r_old r v g
      /\ (accepts C s sp v g = true -> forall B w g0 g1, seen s sp r_old r B w g0 g1 -> P B w (rsub g1 g0)).

  Lemma iter_run i k f s s1 f' s' (P : rmat -> rvec -> rvec -> Prop) : o_happ st = Some (HIter i) -> ih_kind i = k ->
    head f s -> check_continue E C s = (Ok true, s1) -> iteration E C f s1 = (Ok f', s') ->
    (forall B D w y, is_mat n n B -> length w = n -> length y = n ->
       o_hess s' = ih_mat (ih_update (holding k B D) (fv w) (fv y)) -> P B w y) ->
    accepted_pass s s' P.
  Proof.
    intros Hh Hk Hl Hc Hi HP.
    destruct (held E C ndim x0 sid h0 st _ f s Hh Hl) as (h1 & K1 & K2 & K3).
    destruct h1 as [i1| | | |]; cbn [kind_of] in K3; try contradiction.
    destruct (C15_update_data E C _ _ _ _ _ _ _ _ _ _ Hl Hc Hi) as (sp & po & ro & r & v & g & U1 & U2 & U3 & U4 & U5 & U6 & U7 & U8).
    exists sp, ro, r, v, g. split; [unfold pass_data; eauto 10|].
    intros Ha B w g0 g1 (S1 & S2 & S3 & S4 & S5 & S6 & S7 & S8). specialize (U8 Ha). rewrite K1 in U8.
    destruct U8 as (h' & q1 & q2 & q3 & q4 & _ & _ & V3 & V4 & V5). cbn [told] in V3. subst h'.
    rewrite S5 in U7. rewrite U6 in S6. injection U7 as U7. injection S6 as S6. rewrite <- U7, S6, S3, h_vsub in V5.
    assert (Ly : length (rsub g1 g0) = n) by (rewrite rsub_length; congruence).
    destruct i1 as [k1 [m D]]. cbn [ih_kind] in K3. cbn [h_mat ih_mat ih_base hb_hess] in K2. subst k1 k.
    rewrite S1 in K2. subst m. apply (HP B D); auto.
  Qed.

  (** Broyden's class *)
  Theorem C40_run : forall i phi enforce f s s1 f' s', o_happ st = Some (HIter i) -> ih_kind i = IBroyden (Fin phi) enforce ->
    head f s -> check_continue E C s = (Ok true, s1) -> iteration E C f s1 = (Ok f', s') ->
    accepted_pass s s' (fun B w y =>
      (0 < rdot y w \/ enforce = false /\ rdot y w <> 0) -> rdot w (rmv B w) <> 0 ->
      exists B', o_hess s' = fm B' /\ is_mat n n B' /\ rmv B' w = y).
  Proof.
    intros i phi enforce f s s1 f' s' Hh Hk Hl Hc Hi. apply (iter_run i _ f s s1 f' s' _ Hh Hk Hl Hc Hi).
    intros B D w y HB Hw Hy HE H1 H2. destruct (C40_secant_equation n phi enforce B D w y HB Hw Hy H1 H2) as (B' & E1 & E2 & E3).
    exists B'. split; [congruence|]. auto.
  Qed.
  (** a pair without curvature is discarded *)
  Theorem C43_run : forall i phi f s s1 f' s', o_happ st = Some (HIter i) -> ih_kind i = IBroyden phi true ->
    head f s -> check_continue E C s = (Ok true, s1) -> iteration E C f s1 = (Ok f', s') ->
    accepted_pass s s' (fun B w y => rdot y w <= 0 -> o_hess s' = o_hess s /\ o_hess s' = fm B).
  Proof.
    intros i phi f s s1 f' s' Hh Hk Hl Hc Hi.
    destruct (iter_run i _ f s s1 f' s' (fun B w y => rdot y w <= 0 -> o_hess s' = fm B) Hh Hk Hl Hc Hi) as (sp & ro & r & v & g & P1 & P2).
    - intros B D w y HB Hw Hy HE Hb. rewrite HE. now apply (C43_exact n).
    - exists sp, ro, r, v, g. split; auto. intros Ha B w g0 g1 HS Hb. specialize (P2 Ha B w g0 g1 HS Hb). split; auto.
      destruct HS as [HS _]. congruence.
  Qed.
  (** SR1: the secant equation, or no change *)
  Theorem C44_run : forall i f s s1 f' s', o_happ st = Some (HIter i) -> ih_kind i = ISR1 ->
    head f s -> check_continue E C s = (Ok true, s1) -> iteration E C f s1 = (Ok f', s') ->
    accepted_pass s s' (fun B w y => let z := rsub y (rmv B w) in
      (Rabs (rdot z w) < sr1_threshold w z -> o_hess s' = fm B)
      /\ (rdot z w <> 0 -> sr1_threshold w z <= Rabs (rdot z w) ->
          exists B', o_hess s' = fm B' /\ is_mat n n B' /\ rmv B' w = y)).
  Proof.
    intros i f s s1 f' s' Hh Hk Hl Hc Hi. apply (iter_run i _ f s s1 f' s' _ Hh Hk Hl Hc Hi).
    intros B D w y HB Hw Hy HE z. split.
    - intros Ht. rewrite HE. now apply (C44_skipped n).
    - intros Hd Ht. destruct (C44_secant n B D w y HB Hw Hy Hd Ht) as (B' & E1 & E2 & E3). exists B'. split; [congruence|]. auto.
  Qed.
  (** Broyden's good method *)
  Theorem C45_run : forall i f s s1 f' s', o_happ st = Some (HIter i) -> ih_kind i = IBG ->
    head f s -> check_continue E C s = (Ok true, s1) -> iteration E C f s1 = (Ok f', s') ->
    accepted_pass s s' (fun B w y => nonzero w ->
      exists B', o_hess s' = fm B' /\ is_mat n n B' /\ rmv B' w = y
        /\ forall q, length q = n -> rdot w q = 0 -> rmv B' q = rmv B q).
  Proof.
    intros i f s s1 f' s' Hh Hk Hl Hc Hi. apply (iter_run i _ f s s1 f' s' _ Hh Hk Hl Hc Hi).
    intros B D w y HB Hw Hy HE Hn. destruct (C45_good_broyden n B D w y HB Hw Hy Hn) as (B' & E1 & E2 & E3 & E4).
    exists B'. split; [congruence|]. auto.
  Qed.
  (** the formulas of BFGS and DFP *)
  Theorem C74_run : forall i enforce f s s1 f' s', o_happ st = Some (HIter i) ->
    ih_kind i = BFGS enforce \/ ih_kind i = DFP enforce ->
    head f s -> check_continue E C s = (Ok true, s1) -> iteration E C f s1 = (Ok f', s') ->
    accepted_pass s s' (fun B w y => regular n enforce B w y ->
      exists B', o_hess s' = fm B' /\ is_mat n n B' /\ symmetric B'
        /\ forall q, length q = n -> (ih_kind i = BFGS enforce -> rmv B' q = bfgs_formula B w y q)
             /\ (ih_kind i = DFP enforce -> rmv B' q = dfp_formula B w y q)).
  Proof.
    intros i enforce f s s1 f' s' Hh Hk Hl Hc Hi.
    apply (iter_run i _ f s s1 f' s' _ Hh eq_refl Hl Hc Hi). intros B D w y HB Hw Hy HE HR.
    destruct Hk as [Hk|Hk]; rewrite Hk in HE |- *.
    - destruct (updated_exists n 0 enforce B D w y HR) as (U & M1 & M2). eexists. split; [rewrite HE; exact U|]. split; auto. split; auto.
      intros q Hq. split; [|intros X; unfold BFGS, DFP in X; injection X as X; exfalso; lra]. intros _. now apply (C74_BFGS n enforce B D).
    - destruct (updated_exists n 1 enforce B D w y HR) as (U & M1 & M2). eexists. split; [rewrite HE; exact U|]. split; auto. split; auto.
      intros q Hq. split; [intros X; unfold BFGS, DFP in X; injection X as X; exfalso; lra|]. intros _. now apply (C74_DFP n enforce B D).
  Qed.
End SecantRun.

(** *** Non-vacuity, in double precision: the first pass on x^4 + 3 x^2 in one variable is accepted and changes the matrix *)
Definition quartic1 (_ : nat) (x : list F64) : retval F64 :=
  let t := nth 0 x n0 in let q := (t * t)%num in
  RTuple [PScal (q * q + fz 3 * q)%num; PVec [(fz 4 * q * t + fz 6 * t)%num]].
Definition iter1 (k : ikind F64) : cfg F64 * opt F64 := built (fzs [-10]%Z) (fzs [10]%Z) [] (Some (HIter (mkIhapp k hb_empty))) false.
Definition hess_changed (s s' : opt F64) : bool :=
  negb (Nat.eqb (o_x s') (o_x s)) && negb (cell (o_hess s') 0 0 =? cell (o_hess s) 0 0)%num
  && (cell (o_hess s') 0 0 =? cell (o_hess s') 0 0)%num.
Example secant_run_ex : forallb (fun k => one_pass (world quartic1) (fst (iter1 k)) (fzs [2]%Z) (snd (iter1 k)) hess_changed)
  [BFGS true; DFP true; IBroyden (nfrac 1 2) false; ISR1; IBG] = true.
Proof. vm_compute. reflexivity. Qed.
