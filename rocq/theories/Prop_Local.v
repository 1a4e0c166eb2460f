(** C62: a run depends on the objective only through the answers it received: an objective that gives the same answers to the calls
    made (a cached, a logged, a restricted objective) is optimized in exactly the same way, in double precision as in exact arithmetic.
    In exact arithmetic the calls are inside the box, so what the objective does outside is irrelevant. *)
From Coq Require Import String ZArith List Bool Reals Lra Lia.
From Verif Require Import Num Constants Subproblem HessApprox Steps TrustRegion Minimize
  ER NumFacts MonadFacts MinFacts Spec Run RunInv RunFrame F64 Witness Prop_Observers Prop_BoxRun Prop_BoxRun2 Prop_RunEx WitnessER.
Import ListNotations.
Local Open Scope list_scope.
Local Open Scope num_scope.

Section Local.
  Context {T : Type} {N : Num T}.
  Local Notation vec := (list T).
  Local Notation opt := (opt T).
  Local Notation M := (M T).

  (** ** Vocabulary of the statement *)

  (** the same surroundings with another objective *)
  Definition with_objective (obj : nat -> vec -> retval T) (E : env T) : env T :=
    mkEnv obj (e_clock E) (e_uuid E) (e_la E) (e_minmax E) (e_cond E).

  (** [obj], called for the (k+i)-th time with the argument of the i-th entry of the log, gives the logged answer *)
  Definition answers (obj : nat -> vec -> retval T) (k : nat) (log : list (vec * retval T)) : Prop :=
    forall i x r, nth_error log i = Some (x, r) -> obj (k + i)%nat x = r.

  (** ** Proof *)
  Section Pieces.
    Variable E : env T.
    Variable obj : nat -> vec -> retval T.
    Variable C : cfg T.
    Local Notation O := (c_opts C).
    Local Notation E' := (with_objective obj E).

    Definition same_if {A} (m m' : M A) : Prop := forall s, exists log,
      o_evals (snd (m s)) = o_evals s ++ log /\ answers (e_obj E) (length (o_evals s)) log
      /\ (answers obj (length (o_evals s)) log -> m' s = m s).
    Definition quiet {A} (m : M A) : Prop := forall s, o_evals (snd (m s)) = o_evals s.

    Lemma answers_app o k l1 l2 : answers o k (l1 ++ l2) <-> answers o k l1 /\ answers o (k + length l1) l2.
    Proof.
      unfold answers. split.
      - intros HA. split; intros i x r Hi.
        + apply HA. rewrite nth_error_app1; [exact Hi|]. apply nth_error_Some. congruence.
        + rewrite <- Nat.add_assoc. apply HA. rewrite nth_error_app2 by lia. now replace (length l1 + i - length l1)%nat with i by lia.
      - intros [H1 H2] i x r Hi. destruct (Nat.ltb_spec i (length l1)) as [Hl|Hl].
        + rewrite nth_error_app1 in Hi by exact Hl. now apply H1.
        + rewrite nth_error_app2 in Hi by exact Hl. apply H2 in Hi. rewrite <- Hi. f_equal. lia.
    Qed.
    Lemma quiet_same {A} (m : M A) : quiet m -> same_if m m.
    Proof. intros H s. exists []. rewrite app_nil_r. split; [auto|]. split; [intros [|i] x r Hi; discriminate|auto]. Qed.
    Lemma same_bind {A B} (m m' : M A) (f f' : A -> M B) :
      same_if m m' -> (forall a, same_if (f a) (f' a)) -> same_if (bind m f) (bind m' f').
    Proof.
      intros Hm Hf s. destruct (Hm s) as (l1 & E1 & A1 & K1). unfold bind.
      destruct (m s) as [[a|e] s1]; cbn [snd] in E1.
      - destruct (Hf a s1) as (l2 & E2 & A2 & K2). rewrite E1, app_length in A2, K2.
        exists (l1 ++ l2). rewrite E2, E1, app_assoc. split; [reflexivity|]. split; [now apply answers_app|].
        intros HA. apply answers_app in HA as [H1 H2]. rewrite K1 by exact H1. now apply K2.
      - exists l1. split; [exact E1|]. split; [exact A1|]. intros HA. now rewrite K1.
    Qed.
    Lemma quiet_bind {A B} (m : M A) (f : A -> M B) : quiet m -> (forall a, quiet (f a)) -> quiet (bind m f).
    Proof.
      intros Hm Hf s. unfold bind. specialize (Hm s). destruct (m s) as [[a|e] s1]; [|exact Hm]. rewrite (Hf a s1). exact Hm.
    Qed.
    Lemma quiet_ret {A} (a : A) : quiet (ret a).
    Proof. intros s. reflexivity. Qed.
    Lemma quiet_raise {A} e : quiet (raise (A := A) e).
    Proof. intros s. reflexivity. Qed.
    Lemma quiet_lift {A} (r : res A) : quiet (lift r).
    Proof. intros s. rewrite lift_run. reflexivity. Qed.
    Lemma quiet_get : quiet (get (T := T)).
    Proof. intros s. reflexivity. Qed.
    Lemma quiet_modify f : (forall s, o_evals (f s) = o_evals s) -> quiet (modify (T := T) f).
    Proof. intros H s. apply H. Qed.
    Lemma quiet_when b (m : M unit) : quiet m -> quiet (when b m).
    Proof. intros H. destruct b; [exact H|apply quiet_ret]. Qed.
    Lemma quiet_finite f g h : quiet (check_finite (T := T) f g h).
    Proof.
      unfold check_finite. destruct (negb _); [|destruct (negb _); [|destruct h; [destruct (mfinite _)|]]];
        try apply quiet_ret; (apply quiet_bind; [apply quiet_modify; reflexivity|intros; apply quiet_raise]).
    Qed.
    Lemma quiet_in_bounds x : quiet (check_in_bounds C x).
    Proof. unfold check_in_bounds. destruct in_bounds; [apply quiet_ret|]. apply quiet_bind; [apply quiet_modify; reflexivity|intros; apply quiet_raise]. Qed.
    Lemma quiet_nondeg : quiet (make_non_degenerate C).
    Proof. intros s. reflexivity. Qed.
    Lemma quiet_minimum f : quiet (track_minimum (T := T) f).
    Proof. apply quiet_modify. intros s. destruct (_ && _); reflexivity. Qed.
    Lemma quiet_radius f sp dv : quiet (update_tr_radius C f sp dv).
    Proof.
      unfold update_tr_radius. apply quiet_bind; [apply quiet_get|intros s0]. cbv zeta.
      apply quiet_bind; [apply quiet_modify; reflexivity|intros _].
      destruct (negb _).
      { apply quiet_bind; [apply quiet_modify; reflexivity|intros _; apply quiet_ret]. }
      apply quiet_bind; [apply quiet_modify; reflexivity|intros _].
      apply quiet_bind; [|intros _; apply quiet_ret].
      repeat match goal with |- quiet (if ?b then _ else _) => destruct b end;
        try (apply quiet_modify; reflexivity); apply quiet_ret.
    Qed.
    Lemma quiet_convergence sp f : quiet (check_convergence C sp f).
    Proof.
      apply quiet_modify. intros s. cbv zeta.
      repeat match goal with |- o_evals (if ?b then _ else _) = _ => destruct b end; reflexivity.
    Qed.
    Lemma quiet_update sp fn fo : quiet (update C sp fn fo).
    Proof.
      unfold update. apply quiet_bind; [apply quiet_get|intros s0]. apply quiet_bind.
      - destruct (o_happ s0) as [h|].
        + apply quiet_bind; [apply quiet_lift|intros h']. apply quiet_modify. reflexivity.
        + destruct (fo_hess fn); [apply quiet_modify; reflexivity|apply quiet_raise].
      - intros _. apply quiet_bind; [apply quiet_in_bounds|intros _]. apply quiet_bind; [apply quiet_modify; reflexivity|intros _].
        apply quiet_nondeg.
    Qed.
    Lemma quiet_history a sp f : quiet (track_history E a sp f).
    Proof.
      unfold track_history. cbv zeta. apply quiet_bind; [apply quiet_get|intros s0].
      repeat (apply quiet_bind; [apply quiet_lift|intros ?]). apply quiet_modify. reflexivity.
    Qed.
    Lemma quiet_init n h0 pf : quiet (init_hess (T := T) n h0 pf).
    Proof.
      unfold init_hess. apply quiet_bind; [apply quiet_get|intros s0]. destruct (o_happ s0) as [h|].
      - apply quiet_bind; [apply quiet_lift|intros arg]. apply quiet_bind; [apply quiet_lift|intros h'].
        apply quiet_modify; reflexivity.
      - destruct (pf_hess pf); try apply quiet_raise. apply quiet_modify; reflexivity.
    Qed.
    Lemma quiet_continue : quiet (check_continue E C).
    Proof.
      intros s. rewrite check_continue_cases. repeat match goal with |- context [if ?b then _ else _] => destruct b end; reflexivity.
    Qed.
    Lemma quiet_reset sid : quiet (reset E C sid).
    Proof.
      unfold reset. apply quiet_bind; [intros s; reflexivity|intros t].
      apply quiet_bind; [apply quiet_modify; reflexivity|intros _].
      apply quiet_bind; [|intros _; apply quiet_modify; reflexivity].
      destruct sid as [i|]; [destruct (String.eqb i "")|]; apply quiet_modify; reflexivity.
    Qed.
    Lemma quiet_write : quiet (write_history C).
    Proof.
      unfold write_history. destruct (op_history _); [|apply quiet_ret]. apply quiet_bind; [apply quiet_get|intros s0].
      destruct (existsb _ _); [apply quiet_raise|apply quiet_modify; reflexivity].
    Qed.
    Lemma same_evaluate x : same_if (evaluate E C x) (evaluate E' C x).
    Proof.
      intros s. exists [(deref s x, e_obj E (length (o_evals s)) (deref s x))]. split; [reflexivity|]. split.
      { intros [|[|i]] y r Hi; cbn in Hi; try discriminate. injection Hi as <- <-. now rewrite Nat.add_0_r. }
      intros HA. specialize (HA 0%nat _ _ eq_refl). rewrite Nat.add_0_r in HA. unfold evaluate. cbv zeta.
      change (e_obj E') with obj. rewrite HA. reflexivity.
    Qed.

    Lemma same_iteration f : same_if (iteration E C f) (iteration E' C f).
    Proof.
      unfold iteration. cbv zeta.
      apply same_bind; [apply quiet_same, quiet_modify; reflexivity|intros _].
      apply same_bind; [apply quiet_same, quiet_modify; reflexivity|intros _].
      apply same_bind; [apply quiet_same, quiet_get|intros s0].
      apply same_bind; [apply quiet_same, quiet_bind; [apply quiet_get|intros; apply quiet_finite]|intros _].
      apply same_bind; [apply quiet_same, quiet_lift|intros sp].
      apply same_bind; [apply quiet_same; intros s; reflexivity|intros xn].
      apply same_bind; [apply same_evaluate|intros pf].
      apply same_bind; [apply quiet_same, quiet_lift|intros fn].
      apply same_bind; [apply quiet_same, quiet_when, quiet_finite|intros _].
      apply same_bind; [apply quiet_same, quiet_radius|intros a].
      apply same_bind; [apply quiet_same, quiet_convergence|intros _].
      apply same_bind; [apply quiet_same, quiet_minimum|intros _].
      apply same_bind; [apply quiet_same, quiet_when, quiet_update|intros _].
      apply same_bind; [apply quiet_same, quiet_when, quiet_history|intros _].
      apply quiet_same, quiet_ret.
    Qed.
    Lemma same_loop n : forall f, same_if (loop E C n f) (loop E' C n f).
    Proof.
      induction n as [|n IH]; intros f; cbn [loop]; [apply quiet_same, quiet_raise|].
      apply same_bind; [apply quiet_same, quiet_continue|intros []].
      - apply same_bind; [apply same_iteration|apply IH].
      - apply quiet_same, quiet_ret.
    Qed.
    Lemma same_prepare ndim x0 sid h0 : same_if (prepare E C ndim x0 sid h0) (prepare E' C ndim x0 sid h0).
    Proof.
      unfold prepare.
      apply same_bind; [apply quiet_same, quiet_reset|intros _].
      apply same_bind; [apply quiet_same; intros s; reflexivity|intros x].
      apply same_bind; [apply quiet_same, quiet_modify; reflexivity|intros _].
      destruct (Nat.ltb 1 ndim); [apply quiet_same, quiet_raise|]. destruct (_ || _)%bool; [apply quiet_same, quiet_raise|].
      apply same_bind; [apply quiet_same, quiet_nondeg|intros _].
      apply same_bind; [apply quiet_same, quiet_get|intros s0].
      apply same_bind; [apply quiet_same, quiet_in_bounds|intros _].
      apply same_bind; [apply same_evaluate|intros pf].
      apply quiet_same.
      apply quiet_bind; [apply quiet_init|intros _].
      apply quiet_bind; [apply quiet_lift|intros _].
      apply quiet_bind; [apply quiet_lift|intros f].
      apply quiet_bind; [apply quiet_modify; reflexivity|intros _].
      apply quiet_bind; [apply quiet_minimum|intros _].
      apply quiet_bind; [apply quiet_finite|intros _].
      apply quiet_bind; [apply quiet_modify; reflexivity|intros _].
      apply quiet_ret.
    Qed.
    Lemma same_minimize fuel ndim x0 sid h0 : same_if (minimize E C fuel ndim x0 sid h0) (minimize E' C fuel ndim x0 sid h0).
    Proof.
      unfold minimize.
      apply same_bind; [apply same_prepare|intros f].
      apply same_bind; [apply same_loop|intros _].
      apply quiet_same. apply quiet_bind; [apply quiet_write|intros _]. apply quiet_bind; [apply quiet_get|intros s0]. apply quiet_ret.
    Qed.
  End Pieces.

  (** The run with another objective that gives the answers of the log is the same run: same result or exception, same final state *)
  Theorem C62_only_answers_matter : forall (E : env T) (C : cfg T) fuel ndim x0 sid h0 st r st' log obj,
    minimize E C fuel ndim x0 sid h0 st = (r, st') ->
    o_evals st' = o_evals st ++ log ->
    answers obj (length (o_evals st)) log ->
    minimize (with_objective obj E) C fuel ndim x0 sid h0 st = (r, st').
  Proof.
    intros E C fuel ndim x0 sid h0 st r st' log obj Hm Hl HA.
    destruct (same_minimize E obj C fuel ndim x0 sid h0 st) as (log' & E1 & _ & K). rewrite Hm in E1, K. cbn [snd] in E1.
    rewrite E1 in Hl. apply app_inv_head in Hl. subst log'. auto.
  Qed.
End Local.

(** In exact arithmetic: two objectives that agree inside the box (and on points with NaN coordinates) are optimized in the same way *)
Theorem C62_outside_the_box_irrelevant : forall (E : env ER) (C : cfg ER) tm fuel ndim x0 sid h0 st obj,
  op_theta_max (c_opts C) = Fin tm -> (0 <= tm <= 1)%R ->
  (forall k x, nan_or_in_box (c_lb C) (c_ub C) x -> obj k x = e_obj E k x) ->
  minimize (with_objective obj E) C fuel ndim x0 sid h0 st = minimize E C fuel ndim x0 sid h0 st.
Proof.
  intros E C tm fuel ndim x0 sid h0 st obj Htm Htm01 Hag.
  destruct (minimize E C fuel ndim x0 sid h0 st) as [r st'] eqn:Hm.
  destruct (C11_all_evaluations E C ndim x0 sid h0 st tm Htm Htm01 fuel r st' Hm) as (log & El & Hb).
  destruct (same_minimize E (e_obj E) C fuel ndim x0 sid h0 st) as (log2 & E2 & A2 & _).
  rewrite Hm in E2. cbn [snd] in E2. rewrite El in E2. apply app_inv_head in E2. subst log2.
  apply (C62_only_answers_matter E C fuel ndim x0 sid h0 st r st' log obj Hm El).
  intros i x a Hi. rewrite Forall_forall in Hb. pose proof (Hb _ (nth_error_In _ _ Hi)) as Hx. cbn [fst] in Hx.
  rewrite Hag by exact Hx. now apply A2.
Qed.

(** Non-vacuity: the run of [run_converges] makes 5 calls; an objective that raises from the 6th call on is optimized in the same way *)
Definition first_calls (m : nat) (obj : nat -> list F64 -> retval F64) (k : nat) (x : list F64) : retval F64 :=
  if Nat.ltb k m then obj k x else RRaise.
Lemma first_calls_run obj p fuel x0 r s m : run_of obj p fuel x0 = (r, s) -> o_evals (snd p) = [] -> length (o_evals s) = m ->
  o_evals s = o_evals (snd p) ++ o_evals s
  /\ answers (first_calls m obj) (length (o_evals (snd p))) (o_evals s)
  /\ run_of (first_calls m obj) p fuel x0 = (r, s).
Proof.
  unfold run_of. intros Hr L0 K. destruct p as [C st]. cbn [fst snd] in *.
  destruct (same_minimize (world obj) obj C fuel 1 x0 None H0None st) as (log & E1 & A1 & _).
  rewrite Hr in E1. cbn [snd] in E1. rewrite L0 in E1. cbn [app] in E1. subst log. rewrite L0. split; [reflexivity|].
  assert (HA : answers (first_calls m obj) (length (o_evals st)) (o_evals s)).
  { intros i y a Hi. pose proof (A1 i y a Hi) as H1. rewrite L0 in *. cbn [length Nat.add] in *.
    assert (Hi5 : (i < m)%nat) by (rewrite <- K; apply nth_error_Some; congruence).
    unfold first_calls. destruct (Nat.ltb_spec i m); [exact H1|lia]. }
  rewrite L0 in HA. split; [exact HA|].
  apply (C62_only_answers_matter (world obj) C fuel 1 x0 None H0None st r s (o_evals s) (first_calls m obj) Hr); [now rewrite L0|now rewrite L0].
Qed.
Example C62_ex : exists fv x g h s,
  run_of sumsq box2 1001 (fzs [3; 4]%Z) = (Ok (fv, x, g, h), s)
  /\ answers (first_calls 5 sumsq) (length (o_evals (snd box2))) (o_evals s)
  /\ run_of (first_calls 5 sumsq) box2 1001 (fzs [3; 4]%Z) = (Ok (fv, x, g, h), s).
Proof.
  destruct run_converges as (fv & x & g & h & s & Hr & K). exists fv, x, g, h, s. split; [exact Hr|].
  rewrite !andb_true_iff in K. destruct K as [_ K]. apply Nat.eqb_eq in K.
  assert (L0 : o_evals (snd box2) = []) by (vm_compute; reflexivity).
  destruct (first_calls_run _ _ _ _ _ _ 5 Hr L0 K) as (_ & K2 & K3). split; [exact K2|exact K3].
Qed.
(** the exact scenario of [C11_ex] (one variable, bounded above by 10) with an objective that raises above the bound *)
Definition er_cut (k : nat) (x : list ER) : retval ER :=
  match x with [Fin a] => if Rltb 10 a then RRaise else e_obj er_world k x | _ => e_obj er_world k x end.
Example C62_box_ex : (exists k x, er_cut k x <> e_obj er_world k x)
  /\ (forall k x, nan_or_in_box (c_lb er_cfg) (c_ub er_cfg) x -> er_cut k x = e_obj er_world k x)
  /\ (forall fuel, minimize (with_objective er_cut er_world) er_cfg fuel 1 [Fin 0%R] None H0None er_state
        = minimize er_world er_cfg fuel 1 [Fin 0%R] None H0None er_state).
Proof.
  assert (HA : forall k x, nan_or_in_box (c_lb er_cfg) (c_ub er_cfg) x -> er_cut k x = e_obj er_world k x).
  { intros k x (_ & L2 & H). unfold er_cut. destruct x as [|[a| | |] [|? ?]]; try reflexivity.
    cbn in L2, H. destruct (H 0%nat ltac:(lia)) as [H0|[_ H0]]; [discriminate|]. cbn in H0. unfold Rltb.
    destruct (Rlt_dec 10 a) as [K|K]; [|reflexivity]. revert H0. unfold Rleb. destruct (Rle_dec a 10); [lra|discriminate]. }
  split; [|split; [exact HA|]].
  - exists 0%nat, [Fin 11%R]. unfold er_cut, Rltb. destruct (Rlt_dec 10 11); [|lra]. cbn. discriminate.
  - intros fuel. apply C62_outside_the_box_irrelevant with (tm := (/ 2)%R); [reflexivity|lra|exact HA].
Qed.
