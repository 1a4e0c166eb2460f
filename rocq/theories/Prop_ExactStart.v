(** C73: a quasi-Newton scheme that starts from the exact Hessian of a quadratic keeps it, and the run is the run with exact Hessians *)
From Coq Require Import String ZArith List Bool Lia.
From Verif Require Import Num ER NumFacts Constants Subproblem HessApprox Steps TrustRegion Minimize MonadFacts MinFacts Spec Run RunInv RunFrame Prop_Run.
Import ListNotations.
Local Open Scope num_scope.
Local Notation length := List.length.

Section Sim.
  Context {T : Type} {N : Num T}.
  Local Notation vec := (list T).
  Local Notation mat := (list (list T)).
  Local Notation opt := (opt T).
  Local Notation fout := (fout T).
  Local Notation M := (M T).

  (** the same objective, returning in addition the matrix [A] as its Hessian; everything else outside fides is the same *)
  Definition with_hessian (n : nat) (A : mat) (E : env T) : env T :=
    mkEnv (fun k p => match e_obj E k p with RTuple l => RTuple (l ++ [PMat n A]) | r => r end)
          (e_clock E) (e_uuid E) (e_la E) (e_minmax E) (e_cond E).
  (** the optimizer that asks the objective for value, gradient and Hessian *)
  Definition three_outputs (C : cfg T) : cfg T := mkCfg (c_opts C) (c_lb C) (c_ub C) 3 (c_resfun C).

  Variables (E : env T) (C : cfg T) (n : nat) (A : mat).
  Hypothesis H2 : c_nargout C = 2%nat.
  Hypothesis Hr : c_resfun C = false.
  Hypothesis HA : rect n n A = true.
  Hypothesis FA : mfinite A = true.
  Hypothesis Hno : op_history (c_opts C) = None.
  Notation E3 := (with_hessian n A E).
  Notation C3 := (three_outputs C).

  (** the state of the second run: no approximation, Hessian [A], its own answers *)
  Definition bare (B : mat) (ev : list (vec * retval T)) (s : opt) : opt := set_o_hess B (set_o_happ None (set_o_evals ev s)).
  Definition iterative (s : opt) : Prop := exists i, o_happ s = Some (HIter i).
  Inductive rel (B : mat) (s : opt) : opt -> Prop := rel_i ev : map fst ev = map fst (o_evals s) -> iterative s -> rel B s (bare B ev s).
  Definition sim (B : mat) {X Y} (R : X -> Y -> Prop) (p : res X * opt) (p' : res Y * opt) : Prop :=
    match fst p, fst p' with
    | Ok a, Ok b => rel B (snd p) (snd p') /\ R a b
    | Err e, Err e' => e = e' /\ exists B', rel B' (snd p) (snd p')
    | _, _ => False
    end.

  Lemma sim_bind {X Y X' Y'} B1 B2 (R : X -> Y -> Prop) (Q : X' -> Y' -> Prop) (m : M X) (m' : M Y) f f' s s' :
    sim B1 R (m s) (m' s') ->
    (forall a b t t', m s = (Ok a, t) -> R a b -> rel B1 t t' -> sim B2 Q (f a t) (f' b t')) ->
    sim B2 Q (bind m f s) (bind m' f' s').
  Proof.
    intros H K. unfold bind, sim in H |- *. destruct (m s) as [[a|e] t], (m' s') as [[b|e'] t']; cbn [fst snd] in *; try contradiction.
    - destruct H as [H HR]. exact (K a b t t' eq_refl HR H).
    - exact H.
  Qed.

  (** operations that look at neither the log nor the Hessian *)
  Definition blind {X} (m : M X) : Prop := forall s, (o_evals (snd (m s)) = o_evals s /\ o_happ (snd (m s)) = o_happ s) /\
    forall B ev, m (bare B ev s) = (fst (m s), bare B ev (snd (m s))).
  Lemma blind_sim {X} B (m : M X) s s' : blind m -> rel B s s' -> sim B eq (m s) (m s').
  Proof.
    intros H K. destruct K as [ev He Hi]. destruct (H s) as [[H1 H1'] H3]. rewrite H3.
    assert (K : rel B (snd (m s)) (bare B ev (snd (m s)))).
    { apply rel_i; [now rewrite H1|]. unfold iterative. rewrite H1'. exact Hi. }
    unfold sim. cbn [fst snd]. destruct (fst (m s)); [split; [exact K|reflexivity]|split; [reflexivity|exists B; exact K]].
  Qed.
  Lemma blind_ret {X} (a : X) : blind (ret a).
  Proof. intros s. repeat split; reflexivity. Qed.
  Lemma blind_raise {X} e : blind (raise (A := X) e).
  Proof. intros s. repeat split; reflexivity. Qed.
  Lemma blind_lift {X} (r : res X) : blind (lift r).
  Proof. intros s. unfold lift. destruct r; repeat split; reflexivity. Qed.
  Lemma blind_bind {X Y} (m : M X) (f : X -> M Y) : blind m -> (forall a, blind (f a)) -> blind (bind m f).
  Proof.
    intros H K s. destruct (H s) as [[H1 H1'] H3]. unfold bind. split.
    - destruct (m s) as [[a|e] t]; cbn [fst snd] in *; [|auto]. destruct (K a t) as [[K1 K2] _]. split; congruence.
    - intros B ev. rewrite H3. destruct (m s) as [[a|e] t]; cbn [fst snd] in *; [|reflexivity]. apply (K a t).
  Qed.
  Lemma blind_get {X} (f : opt -> M X) : (forall B ev s, f (bare B ev s) = f s) -> (forall s, blind (f s)) -> blind (bind get f).
  Proof.
    intros H K s. unfold bind, get. split; [apply (K s)|]. intros B ev. rewrite H. apply (K s).
  Qed.
  Lemma blind_modify f : (forall s, o_evals (f s) = o_evals s /\ o_happ (f s) = o_happ s) -> (forall B ev s, f (bare B ev s) = bare B ev (f s)) -> blind (modify (T := T) f).
  Proof. intros H K s. unfold modify. cbn [fst snd]. split; [apply H|]. intros B ev. now rewrite K. Qed.
  Lemma blind_when b (m : M unit) : blind m -> blind (when b m).
  Proof. unfold when. destruct b; [auto|intros _; apply blind_ret]. Qed.
  Ltac bmod := apply blind_modify; [intros ?; split; reflexivity|intros ? ? ?; reflexivity].

  Lemma blind_finite f g h : blind (check_finite (T := T) f g h).
  Proof.
    unfold check_finite. destruct (negb _); [|destruct (negb _); [|destruct h as [h|]; [destruct (mfinite h)|]]];
      try apply blind_ret; (apply blind_bind; [bmod|intros; apply blind_raise]).
  Qed.
  Lemma blind_in_bounds x : blind (check_in_bounds C x).
  Proof. unfold check_in_bounds. destruct in_bounds; [apply blind_ret|]. apply blind_bind; [bmod|intros; apply blind_raise]. Qed.
  Lemma blind_nondeg : blind (make_non_degenerate C).
  Proof. intros s. split; [split; reflexivity|]. intros B ev. reflexivity. Qed.
  Lemma blind_minimum f : blind (track_minimum (T := T) f).
  Proof.
    apply blind_modify.
    - intros s. destruct (_ && _); split; reflexivity.
    - intros B ev s. change (o_fval_min (bare B ev s)) with (o_fval_min s). destruct (_ && _); reflexivity.
  Qed.
  Lemma blind_radius f sp dv : blind (update_tr_radius C f sp dv).
  Proof.
    unfold update_tr_radius. apply blind_get; [reflexivity|intros s0]. cbv zeta.
    apply blind_bind; [bmod|intros _].
    destruct (negb _).
    { apply blind_bind; [bmod|intros _; apply blind_ret]. }
    apply blind_bind; [bmod|intros _].
    apply blind_bind; [|intros _; apply blind_ret].
    repeat match goal with |- blind (if ?b then _ else _) => destruct b end; try bmod; apply blind_ret.
  Qed.
  Lemma blind_convergence sp f : blind (check_convergence C sp f).
  Proof.
    intros s. split; [rewrite check_convergence_run; split; reflexivity|]. intros B ev. rewrite !check_convergence_run. reflexivity.
  Qed.
  Lemma blind_continue : blind (check_continue E C).
  Proof.
    intros s. split.
    - rewrite check_continue_run. repeat match goal with |- context [if ?b then _ else _] => destruct b end; cbv zeta;
        repeat match goal with |- context [if ?b then _ else _] => destruct b end; split; reflexivity.
    - intros B ev. rewrite !check_continue_run.
      change (o_conv (bare B ev s)) with (o_conv s). change (o_iter (bare B ev s)) with (o_iter s). change (o_delta (bare B ev s)) with (o_delta s).
      change (out_of_time E C (bare B ev s)) with (out_of_time E C s). cbv zeta.
      repeat match goal with |- context [if ?b then _ else _] => destruct b end; reflexivity.
  Qed.
  Lemma blind_reset sid : blind (reset E C sid).
  Proof.
    unfold reset. apply blind_bind; [intros s; split; [split; reflexivity|intros B ev; reflexivity]|intros t].
    apply blind_bind; [bmod|intros _].
    apply blind_bind; [|intros _; bmod].
    destruct sid as [i|]; [destruct (String.eqb i "")|]; bmod.
  Qed.

  Definition frel (f f' : fout) : Prop := fo_fval f = fo_fval f' /\ fo_grad f = fo_grad f' /\ fo_x f = fo_x f' /\ fo_hess f = None /\ fo_hess f' = Some A.
  Definition pfrel (p p' : pyfun T) : Prop := exists f g, p = mkPyfun f g PNone [] [] /\ p' = mkPyfun f g (PMat n A) [] [].

  Lemma sim_evaluate B x s s' : rel B s s' -> sim B pfrel (evaluate E C x s) (evaluate E3 C3 x s').
  Proof using H2 Hr.
    intros [ev He Hi]. unfold evaluate. cbv zeta. cbn [fst snd]. rewrite H2, Hr. cbn [three_outputs c_nargout c_resfun]. rewrite Hr.
    change (deref (bare B ev s) x) with (deref s x). change (o_evals (bare B ev s)) with ev.
    assert (Hl : length ev = length (o_evals s)) by (rewrite <- (map_length fst ev), He, map_length; reflexivity).
    rewrite Hl. cbn [with_hessian e_obj]. set (v := deref s x). set (r := e_obj E (length (o_evals s)) v).
    assert (W : forall r', rel B (set_o_evals (o_evals s ++ [(v, r)]) s) (set_o_evals (ev ++ [(v, r')]) (bare B ev s))).
    { intros r'.
      assert (Hb : map fst (ev ++ [(v, r')]) = map fst (o_evals (set_o_evals (o_evals s ++ [(v, r)]) s))).
      { change (o_evals (set_o_evals (o_evals s ++ [(v, r)]) s)) with (o_evals s ++ [(v, r)]). rewrite !map_app, He. reflexivity. }
      exact (rel_i B (set_o_evals (o_evals s ++ [(v, r)]) s) (ev ++ [(v, r')]) Hb Hi). }
    unfold sim. cbn [fst snd]. unfold fun_evaluate. destruct r as [l| |]; [|split; [reflexivity|exists B; apply W]|split; [reflexivity|exists B; apply W]]. rewrite app_length. cbn [length].
      destruct l as [|a [|b [|c l]]]; cbn [length Nat.eqb Nat.add negb app]; try (split; [reflexivity|exists B; apply W]).
    + split; [apply W|]. exists a, b. split; reflexivity.
    + destruct (length l + 1)%nat eqn:El; [lia|]. split; [reflexivity|exists B; apply W].
  Qed.
  Lemma sim_typed m x p p' : length A = m -> pfrel p p' ->
    match typed_fout m p x, typed_fout m p' x with Ok a, Ok b => frel a b | Err e, Err e' => e = e' | _, _ => False end.
  Proof using HA.
    intros Hm (f & g & -> & ->). unfold typed_fout. cbn [pf_fval pf_grad pf_hess pf_res pf_sres].
    assert (En : m = n). { unfold rect in HA. apply andb_true_iff in HA as [HA1 _]. apply Nat.eqb_eq in HA1. congruence. }
    subst m. destruct f; try reflexivity. destruct g; try reflexivity. destruct (Nat.eqb _ _); [|reflexivity]. rewrite En, HA. repeat split.
  Qed.
  Lemma sim_checkdims m p p' : length A = m -> pfrel p p' -> checkdims m p' = checkdims m p.
  Proof using HA.
    intros Hm (f & g & -> & ->). unfold checkdims. cbn [pf_fval pf_grad pf_hess].
    pose proof HA as HB. unfold rect in HB. apply andb_true_iff in HB as [HB _]. apply Nat.eqb_eq in HB.
    destruct f; try reflexivity. destruct g; try reflexivity. destruct (negb _); [reflexivity|]. rewrite HB, Nat.eqb_refl. cbn [negb].
    replace m with n by congruence. rewrite Nat.eqb_refl. reflexivity.
  Qed.
  Lemma finite_frel f f' : frel f f' -> check_finite_fo (T := T) f' = check_finite_fo f.
  Proof using FA. intros (F1 & F2 & F3 & F4 & F5). unfold check_finite_fo, check_finite. rewrite F1, F2, F4, F5, FA. reflexivity. Qed.
  Lemma radius_frel f f' sp dv : frel f f' -> update_tr_radius C f' sp dv = update_tr_radius C f sp dv.
  Proof using. intros (F1 & F2 & _). unfold update_tr_radius. rewrite F1, F2. reflexivity. Qed.
  Lemma convergence_frel f f' sp : frel f f' -> check_convergence C sp f' = check_convergence C sp f.
  Proof using. intros (F1 & F2 & _). unfold check_convergence. rewrite F1, F2. reflexivity. Qed.
  Lemma minimum_frel f f' : frel f f' -> track_minimum (T := T) f' = track_minimum f.
  Proof using. intros (F1 & F2 & F3 & _). unfold track_minimum. rewrite F1, F2, F3. reflexivity. Qed.

  Lemma sim_update sp fn fn' fo fo' s s' i : o_happ s = Some (HIter i) -> frel fn fn' -> rel A s s' ->
    sim A eq (update C sp fn fo s) (update C3 sp fn' fo' s').
  Proof using.
    intros Hh Hf Hs. destruct Hf as (F1 & F2 & F3 & F4 & F5). unfold update.
    assert (Hd : forall t t', rel A t t' -> o_heap t' = o_heap t) by (intros t t' []; reflexivity).
    assert (Hn : o_happ s' = None) by (destruct Hs; reflexivity).
    rewrite (bind_ok get _ s s s eq_refl), (bind_ok get _ s' s' s' eq_refl), Hh, Hn, F5.
    set (i' := ih_update i (vadd (st_s sp) (st_s0 sp)) (vsub (fo_grad fn) (o_grad s))).
    assert (K : rel A (set_o_hess (h_mat (HIter i')) (set_o_happ (Some (HIter i')) s)) (set_o_hess A s')).
    { destruct Hs as [ev He Hi].
      assert (Hi' : iterative (set_o_hess (h_mat (HIter i')) (set_o_happ (Some (HIter i')) s))) by (exists i'; reflexivity).
      exact (rel_i A (set_o_hess (h_mat (HIter i')) (set_o_happ (Some (HIter i')) s)) ev He Hi'). }
    apply (sim_bind A A eq).
    { unfold bind, lift, happ_update, modify. split; [exact K|reflexivity]. }
    intros [] [] t t' _ _ Ht. unfold deref. rewrite (Hd _ _ Hs), F3.
    apply (sim_bind A A eq); [apply blind_sim; [apply blind_in_bounds|exact Ht]|]. intros _ _ t1 t1' _ _ Ht1.
    rewrite F1, F2. apply (sim_bind A A eq); [apply blind_sim; [bmod|exact Ht1]|]. intros _ _ t2 t2' _ _ Ht2.
    apply blind_sim; [apply blind_nondeg|exact Ht2].
  Qed.

  Lemma sim_alloc v s s' : rel A s s' -> sim A eq (alloc v s) (alloc v s').
  Proof using. intros H. apply blind_sim; [|exact H]. intros t. split; [split; reflexivity|reflexivity]. Qed.

  Lemma sim_iteration f f' s s' : o_hess s = A -> length (deref s (o_x s)) = length A -> frel f f' -> rel A s s' ->
    sim A frel (iteration E C f s) (iteration E3 C3 f' s').
  Proof using H2 Hr HA FA Hno.
    intros Eh El Hf Hs. unfold iteration. cbv zeta.
    rewrite (bind_ok (modify (fun st => set_o_iter (o_iter st + 1)%Z st)) _ s tt (set_o_iter (o_iter s + 1)%Z s) eq_refl).
    rewrite (bind_ok (modify (fun st => set_o_iter (o_iter st + 1)%Z st)) _ s' tt (set_o_iter (o_iter s' + 1)%Z s') eq_refl).
    set (s1 := set_o_iter (o_iter s + 1)%Z s). set (s1' := set_o_iter (o_iter s' + 1)%Z s').
    assert (Hs1 : rel A s1 s1'). { destruct Hs as [ev He Hi]. exact (rel_i A s1 ev He Hi). }
    assert (Eh1 : o_hess s1 = A) by exact Eh. assert (El1 : length (deref s1 (o_x s1)) = length A) by exact El.
    clearbody s1 s1'. clear s s' Hs Eh El.
    rewrite (bind_ok (modify (fun st => set_o_delta_iter (o_delta st) st)) _ s1 tt (set_o_delta_iter (o_delta s1) s1) eq_refl).
    rewrite (bind_ok (modify (fun st => set_o_delta_iter (o_delta st) st)) _ s1' tt (set_o_delta_iter (o_delta s1') s1') eq_refl).
    set (s2 := set_o_delta_iter (o_delta s1) s1). set (s2' := set_o_delta_iter (o_delta s1') s1').
    assert (Hs2 : rel A s2 s2'). { destruct Hs1 as [ev He Hi]. exact (rel_i A s2 ev He Hi). }
    assert (Eh2 : o_hess s2 = A) by exact Eh1. assert (El2 : length (deref s2 (o_x s2)) = length A) by exact El1.
    clearbody s2 s2'. clear s1 s1' Hs1 Eh1 El1.
    rewrite (bind_ok get _ s2 s2 s2 eq_refl), (bind_ok get _ s2' s2' s2' eq_refl).
    assert (Q1 : deref s2' (o_x s2') = deref s2 (o_x s2)) by (destruct Hs2; reflexivity).
    assert (Q2 : o_grad s2' = o_grad s2) by (destruct Hs2; reflexivity).
    assert (Q3 : o_hess s2' = o_hess s2) by (destruct Hs2; rewrite Eh2; reflexivity).
    assert (Q4 : o_delta_iter s2' = o_delta_iter s2) by (destruct Hs2; reflexivity).
    rewrite Q1, Q2, Q3, Q4. cbn [three_outputs c_lb c_ub c_opts]. change (e_la E3) with (e_la E).
    assert (Q5 : o_fval s2' = o_fval s2) by (destruct Hs2; reflexivity).
    apply (sim_bind A A eq).
    { unfold check_finite_self. rewrite (bind_ok get _ s2 s2 s2 eq_refl), (bind_ok get _ s2' s2' s2' eq_refl). rewrite Q2, Q3, Q5.
      apply blind_sim; [apply blind_finite|exact Hs2]. }
    intros _ _ t t' _ _ Ht. apply (sim_bind A A eq); [apply blind_sim; [apply blind_lift|exact Ht]|].
    intros sp ? t1 t1' _ <- Ht1. apply (sim_bind A A eq); [apply sim_alloc; exact Ht1|].
    intros xn ? t2 t2' _ <- Ht2. apply (sim_bind A A pfrel); [apply sim_evaluate; exact Ht2|].
    intros pf pf' t3 t3' _ Hpf Ht3. apply (sim_bind A A frel).
    { pose proof (sim_typed (length (deref s2 (o_x s2))) xn pf pf' (eq_sym El2) Hpf) as K. unfold lift.
      destruct (typed_fout _ pf xn), (typed_fout _ pf' xn); try contradiction; cbn [fst snd sim]; unfold sim; cbn [fst snd]; [split; assumption|split; [assumption|exists A; assumption]]. }
    intros fn fn' t4 t4' _ Hfn Ht4. apply (sim_bind A A eq).
    { rewrite (finite_frel _ _ Hfn). destruct Hfn as (F1 & _). rewrite <- F1. apply blind_sim; [apply blind_when, blind_finite|exact Ht4]. }
    intros _ _ t5 t5' _ _ Ht5. apply (sim_bind A A eq).
    { change (update_tr_radius C3 fn' sp) with (update_tr_radius C fn' sp). rewrite (radius_frel _ _ _ _ Hfn). apply blind_sim; [apply blind_radius|exact Ht5]. }
    intros acc ? t6 t6' _ <- Ht6. apply (sim_bind A A eq).
    { change (check_convergence C3 sp fn') with (check_convergence C sp fn'). rewrite (convergence_frel _ _ _ Hfn). apply blind_sim; [apply blind_convergence|exact Ht6]. }
    intros _ _ t7 t7' _ _ Ht7. apply (sim_bind A A eq).
    { rewrite (minimum_frel _ _ Hfn). apply blind_sim; [apply blind_minimum|exact Ht7]. }
    intros _ _ t8 t8' _ _ Ht8. apply (sim_bind A A eq).
    { unfold when. destruct acc; [|split; [exact Ht8|reflexivity]].
      assert (Hi : iterative t8) by (destruct Ht8 as [ev He Hi]; exact Hi). destruct Hi as [i Hi]. exact (sim_update sp fn fn' f f' t8 t8' i Hi Hfn Ht8). }
    intros _ _ t9 t9' _ _ Ht9. change (has_history C3) with (has_history C). unfold has_history. rewrite Hno. cbn [when].
    apply (sim_bind A A eq); [split; [exact Ht9|reflexivity]|]. intros _ _ t10 t10' _ _ Ht10. unfold ret. split; [exact Ht10|].
    destruct acc; assumption.
  Qed.

  Variables (ndim : nat) (x0 : vec) (sid : option string) (st st' : opt) (i0 : ihapp T) (fuel : nat).
  Hypothesis Hi0 : o_happ st = Some (HIter i0).
  Variable B0 : mat.
  Hypothesis Hst : rel B0 st st'.
  Hypothesis Lx : length x0 = length A.
  (** the approximation stays exact *)
  Hypothesis Hkeeps : forall f s, loop_head E C ndim x0 sid (H0Mat A) st f s -> o_hess s = A.

  Lemma sim_loop {L : NumLaws T} k : forall f f' s s', loop_head E C ndim x0 sid (H0Mat A) st f s -> frel f f' -> rel A s s' ->
    sim A eq (loop E C k f s) (loop E3 C3 k f' s').
  Proof using H2 Hr HA FA Hno Lx Hkeeps.
    induction k as [|k IH]; intros f f' s s' Hl Hf Hs; cbn [loop]; [split; [reflexivity|exists A; exact Hs]|].
    apply (sim_bind A A eq).
    { change (check_continue E3 C3) with (check_continue E C). apply blind_sim; [apply blind_continue|exact Hs]. }
    intros c ? t t' Hc <- Ht. destruct c; [|split; [exact Ht|reflexivity]].
    pose proof (loop_head_Inv E C _ _ _ _ _ _ _ Hl) as I.
    assert (Es : t = set_o_clk (S (o_clk s)) s) by (apply check_continue_true in Hc as (-> & _); reflexivity).
    apply (sim_bind A A frel).
    - apply sim_iteration; [rewrite Es; exact (Hkeeps _ _ Hl)| |exact Hf|exact Ht].
      rewrite Es. change (deref (set_o_clk (S (o_clk s)) s) (o_x (set_o_clk (S (o_clk s)) s))) with (deref s (o_x s)).
      rewrite (iv_len _ _ _ _ _ _ _ I). exact Lx.
    - intros f1 f1' t1 t1' Hi Hf1 Ht1. apply IH; auto. exact (lh_next E C ndim x0 sid (H0Mat A) st f s t f1 t1 Hl Hc Hi).
  Qed.

  Lemma sim_init pf pf' n0 s s' : pfrel pf pf' -> rel B0 s s' ->
    sim A eq (init_hess (T := T) n0 (H0Mat A) pf s) (init_hess (T := T) n0 H0None pf' s') \/ length A <> n0.
  Proof using.
    intros Hpf Hs. destruct (Nat.eq_dec (length A) n0) as [En|En]; [left|now right].
    destruct Hpf as (f & g & -> & ->). unfold init_hess.
    assert (Hi : iterative s) by (destruct Hs; assumption). destruct Hi as [i Hi].
    assert (Hn : o_happ s' = None) by (destruct Hs; reflexivity).
    rewrite (bind_ok get _ s s s eq_refl), (bind_ok get _ s' s' s' eq_refl), Hi, Hn.
    cbn [pf_hess]. unfold bind, lift. cbn [h_init]. unfold ih_init, hb_init. rewrite (proj2 (Nat.eqb_eq _ _) En). unfold modify.
    set (i' := mkIhapp (ih_kind i) (mkHbase A (mzeros_like A))). unfold sim. cbn [fst snd]. split; [|reflexivity].
    destruct Hs as [ev He _].
    assert (K : iterative (set_o_hess (h_mat (HIter i')) (set_o_happ (Some (HIter i')) s))) by (exists i'; reflexivity).
    exact (rel_i A (set_o_hess (h_mat (HIter i')) (set_o_happ (Some (HIter i')) s)) ev He K).
  Qed.

  Lemma sim_prepare : sim A frel (prepare E C ndim x0 sid (H0Mat A) st) (prepare E3 C3 ndim x0 sid H0None st').
  Proof using H2 Hr HA FA Lx Hst.
    unfold prepare. change (reset E3 C3 sid) with (reset E C sid).
    apply (sim_bind B0 A eq); [apply blind_sim; [apply blind_reset|exact Hst]|]. intros _ _ t1 t1' _ _ H1.
    apply (sim_bind B0 A eq); [apply blind_sim; [intros t; split; [split; reflexivity|reflexivity]|exact H1]|]. intros x ? t2 t2' _ <- H3.
    apply (sim_bind B0 A eq); [apply blind_sim; [bmod|exact H3]|]. intros _ _ t3 t3' _ _ H4.
    destruct (Nat.ltb 1 ndim); [split; [reflexivity|exists B0; exact H4]|]. cbn [three_outputs c_lb c_ub].
    destruct (negb _ || _); [split; [reflexivity|exists B0; exact H4]|].
    apply (sim_bind B0 A eq); [apply blind_sim; [apply blind_nondeg|exact H4]|]. intros _ _ t4 t4' _ _ H5.
    rewrite (bind_ok get _ t4 t4 t4 eq_refl), (bind_ok get _ t4' t4' t4' eq_refl).
    assert (Q1 : o_x t4' = o_x t4) by (destruct H5; reflexivity). assert (Q2 : deref t4' (o_x t4) = deref t4 (o_x t4)) by (destruct H5; reflexivity).
    rewrite Q1, Q2. change (check_in_bounds C3) with (check_in_bounds C).
    apply (sim_bind B0 A eq); [apply blind_sim; [apply blind_in_bounds|exact H5]|]. intros _ _ t5 t5' _ _ H6.
    apply (sim_bind B0 A pfrel); [apply sim_evaluate; exact H6|]. intros pf pf' t6 t6' _ Hpf H7.
    apply (sim_bind A A eq). { destruct (sim_init pf pf' (length x0) t6 t6' Hpf H7) as [K|K]; [exact K|congruence]. }
    intros _ _ t7 t7' _ _ H8. rewrite (sim_checkdims (length x0) pf pf' (eq_sym Lx) Hpf).
    apply (sim_bind A A eq); [apply blind_sim; [apply blind_lift|exact H8]|]. intros _ _ t8 t8' _ _ H9.
    apply (sim_bind A A frel).
    { pose proof (sim_typed (length x0) (o_x t4) pf pf' (eq_sym Lx) Hpf) as K. unfold lift, sim.
      destruct (typed_fout _ pf _), (typed_fout _ pf' _); try contradiction; cbn [fst snd]; [split; assumption|split; [assumption|exists A; assumption]]. }
    intros f f' t9 t9' _ Hf H10. apply (sim_bind A A eq).
    { destruct Hf as (F1 & F2 & _). rewrite <- F1, <- F2. apply blind_sim; [bmod|exact H10]. }
    intros _ _ ta ta' _ _ Ha. apply (sim_bind A A eq).
    { rewrite (minimum_frel _ _ Hf). apply blind_sim; [apply blind_minimum|exact Ha]. }
    intros _ _ tb tb' _ _ Hb. apply (sim_bind A A eq).
    { rewrite (finite_frel _ _ Hf). apply blind_sim; [apply blind_finite|exact Hb]. }
    intros _ _ tc tc' _ _ Hc. apply (sim_bind A A eq); [apply blind_sim; [bmod|exact Hc]|].
    intros _ _ td td' _ _ Hd. unfold ret, sim. cbn [fst snd]. split; assumption.
  Qed.

  Theorem sim_minimize {L : NumLaws T} : sim A eq (minimize E C fuel ndim x0 sid (H0Mat A) st) (minimize E3 C3 fuel ndim x0 sid H0None st').
  Proof using H2 Hr HA FA Hno Lx Hkeeps Hst.
    unfold minimize. apply (sim_bind A A frel); [exact sim_prepare|]. intros f f' s s' Hp Hf Hs.
    pose proof (lh_start E C ndim x0 sid (H0Mat A) st f s Hp) as Hl.
    apply (sim_bind A A eq); [apply sim_loop; assumption|]. intros [] [] t t' Hlo _ Ht.
    assert (Eh : o_hess t = A).
    { apply (loop_ok E C _ _ _ _ (loop_head E C ndim x0 sid (H0Mat A) st)) in Hlo as (f1 & s1 & K1 & K2); [|intros; eapply lh_next; eauto|exact Hl].
      apply check_continue_false in K2 as (fl & k & ->). exact (Hkeeps _ _ K1). }
    unfold write_history. change (c_opts C3) with (c_opts C). rewrite Hno. unfold bind, ret, get, sim. cbn [fst snd].
    split; [exact Ht|]. destruct Ht as [ev He Hi]. rewrite Eh. reflexivity.
  Qed.
End Sim.
