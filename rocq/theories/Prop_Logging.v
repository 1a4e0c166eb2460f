(** C53: loggers are distinct for calls made one after the other, not for concurrent ones *)
From Coq Require Import String List ZArith Lia Decimal DecimalString DecimalNat DecimalFacts.
From Verif Require Import Logging.
Import ListNotations.
Local Open Scope list_scope.

Lemma append_inj_l p a b : String.append p a = String.append p b -> a = b.
Proof. induction p; simpl; [auto|]. intros E. injection E. auto. Qed.
Lemma logger_name_inj a b : logger_name a = logger_name b -> a = b.
Proof.
  unfold logger_name. intros E. apply append_inj_l in E.
  apply (f_equal NilZero.uint_of_string) in E.
  assert (NZ : forall k, Nat.to_uint k <> Nil).
  { intros k K. apply (f_equal Nat.of_uint) in K as K'. rewrite Unsigned.of_to in K'. simpl in K'. subst k. discriminate K. }
  rewrite !NilZero.usu in E by apply NZ. injection E as E. now apply Unsigned.to_uint_inj.
Qed.

Lemma lookup_update nm l reg nm' : lookup nm' (update nm l reg) = if String.eqb nm' nm then Some l else lookup nm' reg.
Proof.
  induction reg as [|[m l'] reg IH]; simpl.
  - reflexivity.
  - destruct (String.eqb_spec nm m) as [->|Hne]; simpl.
    + destruct (String.eqb nm' m); reflexivity.
    + rewrite IH. destruct (String.eqb_spec nm' m) as [->|]; [|reflexivity].
      destruct (String.eqb_spec m nm) as [->|]; [congruence|reflexivity].
Qed.
Lemma lookup_get nm st nm' : lookup nm' (l_reg (get_logger nm st)) =
  match lookup nm' (l_reg st) with Some l => Some l | None => if String.eqb nm' nm then Some (mkLogger [] 0) else None end.
Proof.
  unfold get_logger. destruct (lookup nm (l_reg st)) eqn:E; simpl.
  - destruct (lookup nm' (l_reg st)) eqn:E'; [reflexivity|]. destruct (String.eqb_spec nm' nm); [congruence|reflexivity].
  - rewrite lookup_update. destruct (String.eqb_spec nm' nm) as [->|]; [now rewrite E|]. destruct (lookup nm' (l_reg st)); reflexivity.
Qed.

(** no logger carries one of the names to come *)
Definition fresh (st : lstate) : Prop := forall k, l_count st < k -> lookup (logger_name k) (l_reg st) = None.

Lemma create_spec lvl st : fresh st ->
  let nm := fst (create_logger lvl st) in let st' := snd (create_logger lvl st) in
  nm = logger_name (l_count st + 1) /\ l_count st' = l_count st + 1 /\ fresh st'
  /\ lookup nm (l_reg st) = None
  /\ lookup nm (l_reg st') = Some (mkLogger [l_handlers st] lvl)
  /\ (forall nm', nm' <> nm -> lookup nm' (l_reg st') = lookup nm' (l_reg st)).
Proof.
  intros Hf. cbv zeta. unfold create_logger. cbn [fst snd]. set (st1 := set_count (l_count st + 1) st).
  change (l_count st1) with (l_count st + 1). set (nm := logger_name (l_count st + 1)).
  assert (Hn : lookup nm (l_reg st) = None) by (apply Hf; lia).
  assert (G : l_count (get_logger nm st1) = l_count st + 1 /\ l_handlers (get_logger nm st1) = l_handlers st).
  { unfold get_logger. destruct (lookup nm (l_reg st1)); auto. }
  destruct G as [G1 G2].
  assert (L1 : the_logger nm (get_logger nm st1) = mkLogger [] 0).
  { unfold the_logger. rewrite lookup_get. change (l_reg st1) with (l_reg st). rewrite Hn, String.eqb_refl. reflexivity. }
  assert (L2 : the_logger nm (add_handler nm (get_logger nm st1)) = mkLogger [l_handlers st] 0).
  { unfold the_logger at 1. unfold add_handler. cbn [l_reg]. rewrite lookup_update, String.eqb_refl, L1, G2. reflexivity. }
  assert (Ls : forall nm', lookup nm' (l_reg (set_level nm lvl (add_handler nm (get_logger nm st1)))) =
      if String.eqb nm' nm then Some (mkLogger [l_handlers st] lvl) else lookup nm' (l_reg st)).
  { intros nm'. unfold set_level. cbn [l_reg]. rewrite lookup_update, L2. cbn [lg_handlers]. destruct (String.eqb_spec nm' nm) as [|Hne]; [reflexivity|].
    unfold add_handler. cbn [l_reg]. rewrite lookup_update. destruct (String.eqb_spec nm' nm); [congruence|].
    rewrite lookup_get. change (l_reg st1) with (l_reg st). destruct (lookup nm' (l_reg st)); [reflexivity|].
    destruct (String.eqb_spec nm' nm); [congruence|reflexivity]. }
  split; [reflexivity|]. split; [exact G1|]. split.
  - intros k Hk. rewrite Ls. unfold set_level in Hk. cbn [l_count add_handler] in Hk. rewrite G1 in Hk.
    destruct (String.eqb_spec (logger_name k) nm) as [E|]; [|apply Hf; lia]. apply logger_name_inj in E. lia.
  - split; [exact Hn|]. split; [rewrite Ls, String.eqb_refl; reflexivity|].
    intros nm' Hne. rewrite Ls. destruct (String.eqb_spec nm' nm); [congruence|reflexivity].
Qed.

(** Any number of calls one after the other, from any state in which the counter is ahead of the registered names: all
    loggers are new and distinct, and in the end each has exactly one handler and the level it was created with. *)
Theorem C53_sequential : forall lvls st, fresh st ->
  let nms := fst (create_loggers lvls st) in let st' := snd (create_loggers lvls st) in
  length nms = length lvls /\ NoDup nms
  /\ (forall nm, In nm nms -> lookup nm (l_reg st) = None)
  /\ (forall i nm lvl, nth_error nms i = Some nm -> nth_error lvls i = Some lvl ->
        exists h, lookup nm (l_reg st') = Some (mkLogger [h] lvl)).
Proof.
  assert (G : forall lvls st, fresh st ->
    let nms := fst (create_loggers lvls st) in let st' := snd (create_loggers lvls st) in
    length nms = length lvls /\ NoDup nms
    /\ (forall nm, In nm nms -> exists k, nm = logger_name k /\ l_count st < k)
    /\ (forall nm, (forall k, nm = logger_name k -> k <= l_count st) -> lookup nm (l_reg st') = lookup nm (l_reg st))
    /\ (forall i nm lvl, nth_error nms i = Some nm -> nth_error lvls i = Some lvl ->
        exists h, lookup nm (l_reg st') = Some (mkLogger [h] lvl))).
  { induction lvls as [|lvl lvls IH]; intros st Hf; cbv zeta.
    - simpl. repeat split; auto; try constructor; try tauto. intros [|i] nm lvl E; discriminate E.
    - cbn [create_loggers]. destruct (create_logger lvl st) as [nm st1] eqn:E1.
      pose proof (create_spec lvl st Hf) as K. rewrite E1 in K. cbn [fst snd] in K. destruct K as (En & Ec & Hf1 & _ & Hl & Ho).
      specialize (IH st1 Hf1). cbv zeta in IH. destruct (create_loggers lvls st1) as [nms st2] eqn:E2. cbn [fst snd] in *.
      destruct IH as (I1 & I2 & I3 & I4 & I5). split; [simpl; congruence|]. split.
      { constructor; auto. intros Hin. destruct (I3 _ Hin) as (k & Ek & Hk). rewrite En in Ek. apply logger_name_inj in Ek. lia. }
      split.
      { intros m [<-|Hm]; [exists (l_count st + 1); split; [exact En|lia]|]. destruct (I3 _ Hm) as (k & Ek & Hk). exists k. split; [exact Ek|lia]. }
      split.
      { intros m Hm. rewrite I4.
        - apply Ho. intros ->. specialize (Hm _ En). lia.
        - intros k Hk. specialize (Hm k Hk). lia. }
      intros [|i] m lv Ei El; cbn [nth_error] in *.
      + injection Ei as <-. injection El as <-. exists (l_handlers st). rewrite I4; [exact Hl|].
        intros k Hk. rewrite En in Hk. apply logger_name_inj in Hk. lia.
      + eapply I5; eauto. }
  intros lvls st Hf. cbv zeta. destruct (G lvls st Hf) as (G1 & G2 & G3 & _ & G5). repeat split; auto.
  intros nm Hin. destruct (G3 _ Hin) as (k & -> & Hk). now apply Hf.
Qed.

(** running one thread alone is the uninterrupted call *)
Theorem C53_alone : forall lvl st ts i, nth_error ts i = Some (P0 lvl) ->
  exists nm st', create_logger lvl st = (nm, st') /\ snd (run_sched (repeat i 6) (ts, st)) = st'
    /\ nth_error (fst (run_sched (repeat i 6) (ts, st))) i = Some (PDone nm).
Proof.
  intros lvl st ts i Hi. eexists _, _. split; [reflexivity|].
  assert (R : forall t t' ts, nth_error ts i = Some t -> nth_error (replace_nth i t' ts) i = Some t').
  { clear. intros t t' ts. revert ts. induction i as [|i IH]; intros [|u ts] E; try discriminate; [reflexivity|]. simpl in *. eauto. }
  cbn [repeat run_sched fold_left].
  assert (S : forall t ts st, nth_error ts i = Some t -> act i (ts, st) = (replace_nth i (fst (micro t st)) ts, snd (micro t st))).
  { intros t ts0 st0 E. unfold act. cbn [fst snd]. rewrite E. destruct (micro t st0). reflexivity. }
  rewrite (S _ _ _ Hi). cbn [micro fst snd].
  rewrite (S (P1 lvl (l_count st))) by (eapply R; eauto). cbn [micro fst snd].
  rewrite (S (P2 lvl)) by (eapply R, R; eauto). cbn [micro fst snd].
  rewrite (S (P3 lvl (l_count st + 1))) by (eapply R, R, R; eauto). cbn [micro fst snd].
  rewrite (S (P4 lvl (logger_name (l_count st + 1)))) by (eapply R, R, R, R; eauto). cbn [micro fst snd].
  rewrite (S (P5 lvl (logger_name (l_count st + 1)))) by (eapply R, R, R, R, R; eauto). cbn [micro fst snd].
  split; [reflexivity|]. eapply R, R, R, R, R, R; eauto.
Qed.

(** *** concurrent calls *)
(** Two calls interleaved: both get the same logger; its messages go to two handlers, and the level of one of the calls is lost. *)
Theorem C53_concurrent_refuted : forall c reg h lvl1 lvl2, let st := mkLstate c reg h in fresh st -> exists sched nm,
  let r := run_sched sched ([P0 lvl1; P0 lvl2], st) in
  fst r = [PDone nm; PDone nm] /\ lookup nm (l_reg (snd r)) = Some (mkLogger [h; h + 1] lvl2).
Proof.
  intros c reg h lvl1 lvl2. cbv zeta. intros Hf.
  exists [0; 1; 0; 1; 0; 1; 0; 1; 0; 1; 0; 1], (logger_name (c + 1)).
  cbn [run_sched fold_left act nth_error micro replace_nth fst snd l_count set_count].
  split; [reflexivity|]. unfold set_level. cbn [l_reg]. rewrite lookup_update, String.eqb_refl. f_equal. f_equal.
  set (nm := logger_name (c + 1)). set (s0 := set_count (c + 1) _).
  assert (Hn : lookup nm (l_reg s0) = None) by (apply Hf; simpl; lia).
  assert (E1 : get_logger nm (get_logger nm s0) = get_logger nm s0).
  { unfold get_logger at 1. rewrite lookup_get, Hn, String.eqb_refl. reflexivity. }
  rewrite E1. unfold the_logger at 1. cbn [l_reg]. rewrite lookup_update, String.eqb_refl. cbn [lg_handlers].
  unfold add_handler at 1. unfold the_logger at 1. cbn [l_reg]. rewrite lookup_update, String.eqb_refl. cbn [lg_handlers].
  unfold the_logger at 1. unfold add_handler at 1. cbn [l_reg]. rewrite lookup_update, String.eqb_refl. cbn [lg_handlers].
  unfold the_logger. rewrite lookup_get, Hn, String.eqb_refl. cbn [lg_handlers app].
  unfold add_handler. cbn [l_handlers]. unfold get_logger. rewrite Hn. cbn [l_handlers]. simpl. do 2 f_equal. f_equal. lia.
Qed.

Lemma nth_replace_same i t : forall ts u, nth_error ts i = Some u -> nth_error (replace_nth i t ts) i = Some t.
Proof. induction i; intros [|v ts] u E; try discriminate; simpl in *; [reflexivity|eauto]. Qed.
Lemma nth_replace_other i j t : forall ts, i <> j -> nth_error (replace_nth i t ts) j = nth_error ts j.
Proof. revert j. induction i; intros [|j] [|v ts] Hne; simpl; auto; try lia. Qed.
Lemma replace_length i t : forall ts, length (replace_nth i t ts) = length ts.
Proof. induction i; intros [|v ts]; simpl; auto. Qed.
Lemma act_cases i c : act i c = c \/ exists t, nth_error (fst c) i = Some t
  /\ act i c = (replace_nth i (fst (micro t (snd c))) (fst c), snd (micro t (snd c))).
Proof.
  unfold act. destruct (nth_error (fst c) i) as [t|] eqn:E; [|auto]. right. exists t. split; [reflexivity|].
  destruct (micro t (snd c)). reflexivity.
Qed.

(** what an action does to the registry, and to the counter *)
Lemma count_get nm st : l_count (get_logger nm st) = l_count st.
Proof. unfold get_logger. destruct (lookup nm (l_reg st)); reflexivity. Qed.
Lemma lookup_add nm st nm' : lookup nm' (l_reg (add_handler nm st)) =
  if String.eqb nm' nm then Some (mkLogger (lg_handlers (the_logger nm st) ++ [l_handlers st]) (lg_level (the_logger nm st))) else lookup nm' (l_reg st).
Proof. apply lookup_update. Qed.
Lemma lookup_level nm lvl st nm' : lookup nm' (l_reg (set_level nm lvl st)) =
  if String.eqb nm' nm then Some (mkLogger (lg_handlers (the_logger nm st)) lvl) else lookup nm' (l_reg st).
Proof. apply lookup_update. Qed.

(** *** any schedule: what still holds *)
Definition past (t : pc) : nat := match t with P0 _ | P1 _ _ => 0 | _ => 1 end.
Fixpoint pasts (ts : list pc) : nat := match ts with [] => 0 | t :: ts => past t + pasts ts end.
Lemma pasts_replace i t t' : forall ts, nth_error ts i = Some t -> pasts (replace_nth i t' ts) + past t = pasts ts + past t'.
Proof. induction i; intros [|v ts] E; try discriminate; simpl in *; [injection E as ->; lia|]. apply IHi in E. lia. Qed.
Lemma pasts_le ts : pasts ts <= length ts.
Proof. induction ts as [|t ts IH]; simpl; [lia|]. destruct t; simpl; lia. Qed.

Definition loose (c0 m : nat) (st : lstate) (t : pc) : Prop :=
  match t with
  | P0 _ => True
  | P1 _ v => c0 <= v <= c0 + m
  | P2 _ => c0 < l_count st
  | P3 _ v => c0 < v <= c0 + m
  | P4 _ nm => (exists k, nm = logger_name k /\ c0 < k <= c0 + m) /\ lookup nm (l_reg st) <> None
  | P5 _ nm | PDone nm => (exists k, nm = logger_name k /\ c0 < k <= c0 + m)
      /\ exists l, lookup nm (l_reg st) = Some l /\ lg_handlers l <> []
  end.
Definition grows (st st' : lstate) : Prop :=
  (forall nm l, lookup nm (l_reg st) = Some l -> exists l', lookup nm (l_reg st') = Some l' /\ (lg_handlers l <> [] -> lg_handlers l' <> [])).
Lemma micro_grows t st : grows st (snd (micro t st)).
Proof.
  destruct t; cbn [micro snd]; intros m l E; try (exists l; tauto).
  - exists l. rewrite lookup_get, E. auto.
  - rewrite lookup_add. destruct (String.eqb_spec m nm); [|eauto]. eexists. split; [reflexivity|]. cbn [lg_handlers].
    intros _ K. apply app_eq_nil in K as [_ K]. discriminate.
  - rewrite lookup_level. destruct (String.eqb_spec m nm) as [->|]; [|eauto]. eexists. split; [reflexivity|]. cbn [lg_handlers].
    unfold the_logger. now rewrite E.
Qed.
Definition loose_inv (c0 : nat) (c : list pc * lstate) : Prop :=
  c0 <= l_count (snd c) <= c0 + pasts (fst c)
  /\ (0 < pasts (fst c) -> c0 < l_count (snd c))
  /\ forall i t, nth_error (fst c) i = Some t -> loose c0 (pasts (fst c)) (snd c) t.
Lemma pasts_pos ts i t : nth_error ts i = Some t -> past t <= pasts ts.
Proof. revert ts. induction i; intros [|v ts] E; try discriminate; simpl in *; [injection E as ->; lia|]. apply IHi in E. lia. Qed.
Lemma loose_act c0 i c : loose_inv c0 c -> loose_inv c0 (act i c).
Proof.
  intros Hc. destruct (act_cases i c) as [->|(t & Et & ->)]; [exact Hc|]. destruct c as [ts st]. cbn [fst snd] in *.
  destruct Hc as (H1 & H2 & H3). cbn [fst snd] in *. pose proof (pasts_replace i t (fst (micro t st)) ts Et) as Hp.
  pose proof (H3 i t Et) as Ht. pose proof (micro_grows t st) as Hg. pose proof (pasts_pos _ _ _ Et) as Hpp.
  assert (Hm : pasts ts <= pasts (replace_nth i (fst (micro t st)) ts)) by (destruct t; cbn [micro fst past] in *; lia).
  assert (Hcount : c0 <= l_count (snd (micro t st)) <= c0 + pasts (replace_nth i (fst (micro t st)) ts)
     /\ (0 < pasts (replace_nth i (fst (micro t st)) ts) -> c0 < l_count (snd (micro t st)))).
  { destruct t; cbn [micro fst snd past loose set_count l_count add_handler set_level] in *; rewrite ?count_get;
      split; try lia; intros; apply H2; lia. }
  destruct Hcount as [Hc1 Hc2]. split; [exact Hc1|]. split; [exact Hc2|].
  intros j t' Hj. cbn [fst snd] in *. destruct (Nat.eq_dec i j) as [<-|Hne].
  - rewrite (nth_replace_same i _ ts t Et) in Hj. injection Hj as <-.
    revert Ht Hp Hm Hc1 Hc2 Hg Hpp. destruct t; cbn [micro fst snd past loose set_count l_count add_handler set_level l_reg]; intros.
    + lia.
    + lia.
    + lia.
    + split; [exists v; split; [reflexivity|lia]|]. rewrite lookup_get, String.eqb_refl. destruct (lookup _ _); discriminate.
    + destruct Ht as [(k & Ek & Hk) Hl]. split; [exists k; split; [exact Ek|lia]|].
      eexists. split; [rewrite lookup_update, String.eqb_refl; reflexivity|]. cbn [lg_handlers]. intros K. apply app_eq_nil in K as [_ K]. discriminate.
    + destruct Ht as [(k & Ek & Hk) (l & El & Hl)]. split; [exists k; split; [exact Ek|lia]|].
      eexists. split; [rewrite lookup_update, String.eqb_refl; reflexivity|]. cbn [lg_handlers]. unfold the_logger. rewrite El. exact Hl.
    + destruct Ht as [(k & Ek & Hk) Hl]. split; [exists k; split; [exact Ek|lia]|exact Hl].
  - rewrite nth_replace_other in Hj by auto. specialize (H3 j t' Hj). pose proof (pasts_pos _ _ _ Hj) as Hjp.
    destruct t'; cbn [loose past] in *; try lia; try tauto.
    + destruct H3 as [(k & Ek & Hk) Hl]. split; [exists k; split; [exact Ek|lia]|].
      destruct (lookup nm (l_reg st)) as [l|] eqn:El; [|congruence]. destruct (Hg _ _ El) as (l' & -> & _). discriminate.
    + destruct H3 as [(k & Ek & Hk) (l & El & Hl)]. split; [exists k; split; [exact Ek|lia]|]. destruct (Hg _ _ El) as (l' & E' & Hl'). eauto.
    + destruct H3 as [(k & Ek & Hk) (l & El & Hl)]. split; [exists k; split; [exact Ek|lia]|]. destruct (Hg _ _ El) as (l' & E' & Hl'). eauto.
Qed.
Lemma run_inv (Q : list pc * lstate -> Prop) : (forall i c, Q c -> Q (act i c)) -> forall sched c, Q c -> Q (run_sched sched c).
Proof. intros Ha. induction sched as [|i sched IH]; intros c Hc; [exact Hc|]. apply IH, Ha, Hc. Qed.
Lemma act_length i c : length (fst (act i c)) = length (fst c).
Proof. destruct (act_cases i c) as [->|(t & _ & ->)]; [reflexivity|apply replace_length]. Qed.
Lemma run_length sched : forall c, length (fst (run_sched sched c)) = length (fst c).
Proof. induction sched as [|i s IH]; intros c; [reflexivity|]. change (run_sched (i :: s) c) with (run_sched s (act i c)). rewrite IH. apply act_length. Qed.

(** Under every schedule of any number of concurrent calls: a returned logger is one of the next [length lvls] names and has a handler. *)
Theorem C53_any_interleaving : forall lvls st sched i nm,
  nth_error (fst (run_sched sched (map P0 lvls, st))) i = Some (PDone nm) ->
  (exists k, nm = logger_name k /\ l_count st < k <= l_count st + length lvls)
  /\ exists l, lookup nm (l_reg (snd (run_sched sched (map P0 lvls, st)))) = Some l /\ lg_handlers l <> [].
Proof.
  intros lvls st sched i nm Hd. assert (I : loose_inv (l_count st) (run_sched sched (map P0 lvls, st))).
  { apply run_inv; [intros; now apply loose_act|].
    assert (E : pasts (map P0 lvls) = 0) by (clear; induction lvls; simpl; auto).
    split; [cbn [fst snd]; lia|]. split; [cbn [fst snd]; lia|]. intros j t Hj. cbn [fst] in Hj.
    rewrite nth_error_map in Hj. destruct (nth_error lvls j); [|discriminate]. injection Hj as <-. exact Logic.I. }
  destruct I as (_ & _ & I). specialize (I i _ Hd). destruct I as [(k & Ek & Hk) Hl]. split; [|exact Hl].
  exists k. split; [exact Ek|]. pose proof (pasts_le (fst (run_sched sched (map P0 lvls, st)))) as K. rewrite run_length in K. cbn [fst] in K. rewrite map_length in K. lia.
Qed.

(** *** if no other thread runs while one is between its first load of the counter and the load for the name, the loggers are distinct *)
Definition critical (t : pc) : Prop := match t with P1 _ _ | P2 _ => True | _ => False end.
Fixpoint exclusive (sched : list nat) (c : list pc * lstate) : Prop :=
  match sched with
  | [] => True
  | i :: sched => (forall j t, j <> i -> nth_error (fst c) j = Some t -> ~ critical t) /\ exclusive sched (act i c)
  end.
(** the number a thread has taken *)
Definition holds (t : pc) (k : nat) : Prop :=
  match t with P3 _ v => v = k | P4 _ nm | P5 _ nm | PDone nm => nm = logger_name k | _ => False end.
Definition strict (lvl : Z) (st : lstate) (t : pc) : Prop :=
  match t with
  | P0 l => l = lvl
  | P1 l v => l = lvl /\ v = l_count st
  | P2 l => l = lvl /\ lookup (logger_name (l_count st)) (l_reg st) = None
  | P3 l v => l = lvl /\ lookup (logger_name v) (l_reg st) = None
  | P4 l nm => l = lvl /\ exists k, nm = logger_name k /\ lookup nm (l_reg st) = Some (mkLogger [] 0)
  | P5 l nm => l = lvl /\ exists k, nm = logger_name k /\ exists h, lookup nm (l_reg st) = Some (mkLogger [h] 0)
  | PDone nm => exists k, nm = logger_name k /\ exists h, lookup nm (l_reg st) = Some (mkLogger [h] lvl)
  end.
Record excl_inv (lvls : list Z) (c : list pc * lstate) : Prop := mkExcl {
  ex_fresh : fresh (snd c);
  ex_strict : forall i t, nth_error (fst c) i = Some t -> exists lvl, nth_error lvls i = Some lvl /\ strict lvl (snd c) t;
  ex_le : forall i t k, nth_error (fst c) i = Some t -> holds t k -> k <= l_count (snd c);
  ex_p2 : forall i j t k l, nth_error (fst c) i = Some (P2 l) -> nth_error (fst c) j = Some t -> holds t k -> k < l_count (snd c);
  ex_diff : forall i j t t' k, i <> j -> nth_error (fst c) i = Some t -> nth_error (fst c) j = Some t' -> holds t k -> ~ holds t' k
}.
Lemma holds_name t nm : (match t with P4 _ m | P5 _ m | PDone m => m = nm | _ => False end) -> forall k, holds t k <-> nm = logger_name k.
Proof. destruct t; cbn; try tauto; intros <- k; tauto. Qed.
Lemma excl_act lvls i c : (forall j t, j <> i -> nth_error (fst c) j = Some t -> ~ critical t) -> excl_inv lvls c -> excl_inv lvls (act i c).
Proof.
  intros Hx Hc. destruct (act_cases i c) as [->|(t & Et & ->)]; [exact Hc|]. destruct c as [ts st]. cbn [fst snd] in *.
  destruct Hc as [Hf Hs Hl H2 Hd]. cbn [fst snd] in *. destruct (Hs i t Et) as (lvl & El & Ht).
  (* the only names whose entry may change *)
  assert (Hreg : forall k', ~ holds t k' -> lookup (logger_name k') (l_reg (snd (micro t st))) = lookup (logger_name k') (l_reg st)).
  { intros k' Hk. destruct t; cbn [micro snd holds] in *; auto.
    - rewrite lookup_get. destruct (lookup (logger_name k') (l_reg st)); [reflexivity|].
      destruct (String.eqb_spec (logger_name k') (logger_name v)) as [E|]; [|reflexivity]. apply logger_name_inj in E. congruence.
    - rewrite lookup_add. destruct (String.eqb_spec (logger_name k') nm); [congruence|reflexivity].
    - rewrite lookup_level. destruct (String.eqb_spec (logger_name k') nm); [congruence|reflexivity]. }
  assert (Hcm : l_count st <= l_count (snd (micro t st))).
  { destruct t; cbn [micro snd]; rewrite ?count_get; auto. cbn [strict] in Ht. cbn [set_count l_count]. lia. }
  assert (Hcs : ~ critical t -> l_count (snd (micro t st)) = l_count st).
  { destruct t; cbn [micro snd critical]; rewrite ?count_get; tauto. }
  (* what the acting thread holds afterwards *)
  assert (Hh : forall k, holds (fst (micro t st)) k -> holds t k \/ (exists l, t = P2 l) /\ k = l_count st).
  { intros k Hk. destruct t; cbn [micro fst holds] in *; auto; try tauto; try (left; congruence); try (left; now apply logger_name_inj). right. split; eauto. }
  assert (Hne : forall j t' k, j <> i -> nth_error ts j = Some t' -> holds t' k -> ~ holds (fst (micro t st)) k).
  { intros j t' k Hji Hj Hk Hk'. destruct (Hh k Hk') as [K|[(l & ->) ->]].
    - exact (Hd j i t' t k Hji Hj Et Hk K).
    - pose proof (H2 i j t' _ l Et Hj Hk). lia. }
  constructor; cbn [fst snd].
  - intros k Hk. assert (~ holds t k). { intros K. specialize (Hl i t k Et K). lia. }
    rewrite Hreg by auto. apply Hf. lia.
  - intros j t' Hj. destruct (Nat.eq_dec i j) as [<-|Hij].
    + rewrite (nth_replace_same i _ ts t Et) in Hj. injection Hj as <-. exists lvl. split; [exact El|].
      destruct t; cbn [micro fst snd strict set_count l_count l_reg] in *.
      * auto.
      * split; [tauto|]. apply Hf. lia.
      * auto.
      * split; [tauto|]. exists v. split; [reflexivity|]. rewrite lookup_get, String.eqb_refl. destruct Ht as [_ ->]. reflexivity.
      * destruct Ht as (-> & k & Ek & Hk). split; [reflexivity|]. exists k. split; [exact Ek|].
        exists (l_handlers st). rewrite lookup_add, String.eqb_refl. unfold the_logger. rewrite Hk. reflexivity.
      * destruct Ht as (-> & k & Ek & h & Hk). exists k. split; [exact Ek|].
        exists h. rewrite lookup_level, String.eqb_refl. unfold the_logger. rewrite Hk. reflexivity.
      * exact Ht.
    + rewrite nth_replace_other in Hj by auto. destruct (Hs j t' Hj) as (lvl' & El' & Ht'). exists lvl'. split; [exact El'|].
      assert (Nj : ~ critical t') by (eapply Hx; eauto).
      assert (Hr : forall k, holds t' k -> lookup (logger_name k) (l_reg (snd (micro t st))) = lookup (logger_name k) (l_reg st)).
      { intros k Hk. apply Hreg. intros K. exact (Hd i j t t' k Hij Et Hj K Hk). }
      destruct t'; cbn [strict critical holds] in *; auto; try tauto.
      * rewrite (Hr v) by auto. exact Ht'.
      * destruct Ht' as (-> & k & -> & Hk). split; [reflexivity|]. exists k. split; [reflexivity|]. rewrite (Hr k) by auto. exact Hk.
      * destruct Ht' as (-> & k & -> & h & Hk). split; [reflexivity|]. exists k. split; [reflexivity|]. exists h. rewrite (Hr k) by auto. exact Hk.
      * destruct Ht' as (k & -> & h & Hk). exists k. split; [reflexivity|]. exists h. rewrite (Hr k) by auto. exact Hk.
  - intros j t' k Hj Hk. destruct (Nat.eq_dec i j) as [<-|Hij].
    + rewrite (nth_replace_same i _ ts t Et) in Hj. injection Hj as <-. destruct (Hh k Hk) as [K|[_ ->]]; [specialize (Hl i t k Et K)|]; lia.
    + rewrite nth_replace_other in Hj by auto. specialize (Hl j t' k Hj Hk). lia.
  - intros a b t' k l Ha Hb Hk.
    assert (Ea : a = i).
    { destruct (Nat.eq_dec a i) as [|Hai]; auto. exfalso. rewrite nth_replace_other in Ha by auto. apply (Hx a _ Hai Ha). exact Logic.I. }
    subst a. rewrite (nth_replace_same i _ ts t Et) in Ha. injection Ha as Ha.
    destruct (Nat.eq_dec i b) as [<-|Hij].
    + rewrite (nth_replace_same i _ ts t Et) in Hb. injection Hb as <-. rewrite Ha in Hk. destruct Hk.
    + rewrite nth_replace_other in Hb by auto. specialize (Hl b t' k Hb Hk).
      destruct t; cbn [micro fst snd] in *; try discriminate. cbn [set_count l_count strict] in *. lia.
  - intros a b t1 t2 k Hab Ha Hb Hk1 Hk2.
    destruct (Nat.eq_dec a i) as [->|Hai]; [|destruct (Nat.eq_dec b i) as [->|Hbi]].
    + rewrite (nth_replace_same i _ ts t Et) in Ha. injection Ha as <-. rewrite nth_replace_other in Hb by auto.
      exact (Hne b t2 k ltac:(auto) Hb Hk2 Hk1).
    + rewrite (nth_replace_same i _ ts t Et) in Hb. injection Hb as <-. rewrite nth_replace_other in Ha by auto.
      exact (Hne a t1 k Hai Ha Hk1 Hk2).
    + rewrite nth_replace_other in Ha, Hb by auto. exact (Hd a b t1 t2 k Hab Ha Hb Hk1 Hk2).
Qed.

Theorem C53_exclusive : forall lvls st sched, fresh st -> exclusive sched (map P0 lvls, st) ->
  let r := run_sched sched (map P0 lvls, st) in
  forall i nm, nth_error (fst r) i = Some (PDone nm) ->
    (exists lvl h, nth_error lvls i = Some lvl /\ lookup nm (l_reg (snd r)) = Some (mkLogger [h] lvl))
    /\ forall j nm', i <> j -> nth_error (fst r) j = Some (PDone nm') -> nm <> nm'.
Proof.
  intros lvls st sched Hf He. cbv zeta.
  assert (I0 : excl_inv lvls (map P0 lvls, st)).
  { assert (K : forall i t, nth_error (map P0 lvls) i = Some t -> exists l, nth_error lvls i = Some l /\ t = P0 l).
    { intros i t Hi. rewrite nth_error_map in Hi. destruct (nth_error lvls i); [|discriminate]. injection Hi as <-. eauto. }
    constructor; cbn [fst snd]; auto.
    - intros i t Hi. destruct (K i t Hi) as (l & El & ->). exists l. split; [exact El|reflexivity].
    - intros i t k Hi Hk. destruct (K i t Hi) as (l & El & ->). destruct Hk.
    - intros i j t k l Hi. destruct (K _ _ Hi) as (l' & _ & E). discriminate.
    - intros i j t t' k _ Hi _ Hk. destruct (K i t Hi) as (l & El & ->). destruct Hk. }
  assert (G : forall sched c, excl_inv lvls c -> exclusive sched c -> excl_inv lvls (run_sched sched c)).
  { clear. induction sched as [|i s IH]; intros c Hc He; [exact Hc|]. destruct He as [H1 H2]. apply IH; auto. now apply excl_act. }
  specialize (G sched _ I0 He). intros i nm Hi. destruct G as [_ Gs _ _ Gd].
  destruct (Gs i _ Hi) as (lvl & El & k & Ek & h & Hk). split; [exists lvl, h; auto|].
  intros j nm' Hij Hj E. apply (Gd i j _ _ k Hij Hi Hj); cbn [holds]; congruence.
Qed.

(** three calls in a fresh process; the names *)
Example C53_ex : fresh (mkLstate 0 [] 0) /\ fst (create_loggers [10; 20; 30]%Z (mkLstate 0 [] 0)) = ["fides_1"; "fides_2"; "fides_3"]%string
  /\ exclusive [0; 0; 0; 1; 1; 1; 0; 1; 0; 1; 0; 1] (map P0 [10; 20]%Z, mkLstate 0 [] 0)
  /\ fst (run_sched [0; 0; 0; 1; 1; 1; 0; 1; 0; 1; 0; 1] (map P0 [10; 20]%Z, mkLstate 0 [] 0)) = [PDone "fides_1"; PDone "fides_2"].
Proof.
  split; [intros k _; reflexivity|]. split; [reflexivity|]. split; [|reflexivity].
  cbn. repeat split; auto; intros [|[|[|j]]] t Hne Hj; cbn in *; try discriminate; try lia; injection Hj as <-; cbn; auto.
Qed.
