(** C01-C04: option dictionaries, construction, contract of the objective *)
From Coq Require Import ZArith List Bool String Lia.
From Verif Require Import Num Constants Subproblem HessApprox Steps TrustRegion Minimize
  ER F64 NumFacts MonadFacts MinFacts Spec Run RunInv TRErr RunFrame Witness.
Import ListNotations.
Local Open Scope string_scope.
Local Open Scope list_scope.

(** ** Specification *)

(** names documented in constants.py, written out *)
Definition documented (s : string) : option okey :=
  if String.eqb s "maxiter" then Some MAXITER else if String.eqb s "maxtime" then Some MAXTIME
  else if String.eqb s "fatol" then Some FATOL else if String.eqb s "frtol" then Some FRTOL
  else if String.eqb s "xtol" then Some XTOL else if String.eqb s "gatol" then Some GATOL
  else if String.eqb s "grtol" then Some GRTOL
  else if String.eqb s "subspace_solver" then Some SUBSPACE_DIM
  else if String.eqb s "stepback_strategy" then Some STEPBACK_STRAT
  else if String.eqb s "theta_max" then Some THETA_MAX
  else if String.eqb s "delta_init" then Some DELTA_INIT
  else if String.eqb s "mu" then Some MU else if String.eqb s "eta" then Some ETA
  else if String.eqb s "gamma1" then Some GAMMA1 else if String.eqb s "gamma2" then Some GAMMA2
  else if String.eqb s "history_file" then Some HISTORY_FILE else None.

(** the key object [k] names the option [o] *)
Inductive names : pykey -> okey -> Prop :=
| names_str s o : documented s = Some o -> names (KStr s) o
| names_enum o : names (KEnum o) o.

Section Spec.
  Context {T : Type} {N : Num T} {NI : NumInt T}.

  (** values of the documented type: a real number (int, bool, float), an integral number,
      a string, or a string / path *)
  Inductive type_ok : okey -> pyv T -> Prop :=
  | to_int z o : o <> SUBSPACE_DIM -> o <> STEPBACK_STRAT -> o <> HISTORY_FILE -> type_ok o (VInt z)
  | to_bool b o : o <> SUBSPACE_DIM -> o <> STEPBACK_STRAT -> o <> HISTORY_FILE -> type_ok o (VBool b)
  | to_real t o : o <> SUBSPACE_DIM -> o <> STEPBACK_STRAT -> o <> HISTORY_FILE -> o <> MAXITER ->
      type_ok o (VReal t)
  | to_intreal t z : nisnan t = false -> nisfin t = true -> ntoZ t = Some z -> type_ok MAXITER (VReal t)
      (* a float equal to an integer *)
  | to_str s o : o = SUBSPACE_DIM \/ o = STEPBACK_STRAT \/ o = HISTORY_FILE -> type_ok o (VStr s)
  | to_path s : type_ok HISTORY_FILE (VPath s).

  (** an enumerated option has a value of its enumeration *)
  Definition enum_ok (o : okey) (v : pyv T) : Prop :=
    (o = SUBSPACE_DIM -> exists s, v = VStr s /\ In s ["2D"; "full"; "scg"]) /\
    (o = STEPBACK_STRAT ->
       exists s, v = VStr s /\ In s ["reflect_single"; "reflect"; "truncate"; "mixed"; "refine"]).

  (** an entry the documentation allows, the enumeration being checked only for enum-member keys *)
  Definition entry_ok (kv : pykey * pyv T) : Prop :=
    exists o, names (fst kv) o /\ type_ok o (snd kv)
              /\ (fst kv = KEnum o -> enum_ok o (snd kv)).

  (** Python dictionaries: writing to a key equal to an existing one (a member of Options equals
      its string) replaces the value and keeps the old key object *)
  Definition same_key (k k' : pykey) : bool :=
    match k, k' with
    | KStr s, KStr s' => String.eqb s s'
    | KStr s, KEnum o | KEnum o, KStr s => String.eqb s (okey_name o)
    | KEnum o, KEnum o' => String.eqb (okey_name o) (okey_name o')
    | _, _ => false      (* objects of other types: every occurrence is a different object *)
    end.
  Fixpoint dict_set (d : odict T) (k : pykey) (v : pyv T) : odict T :=
    match d with
    | [] => [(k, v)]
    | (k', v') :: d' => if same_key k k' then (k', v) :: d' else (k', v') :: dict_set d' k v
    end.
  Definition dict_of_writes (w : list (pykey * pyv T)) : odict T :=
    fold_left (fun d kv => dict_set d (fst kv) (snd kv)) w [].
End Spec.

(** ** C01 *)
Section C01.
  Context {T : Type} {N : Num T} {NI : NumInt T}.
  Variable parses : string -> bool.

  Lemma names_iff k o : names k o <-> options_of_key k = Some o.
  Proof.
    destruct k as [s|o'|]; cbn [options_of_key find all_okeys okey_name]; split; intros H.
    - inversion H as [s' o' Hd|]; subst. unfold documented in Hd.
      repeat match type of Hd with (if String.eqb s ?n then _ else _) = _ =>
        destruct (String.eqb_spec s n); [subst s; injection Hd as <-; reflexivity|] end.
      discriminate.
    - constructor. unfold documented.
      repeat match type of H with (if String.eqb ?n s then _ else _) = _ =>
        destruct (String.eqb_spec n s); [subst s; injection H as <-; reflexivity|
          destruct (String.eqb_spec s n); [congruence|]] end.
      discriminate.
    - now inversion H.
    - injection H as ->. constructor.
    - inversion H.
    - discriminate.
  Qed.

  Lemma names_fun k o o' : names k o -> names k o' -> o = o'.
  Proof. rewrite !names_iff. congruence. Qed.

  Lemma in_enum_iff l (v : pyv T) : in_enum l v = true <-> exists s, v = VStr s /\ In s l.
  Proof.
    destruct v; simpl; split; try discriminate; try (intros (s' & E & _); discriminate).
    - intros H. apply existsb_exists in H as (s' & Hi & He). apply String.eqb_eq in He. subst. eauto.
    - intros (s' & E & Hi). injection E as <-. apply existsb_exists. exists s. split; auto.
      apply String.eqb_refl.
  Qed.

  Lemma type_ok_iff o (v : pyv T) :
    type_ok o v <->
    (has_expected_type o v = true \/ (o = MAXITER /\ int_eq parses v = Ok true)).
  Proof.
    split.
    - intros H. inversion H; subst; try (left; destruct o; simpl; congruence).
      + right. split; auto. simpl. rewrite H0, H1, H2. reflexivity.
      + left. destruct H0 as [->|[->| ->]]; reflexivity.
      + left. reflexivity.
    - intros [H|[-> H]].
      + destruct o, v; simpl in H; try discriminate; try (constructor; try discriminate; auto; fail).
      + destruct v; simpl in H; try discriminate; try (constructor; discriminate).
        * destruct (nisnan t) eqn:E1; [discriminate|]. destruct (nisfin t) eqn:E2; [|discriminate].
          destruct (ntoZ t) eqn:E3; [|discriminate]. eapply to_intreal; eauto.
        * destruct (parses s); discriminate.
  Qed.

  Lemma validate_entry_iff kv : validate_entry (T := T) parses kv = Ok tt <-> entry_ok kv.
  Proof.
    destruct kv as [k v]. unfold validate_entry, entry_ok. cbn [fst snd].
    destruct (options_of_key k) as [o|] eqn:Ek.
    2:{ split; [discriminate|]. intros (o & Hn & _). apply names_iff in Hn. congruence. }
    set (bad1 := match k with KEnum SUBSPACE_DIM => _ | _ => _ end).
    set (bad2 := match k with KEnum STEPBACK_STRAT => _ | _ => _ end).
    assert (Hbad : (bad1 || bad2 = false) <-> (k = KEnum o -> enum_ok o v)).
    { subst bad1 bad2. destruct k as [s|ok|]; simpl in Ek; simpl.
      - split; auto. intros _ H; discriminate.
      - injection Ek as ->. unfold enum_ok.
        destruct o; cbn [orb]; try (split; [intros _ _; split; discriminate|auto]; fail).
        + rewrite orb_false_r, negb_false_iff, in_enum_iff. split.
          * intros H _. split; [auto|discriminate].
          * intros H. destruct (H eq_refl) as [H1 _]. now apply H1.
        + rewrite negb_false_iff, in_enum_iff. split.
          * intros H _. split; [discriminate|auto].
          * intros H. destruct (H eq_refl) as [_ H1]. now apply H1.
      - discriminate. }
    split.
    - destruct (bad1 || bad2) eqn:Eb; [discriminate|]. intros H.
      exists o. split; [now apply names_iff|]. split; [|now apply Hbad].
      apply type_ok_iff. destruct (has_expected_type o v); auto. right.
      destruct o; try discriminate. split; auto.
      destruct (int_eq parses v) as [[]|]; try discriminate. reflexivity.
    - intros (o' & Hn & Ht & He). apply names_iff in Hn. assert (o' = o) by congruence. subst o'.
      apply Hbad in He. rewrite He. apply type_ok_iff in Ht as [->|[-> H]]; auto.
      destruct (has_expected_type MAXITER v); auto. now rewrite H.
  Qed.

  (** an options dictionary is accepted exactly when every entry has a documented key and a value of
      the documented type (and, for enum-member keys, of the enumeration) *)
  Theorem C01_accepts_iff (d : odict T) : validate_options parses d = Ok tt <-> Forall entry_ok d.
  Proof.
    induction d as [|kv d IH]; simpl.
    - split; auto.
    - destruct (validate_entry parses kv) as [[]|e] eqn:E.
      + rewrite IH. split.
        * intros H. constructor; auto. now apply validate_entry_iff.
        * now inversion 1.
      + split; [discriminate|]. inversion 1 as [|? ? H1 H2]; subst.
        apply validate_entry_iff in H1. congruence.
  Qed.

  Lemma validate_app d1 kv d2 e : Forall entry_ok d1 -> validate_entry (T := T) parses kv = Err e ->
    validate_options parses (d1 ++ kv :: d2) = Err e.
  Proof.
    induction d1 as [|a d1 IH]; intros H1 H2; simpl.
    - now rewrite H2.
    - inversion H1; subst. rewrite (proj2 (validate_entry_iff a)); auto.
  Qed.

  (** the first entry with an unknown key is reported as ValueError *)
  Theorem C01_unknown_key (d1 d2 : odict T) k v :
    Forall entry_ok d1 -> (forall o, ~ names k o) ->
    validate_options parses (d1 ++ (k, v) :: d2) = Err EValue.
  Proof.
    intros H1 H2. apply validate_app; auto. unfold validate_entry.
    destruct (options_of_key k) eqn:E; auto. apply names_iff in E. now apply H2 in E.
  Qed.

  (** a value of the wrong type raises TypeError or ValueError; the one other possibility is an
      infinite float for maxiter, where int() raises OverflowError *)
  Theorem C01_wrong_value (d1 d2 : odict T) k v :
    Forall entry_ok d1 -> ~ entry_ok (k, v) ->
    exists e, validate_options parses (d1 ++ (k, v) :: d2) = Err e
      /\ (e = EType \/ e = EValue
          \/ (e = EOverflow /\ names k MAXITER /\ exists t, v = VReal t /\ nisfin t = false)).
  Proof.
    intros H1 H2. destruct (validate_entry parses (k, v)) as [[]|e] eqn:E.
    { apply validate_entry_iff in E. contradiction. }
    exists e. split; [now apply validate_app|]. revert E. unfold validate_entry.
    destruct (options_of_key k) as [o|] eqn:Ek; [|intros E; injection E as <-; auto].
    destruct (_ || _); [intros E; injection E as <-; auto|].
    destruct (has_expected_type o v) eqn:Eh; [discriminate|].
    destruct o; try (intros E; injection E as <-; auto; fail).
    destruct (int_eq parses v) as [[]|e'] eqn:Ei; intros E; try discriminate; injection E as <-; auto.
    destruct v; simpl in Ei; try discriminate; try (injection Ei as <-; auto; fail).
    - destruct (nisnan t); [injection Ei as <-; auto|].
      destruct (nisfin t) eqn:Ef; [discriminate|]. injection Ei as <-. right; right. repeat split; eauto.
      now apply names_iff.
    - destruct (parses s); [discriminate|]. injection Ei as <-. auto.
  Qed.

  (** the exception is exactly: ValueError for a str-enum member key whose value is not of the enumeration,
      for maxiter=nan and for a maxiter string int() cannot read; OverflowError for an infinite maxiter;
      TypeError for every other value of the wrong type *)
  Theorem C01_exception (d1 d2 : odict T) k v o :
    Forall entry_ok d1 -> ~ entry_ok (k, v) -> names k o ->
    validate_options parses (d1 ++ (k, v) :: d2) =
    Err (match k, o, v with
         | KEnum _, SUBSPACE_DIM, _ | KEnum _, STEPBACK_STRAT, _ => EValue
         | _, MAXITER, VReal t => if nisnan t then EValue else if nisfin t then EType else EOverflow
         | _, MAXITER, VStr s => if parses s then EType else EValue
         | _, _, _ => EType
         end).
  Proof.
    intros H1 H2 Hn. destruct (validate_entry parses (k, v)) as [[]|e] eqn:E.
    { apply validate_entry_iff in E. contradiction. }
    rewrite (validate_app _ _ d2 _ H1 E). f_equal. revert E. unfold validate_entry.
    apply names_iff in Hn. rewrite Hn.
    destruct k as [s|o'|]; [| |discriminate Hn].
    - simpl. destruct (has_expected_type o v) eqn:Eh; [discriminate|].
      destruct o; try (intros E; injection E as <-; reflexivity).
      destruct v; simpl in *; try discriminate; try (intros E; injection E as <-; reflexivity).
      + destruct (nisnan t), (nisfin t), (ntoZ t); intros E; try discriminate; injection E as <-; reflexivity.
      + destruct (parses s0); intros E; injection E as <-; reflexivity.
    - assert (o' = o) by (destruct o'; simpl in Hn; injection Hn as <-; reflexivity). subst o'.
      destruct o; simpl; destruct v; simpl;
        try (intros E; discriminate E);
        try (intros E; injection E as <-; reflexivity);
        try (destruct (nisnan t), (nisfin t), (ntoZ t); intros E; try discriminate; injection E as <-; reflexivity);
        try (destruct (parses s); intros E; injection E as <-; reflexivity).
      all: match goal with |- (if ?b then _ else _) = _ -> _ => destruct b end; intros E; [now injection E as <-|discriminate E].
  Qed.

  (** reading: the last value written under the option's name, else the documented default *)
  Lemma key_matches_iff o k : key_matches o k = true <-> names k o.
  Proof.
    rewrite names_iff. destruct k as [s|o'|]; cbn [options_of_key find all_okeys okey_name key_matches].
    - split; intros H.
      + apply String.eqb_eq in H. subst s. destruct o; reflexivity.
      + revert H.
        repeat match goal with |- (if String.eqb ?n s then _ else _) = _ -> _ =>
          destruct (String.eqb_spec n s); [subst s; intros H; injection H as <-; apply String.eqb_refl|] end.
        discriminate.
    - split; [intros H; apply String.eqb_eq in H; destruct o, o'; (discriminate || reflexivity)
             |intros H; injection H as ->; apply String.eqb_refl].
    - split; discriminate.
  Qed.

  Lemma same_key_matches o k k' : same_key k k' = true -> key_matches o k = key_matches o k'.
  Proof.
    destruct k, k'; simpl; intros H; try discriminate; apply String.eqb_eq in H; subst; auto.
    now rewrite H.
  Qed.
  Lemma matches_same o k k' : key_matches o k = true -> key_matches o k' = true -> same_key k k' = true.
  Proof.
    destruct k, k'; simpl; intros H H'; try discriminate; apply String.eqb_eq in H, H'; subst;
      try rewrite <- H; try rewrite H'; try apply String.eqb_refl.
  Qed.

  Lemma dict_get_set (d : odict T) k v o :
    dict_get (dict_set d k v) o = if key_matches o k then Some v else dict_get d o.
  Proof.
    unfold dict_get. induction d as [|[k' v'] d IH]; simpl.
    - destruct (key_matches o k); reflexivity.
    - destruct (same_key k k') eqn:Es; simpl.
      + rewrite (same_key_matches o _ _ Es). destruct (key_matches o k'); reflexivity.
      + destruct (key_matches o k') eqn:Ek'.
        * destruct (key_matches o k) eqn:Ek; auto.
          rewrite (matches_same _ _ _ Ek Ek') in Es. discriminate.
        * exact IH.
  Qed.

  Theorem C01_read_last (w1 w2 : list (pykey * pyv T)) k v o :
    names k o -> (forall kv, In kv w2 -> ~ names (fst kv) o) ->
    get_option (dict_of_writes (w1 ++ (k, v) :: w2)) o = v.
  Proof.
    intros Hk Hw. unfold get_option, dict_of_writes. rewrite fold_left_app. simpl.
    match goal with |- context [dict_set ?d0 k v] => generalize d0 end. intros d.
    assert (Hd : forall d0, dict_get d0 o = Some v ->
       dict_get (fold_left (fun d kv => dict_set d (fst kv) (snd kv)) w2 d0) o = Some v).
    { clear d. revert Hw. induction w2 as [|[k2 v2] w2 IH]; intros Hw d0 H0; simpl; auto.
      apply IH. { intros kv Hi. apply Hw. now right. }
      rewrite dict_get_set. destruct (key_matches o k2) eqn:E; auto.
      apply key_matches_iff in E. exfalso. apply (Hw (k2, v2)); simpl; auto. }
    rewrite Hd; auto. rewrite dict_get_set. now rewrite (proj2 (key_matches_iff o k) Hk).
  Qed.
  Theorem C01_read_default (w : list (pykey * pyv T)) o :
    (forall kv, In kv w -> ~ names (fst kv) o) ->
    get_option (dict_of_writes w) o = default_option o.
  Proof.
    intros Hw. unfold get_option, dict_of_writes.
    assert (Hd : forall d0 : odict T, dict_get d0 o = None ->
       dict_get (fold_left (fun d kv => dict_set d (fst kv) (snd kv)) w d0) o = None).
    { revert Hw. induction w as [|[k2 v2] w' IH]; intros Hw d0 H0; simpl; auto.
      apply IH. { intros kv Hi. apply Hw. now right. }
      rewrite dict_get_set. destruct (key_matches o k2) eqn:E; auto.
      apply key_matches_iff in E. exfalso. apply (Hw (k2, v2)); simpl; auto. }
    now rewrite Hd.
  Qed.

  (** the default values, written out (constants.py: maxiter 1000, no time limit, fatol = frtol = 1e-8, xtol = grtol = 0,
      gatol = 1e-6, two-dimensional subspace, reflections, theta_max 0.95, radius 1, mu 1/4, eta 3/4, gamma1 1/4,
      gamma2 2, no history file) *)
  Theorem C01_defaults s0 parses0 lb ub happ0 resfun files C :
    optimizer_init parses0 lb ub [] happ0 resfun files = Ok (C, s0) ->
    ntoZ (nofZ (T := T) 1000) = Some 1000%Z ->
    c_opts C = mkOpts 1000%Z ninf (nfrac 1 100000000) (nfrac 1 100000000) (nofZ 0) (nfrac 1 1000000) (nofZ 0)
                 "2D" "reflect" (nfrac 95 100) (nofZ 1) (nfrac 25 100) (nfrac 75 100) (nfrac 1 4) (nofZ 2) None.
  Proof.
    intros H Hz. unfold optimizer_init in H. destruct happ0 as [h|].
    - destruct (Bool.eqb resfun (requires_resfun h)); [|discriminate].
      cbn [rbind validate_options] in H. unfold opts_of in H. cbn in H. rewrite Hz in H. cbn in H. now injection H as <- <-.
    - cbn [rbind validate_options] in H. unfold opts_of in H. cbn in H. rewrite Hz in H. cbn in H. now injection H as <- <-.
  Qed.

  (** every option the optimizer uses is the value of the entry of the dictionary it was given under that name (the
      default if there is none); bounds and kind of objective are the arguments *)
  Theorem C01_configured parses0 lb ub (d : odict T) happ0 resfun files C s0 :
    optimizer_init parses0 lb ub d happ0 resfun files = Ok (C, s0) ->
    let real o v := as_real (get_option d o) = Ok v in
    let str o v := get_option d o = VStr v in
    let O := c_opts C in
    c_lb C = lb /\ c_ub C = ub /\ c_resfun C = resfun /\ o_happ s0 = happ0
    /\ as_int (get_option d MAXITER) = Ok (op_maxiter O) /\ real MAXTIME (op_maxtime O)
    /\ real FATOL (op_fatol O) /\ real FRTOL (op_frtol O) /\ real XTOL (op_xtol O)
    /\ real GATOL (op_gatol O) /\ real GRTOL (op_grtol O)
    /\ str SUBSPACE_DIM (op_subspace_dim O) /\ str STEPBACK_STRAT (op_stepback O)
    /\ real THETA_MAX (op_theta_max O) /\ real DELTA_INIT (op_delta_init O)
    /\ real MU (op_mu O) /\ real ETA (op_eta O) /\ real GAMMA1 (op_gamma1 O) /\ real GAMMA2 (op_gamma2 O)
    /\ op_history O = match get_option d HISTORY_FILE with
                      | VStr f => if String.eqb f "" then None else Some f
                      | VPath f => Some f | _ => None end.
  Proof.
    intros H. cbv zeta. unfold optimizer_init in H.
    assert (H1 : exists o, opts_of d = Ok o /\ C = mkCfg o lb ub (nargout_of happ0) resfun /\ o_happ s0 = happ0).
    { destruct (match happ0 with Some h => _ | None => _ end) in H; cbn [rbind] in H; [|discriminate].
      destruct (validate_options parses0 d) in H; cbn [rbind] in H; [|discriminate].
      destruct (opts_of d) as [o|]; cbn [rbind] in H; [|discriminate].
      destruct (_ && _) in H; [discriminate|]. injection H as <- <-. exists o. auto. }
    clear H. destruct H1 as (o & H1 & -> & H2). cbn [c_opts c_lb c_ub c_resfun].
    assert (Hs : forall v w, as_str (T := T) v = Ok w -> v = VStr w)
      by (intros v w; destruct v; simpl; try discriminate; now injection 1 as ->).
    unfold opts_of in H1.
    repeat match type of H1 with rbind ?m _ = _ =>
      let E := fresh "E" in destruct m eqn:E; cbn [rbind] in H1; [|discriminate] end.
    injection H1 as <-. cbn [op_maxiter op_maxtime op_fatol op_frtol op_xtol op_gatol op_grtol op_subspace_dim op_stepback
      op_theta_max op_delta_init op_mu op_eta op_gamma1 op_gamma2 op_history].
    repeat split; auto.
  Qed.

  (** ** C02 *)
  (** true for keys given as members of Options *)
  Theorem C02_enum_keys (d : odict T) v :
    validate_options parses d = Ok tt ->
    (In (KEnum SUBSPACE_DIM, v) d -> exists s, v = VStr s /\ In s ["2D"; "full"; "scg"]) /\
    (In (KEnum STEPBACK_STRAT, v) d ->
       exists s, v = VStr s /\ In s ["reflect_single"; "reflect"; "truncate"; "mixed"; "refine"]).
  Proof.
    intros H. apply C01_accepts_iff in H. rewrite Forall_forall in H.
    split; intros Hi; apply H in Hi as (o & Hn & _ & He); cbn [fst snd] in *;
      inversion Hn; subst; apply He; auto.
  Qed.

  (** false for the plain string key: any string value is accepted, for every rest of the dictionary *)
  Theorem C02_string_key_refuted (d : odict T) s :
    validate_options parses d = Ok tt ->
    validate_options parses ((KStr "subspace_solver", VStr s) :: (KStr "stepback_strategy", VStr s) :: d) = Ok tt.
  Proof.
    intros H. apply C01_accepts_iff in H. apply C01_accepts_iff.
    constructor; [|constructor; auto].
    - exists SUBSPACE_DIM. split; [now apply names_iff|]. split; [constructor; auto|discriminate].
    - exists STEPBACK_STRAT. split; [now apply names_iff|]. split; [constructor; auto|discriminate].
  Qed.

  (** ** C03 *)
  Lemma entry_get (d : odict T) o v : Forall entry_ok d -> dict_get d o = Some v -> type_ok o v.
  Proof.
    intros Hd. unfold dict_get. destruct find eqn:Ef; [|discriminate]. intros H. injection H as <-.
    apply find_some in Ef as [Hi Hm]. apply key_matches_iff in Hm.
    rewrite Forall_forall in Hd. apply Hd in Hi as (o' & Hn & Ht & _).
    now rewrite (names_fun _ _ _ Hm Hn).
  Qed.

  (** the documented default of maxiter is the integral float 1000 *)
  Hypothesis Hdef : exists z, ntoZ (nofZ 1000 : T) = Some z.

  Lemma opts_of_ok (d : odict T) : Forall entry_ok d -> exists o, opts_of d = Ok o
      /\ as_str (get_option d SUBSPACE_DIM) = Ok (op_subspace_dim o)
      /\ as_str (get_option d STEPBACK_STRAT) = Ok (op_stepback o).
  Proof.
    intros Hd.
    assert (Hreal : forall o, o <> SUBSPACE_DIM -> o <> STEPBACK_STRAT -> o <> HISTORY_FILE ->
        exists t, as_real (get_option d o) = Ok t).
    { intros o H1 H2 H3. unfold get_option. destruct (dict_get d o) as [v|] eqn:E.
      - apply entry_get in E; auto. inversion E; subst; simpl; eauto. intuition congruence. congruence.
      - destruct o; simpl; eauto; congruence. }
    assert (Hstr : forall o, o = SUBSPACE_DIM \/ o = STEPBACK_STRAT -> exists s, as_str (get_option d o) = Ok s).
    { intros o H. unfold get_option. destruct (dict_get d o) as [v|] eqn:E.
      - apply entry_get in E; auto. inversion E; subst; simpl; eauto; destruct H; congruence.
      - destruct H; subst; simpl; eauto. }
    assert (Hint : exists z, as_int (get_option d MAXITER) = Ok z).
    { unfold get_option. destruct (dict_get d MAXITER) as [v|] eqn:E.
      - apply entry_get in E; auto. inversion E; subst; simpl; eauto; try congruence.
        + rewrite H1. simpl. eauto.
        + intuition congruence.
      - simpl. destruct Hdef as (z & ->). simpl. eauto. }
    unfold opts_of.
    destruct Hint as (z & ->). cbn [rbind].
    repeat match goal with
    | |- context [as_real (get_option d ?o)] =>
        let t := fresh in let E := fresh in
        destruct (Hreal o) as (t & E); [discriminate|discriminate|discriminate|]; rewrite E; cbn [rbind]
    | |- context [as_str (get_option d ?o)] =>
        let t := fresh in let E := fresh in
        destruct (Hstr o) as (t & E); [auto|]; rewrite E; cbn [rbind]
    end.
    eexists. repeat split; reflexivity.
  Qed.

  (** residual flag expected by a Hessian scheme: residual-based schemes (FX, SSM, TSSM, GNSBFGS)
      need it, the others forbid it, no scheme leaves it free *)
  Definition residual_flag_ok (h : option (happ T)) (resfun : bool) : Prop :=
    match h with
    | None => True
    | Some (HFX _ _ _) | Some (HStruct _) => resfun = true
    | Some (HIter _) | Some (HFixed _ _ _ _) | Some (HFraction _ _ _ _) => resfun = false
    end.
  Definition scg_refine (d : odict T) : Prop :=
    get_option d SUBSPACE_DIM = VStr "scg" /\ get_option d STEPBACK_STRAT = VStr "refine".

  Lemma as_str_inv (v : pyv T) s : as_str v = Ok s -> v = VStr s.
  Proof. destruct v; simpl; try discriminate. now injection 1 as ->. Qed.

  Theorem C03_accepts_iff lb ub (d : odict T) h resfun files :
    (exists p, optimizer_init parses lb ub d h resfun files = Ok p)
    <-> residual_flag_ok h resfun /\ Forall entry_ok d /\ ~ scg_refine d.
  Proof.
    unfold optimizer_init.
    assert (Hf : residual_flag_ok h resfun <->
      match h with Some h => if Bool.eqb resfun (requires_resfun h) then @Ok unit tt else Err EValue
                 | None => Ok tt end = Ok tt).
    { destruct h as [[]|]; simpl; destruct resfun; simpl; intuition; discriminate. }
    rewrite Hf. destruct (match h with Some _ => _ | None => _ end) as [[]|e]; cbn [rbind].
    2:{ split; [intros (p & H); discriminate|intros (H & _); discriminate]. }
    rewrite <- C01_accepts_iff. destruct (validate_options parses d) as [[]|e] eqn:Ev; cbn [rbind].
    2:{ split; [intros (p & H); discriminate|intros (_ & H & _); discriminate]. }
    apply C01_accepts_iff in Ev.
    destruct (opts_of_ok d Ev) as (o & -> & H1 & H2). cbn [rbind].
    apply as_str_inv in H1, H2. unfold scg_refine. rewrite H1, H2.
    destruct (String.eqb_spec (op_subspace_dim o) "scg"); cbn [andb].
    - destruct (String.eqb_spec (op_stepback o) "refine").
      + split; [intros (p & H); discriminate|intros (_ & _ & H)]. exfalso. apply H. split; congruence.
      + split; [|eauto]. intros _. repeat split; auto. intros (_ & H). congruence.
    - split; [|eauto]. intros _. repeat split; auto. intros (H & _). congruence.
  Qed.

  Theorem C03_rejection_is_ValueError lb ub (d : odict T) h resfun files e :
    optimizer_init parses lb ub d h resfun files = Err e -> Forall entry_ok d -> e = EValue.
  Proof.
    unfold optimizer_init. intros H Hd.
    destruct (match h with Some _ => _ | None => _ end) as [[]|e'] eqn:E; cbn [rbind] in H.
    2:{ injection H as <-. destruct h; [destruct Bool.eqb|]; congruence. }
    rewrite (proj2 (C01_accepts_iff d) Hd) in H. cbn [rbind] in H.
    destruct (opts_of_ok d Hd) as (o & E2 & _ & _). rewrite E2 in H. cbn [rbind] in H.
    destruct (_ && _); congruence.
  Qed.

  (** accepted configurations other than (no scheme, resfun=True) can evaluate some objective:
      there is a return value that passes the output contract for every dimension *)
  Theorem C03_evaluable lb ub (d : odict T) h resfun files c st n :
    optimizer_init parses lb ub d h resfun files = Ok (c, st) ->
    ~ (h = None /\ resfun = true) ->
    exists r pf, fun_evaluate (c_nargout c) (c_resfun c) r = Ok pf /\ checkdims n pf = Ok tt.
  Proof.
    intros Hi Hh.
    assert (Hp : residual_flag_ok h resfun).
    { apply (proj1 (C03_accepts_iff lb ub d h resfun files)). eauto. }
    assert (Ec : c_nargout c = nargout_of h /\ c_resfun c = resfun).
    { revert Hi. unfold optimizer_init.
      destruct (match h with Some _ => _ | None => _ end) as [[]|]; cbn [rbind]; [|discriminate].
      destruct validate_options; cbn [rbind]; [|discriminate].
      destruct opts_of; cbn [rbind]; [|discriminate]. destruct (_ && _); [discriminate|].
      intros H. injection H as <- <-. auto. }
    destruct Ec as [-> ->].
    destruct resfun.
    - exists (RTuple [PVec []; PMat n []]). destruct h as [[]|]; simpl in *; try discriminate; try tauto.
      all: eexists; split; [reflexivity|]; unfold checkdims; cbn -[Nat.eqb];
        rewrite map_map; unfold vecmat, lincomb, vzeros;
        rewrite ?map_length, ?seq_length, ?repeat_length, Nat.eqb_refl; reflexivity.
    - destruct h as [[]|]; simpl in *; try discriminate.
      + exists (RTuple [PScal n0; PVec (vzeros n)]). eexists; split; [reflexivity|].
        unfold checkdims, vzeros; simpl. now rewrite repeat_length, Nat.eqb_refl.
      + exists (RTuple [PScal n0; PVec (vzeros n); PMat n (repeat (vzeros n) n)]). eexists; split; [reflexivity|].
        unfold checkdims, vzeros; simpl. now rewrite !repeat_length, !Nat.eqb_refl.
      + exists (RTuple [PScal n0; PVec (vzeros n); PMat n (repeat (vzeros n) n)]). eexists; split; [reflexivity|].
        unfold checkdims, vzeros; simpl. now rewrite !repeat_length, !Nat.eqb_refl.
      + exists (RTuple [PScal n0; PVec (vzeros n); PMat n (repeat (vzeros n) n)]). eexists; split; [reflexivity|].
        unfold checkdims, vzeros; simpl. now rewrite !repeat_length, !Nat.eqb_refl.
  Qed.

  (** refuted for resfun=True without a scheme: accepted with every valid dictionary, yet no call of
      minimize with any objective ever returns *)
  Theorem C03_resfun_without_scheme_refuted lb ub (d : odict T) files :
    Forall entry_ok d -> ~ scg_refine d ->
    exists c st, optimizer_init parses lb ub d None true files = Ok (c, st)
      /\ forall E fuel ndim x0 sid h0 st0 res st', minimize E c fuel ndim x0 sid h0 st0 <> (Ok res, st').
  Proof.
    intros Hd Hs.
    destruct (proj2 (C03_accepts_iff lb ub d None true files)) as ([c st] & Hc).
    { repeat split; auto. }
    exists c, st. split; auto. intros E fuel ndim x0 sid h0 st0 res st' Hm.
    assert (Ec : c_nargout c = 3%nat /\ c_resfun c = true).
    { revert Hc. unfold optimizer_init. cbn [rbind].
      destruct validate_options; cbn [rbind]; [|discriminate].
      destruct opts_of; cbn [rbind]; [|discriminate]. destruct (_ && _); [discriminate|].
      intros H. injection H as <- <-. auto. }
    unfold minimize in Hm. apply bind_ok_inv in Hm as (f & s1 & Hp & _).
    apply prepare_inv in Hp. inversion Hp as [| | | | | |? ? ? ? ? ? Hev]; subst.
    revert Hev. destruct Ec as [-> ->]. unfold fun_evaluate. destruct (pr_ret E c x0 st0) as [l| |]; try discriminate.
    destruct l as [|a [|b [|c0 [|? ?]]]]; simpl; try discriminate.
    destruct a; try discriminate. destruct b; try discriminate.
  Qed.
End C01.

(** the documented default passes its own integrality test, in both number systems *)
Lemma default_maxiter_F64 : exists z, ntoZ (nofZ 1000 : F64) = Some z.
Proof.
  assert (H : match ntoZ (nofZ 1000 : F64) with Some _ => true | None => false end = true)
    by (vm_compute; reflexivity).
  destruct (ntoZ (nofZ 1000 : F64)) eqn:E; [eauto|discriminate].
Qed.

(** concrete cases *)
Example C01_accepted :
  Forall (entry_ok (T := F64)) [(KStr "maxiter", VReal (fofZ 12)); (KEnum FATOL, VReal (fofZ 0));
                     (KEnum SUBSPACE_DIM, VStr "full"); (KStr "history_file", VPath "h.h5")].
Proof. apply (C01_accepts_iff (fun _ => false)). vm_compute. reflexivity. Qed.
Example C01_rejected :
  ~ entry_ok (T := F64) (KStr "maxiter", VReal (ndiv (fofZ 1) (fofZ 2))).
Proof.
  intros H. apply (validate_entry_iff (fun _ => false)) in H. revert H. vm_compute. discriminate.
Qed.
Example C01_bad_key : forall o, ~ names (KStr "maxiters") o.
Proof. intros o H. apply names_iff in H. vm_compute in H. discriminate. Qed.
Example C01_overflow :
  validate_options (T := F64) (fun _ => false) [(KStr "maxiter", VReal ninf)] = Err EOverflow.
Proof. vm_compute. reflexivity. Qed.
Example C01_written_twice :
  get_option (T := F64) (dict_of_writes [(KStr "mu", VInt 3); (KEnum MU, VInt 4)]) MU = VInt 4.
Proof. apply (C01_read_last [(KStr "mu", VInt 3)] []); [constructor|]. intros kv []. Qed.
Example C02_bogus_solver_accepted :
  validate_options (T := F64) (fun _ => false) [(KStr "subspace_solver", VStr "bogus")] = Ok tt.
Proof. vm_compute. reflexivity. Qed.
Example C03_accepted_example :
  residual_flag_ok (T := F64) (Some (HFX (mkIhapp (BFGS true) hb_empty) hb_empty (fofZ 1))) true
  /\ ~ scg_refine (T := F64) [(KStr "subspace_solver", VStr "full")].
Proof. split; [reflexivity|]. intros [H _]. vm_compute in H. discriminate. Qed.

(** ** C04 *)
Section C04.
  Context {T : Type} {N : Num T}.
  Local Notation vec := (list T).
  Local Notation mat := (list (list T)).
  Variable E : env T.
  Variable C : cfg T.
  Variables (fuel ndim : nat) (x0 : vec) (sid : option string) (h0 : hess0_arg T).
  Variable st : opt T.

  (** a 2-d array with nr rows and nc columns *)
  Definition is_matrix (nr nc : nat) (m : mat) : Prop :=
    List.length m = nr /\ forall r, In r m -> List.length r = nc.

  (** the documented output of the objective in dimension n: residuals and their n sensitivities, or
      scalar value and gradient of length n, followed by an n x n Hessian when three outputs are
      expected (None is let through for the Hessian of a scheme that supplies its own) *)
  Inductive contract (n : nat) : retval T -> Prop :=
  | ct_residual res j : c_resfun C = true -> c_nargout C = 2%nat ->
      is_matrix (List.length res) n j -> contract n (RTuple [PVec res; PMat n j])
  | ct_grad f g : c_resfun C = false -> c_nargout C = 2%nat ->
      List.length g = n -> contract n (RTuple [PScal f; PVec g])
  | ct_hess f g h : c_resfun C = false -> c_nargout C = 3%nat ->
      List.length g = n -> is_matrix n n h -> contract n (RTuple [PScal f; PVec g; PMat n h])
  | ct_nohess f g : c_resfun C = false -> c_nargout C = 3%nat -> o_happ st <> None ->
      List.length g = n -> contract n (RTuple [PScal f; PVec g; PNone]).

  (** something in the place of the gradient, or of the Hessian, is None *)
  Inductive has_none : retval T -> Prop :=
  | hn l : In PNone l -> has_none (RTuple l).

  Lemma rect_iff nr nc (m : mat) : rect nr nc m = true <-> is_matrix nr nc m.
  Proof.
    unfold rect, is_matrix. rewrite andb_true_iff, Nat.eqb_eq, forallb_forall.
    split; intros [H1 H2]; split; auto; intros r Hr; apply Nat.eqb_eq; auto.
  Qed.
  Lemma lincomb_length n : forall (c : vec) cols, (forall r, In r cols -> List.length r = n) ->
    List.length (lincomb n c cols) = n.
  Proof.
    induction c as [|a c IH]; intros [|col cols] H; simpl; unfold vzeros; try apply repeat_length.
    assert (H1 := H col (or_introl eq_refl)).
    assert (H2 : List.length (lincomb n c cols) = n) by (apply IH; intros r Hr; apply H; now right).
    unfold vadd, vscale. rewrite map2_length; rewrite map_length; congruence.
  Qed.

  Lemma evaluated_contract r pf n hess h' f x :
    fun_evaluate (c_nargout C) (c_resfun C) r = Ok pf ->
    pr_hess (o_happ st) n h0 pf = Ok (hess, h') ->
    checkdims n pf = Ok tt -> typed_fout n pf x = Ok f ->
    contract n r.
  Proof.
    intros H1 Hh H2 H3. unfold fun_evaluate in H1. destruct r as [l| |]; try discriminate.
    destruct (Nat.eqb_spec (List.length l) (c_nargout C)) as [Hn|]; [|discriminate].
    cbn [negb] in H1. destruct (c_resfun C) eqn:Er.
    - destruct l as [|[] [|[] [|? ?]]]; try discriminate.
      destruct (_ && _) eqn:Eb in H1; [|discriminate]. injection H1 as <-.
      apply andb_true_iff in Eb as [Eb1 Eb2]. apply Nat.eqb_eq in Eb1.
      assert (Hm : is_matrix (List.length v) ncols rows).
      { apply rect_iff. unfold rect. rewrite Eb1, Nat.eqb_refl. exact Eb2. }
      apply typed_fout_inv in H3 as (_ & Hg & _ & Hl & _). simpl in Hg. injection Hg as Hg.
      rewrite <- Hg in Hl. unfold vecmat in Hl. rewrite lincomb_length in Hl by apply Hm. subst ncols.
      now constructor.
    - destruct l as [|f0 [|g0 [|h1 [|? ?]]]]; try discriminate; injection H1 as <-;
        apply typed_fout_inv in H3 as (Ef & Eg & _ & Hl & _ & _ & Hhe); cbn [pf_fval pf_grad pf_hess] in *; subst.
      + constructor; auto.
      + destruct (fo_hess f) as [hf|].
        * destruct Hhe as (nc & -> & Hr). apply rect_iff in Hr.
          unfold checkdims in H2. cbn [pf_fval pf_grad pf_hess] in H2.
          rewrite Nat.eqb_refl in H2. cbn [negb] in H2.
          destruct (Nat.eqb_spec (List.length hf) nc); [|discriminate]. cbn [negb] in H2.
          subst nc. destruct Hr as [Hr1 Hr2]. rewrite Hr1.
          constructor; auto. now split.
        * subst h1. constructor; auto. intros Hnone. rewrite Hnone in Hh. discriminate.
  Qed.

  (** what the constructor guarantees (C03_nargout): without a scheme three outputs are expected *)
  Hypothesis Hcons : o_happ st = None -> c_nargout C = 3%nat.

  Theorem C04_contract_enforced r st' :
    minimize E C fuel ndim x0 sid h0 st = (r, st') ->
    (* nothing was evaluated, because the start point was rejected *)
    (o_evals st' = o_evals st /\ (r = Err EValue \/ r = Err ERuntime))
    \/ exists x out, (* first evaluation *)
        (exists rest, o_evals st' = o_evals st ++ (x, out) :: rest)
        /\ (contract (List.length x0) out
            \/ (o_evals st' = o_evals st ++ [(x, out)] /\
                exists e, r = Err e /\ (e = EValue \/ (e = EUser /\ out = RRaise)
                                        \/ (e = EAttr /\ (has_none out \/ h0 = H0OtherStr))))).
  Proof.
    intros H. unfold minimize in H.
    assert (He : o_evals (pr_s0 E C sid st) = o_evals st)
      by (unfold pr_s0; destruct (pr_id sid); reflexivity).
    apply bind_inv in H as [(f & s1 & Hp & Hrest)|(e & Hp & ->)].
    - apply prepare_inv in Hp. inversion Hp as [| | | | | |pf hess h' f' Hd Hb Hev Hh Hc Ht Hf]; subst.
      right. exists (nudge C x0), (pr_ret E C x0 st). split.
      + assert (E1 : o_evals (set_o_conv false (pr_s4 E C sid x0 hess h' f st))
                     = o_evals st ++ [(nudge C x0, pr_ret E C x0 st)]).
        { unfold pr_s4. destruct better; reflexivity. }
        assert (Hg : exists more, o_evals st' = o_evals st ++ [(nudge C x0, pr_ret E C x0 st)] ++ more).
        2:{ destruct Hg as (more & Hg). exists more. rewrite Hg. reflexivity. }
        set (s1 := set_o_conv _ _) in *.
        assert (Hl : forall f s r1 s2, loop E C fuel f s = (r1, s2) -> exists more, o_evals s2 = o_evals s ++ more).
        { clear. induction fuel as [|k IH]; intros f s r1 s2 H; simpl in H.
          - apply pair_equal_spec in H as [_ <-]. exists []. now rewrite app_nil_r.
          - apply bind_inv in H as [(b & sa & H1 & H)|(e & H1 & ->)].
            2:{ rewrite check_continue_run in H1.
                destruct o_conv; [discriminate|]. destruct (_ <=? _)%Z; [discriminate|].
                cbv zeta in H1. destruct out_of_time; [discriminate|].
                destruct (_ <? _)%num; discriminate. }
            assert (Hs : o_evals sa = o_evals s).
            { destruct b. apply check_continue_true in H1 as (-> & _); reflexivity.
              apply check_continue_false in H1 as (fl & j & ->); reflexivity. }
            destruct b.
            + apply bind_inv in H as [(f' & sb & H2 & H)|(e & H2 & ->)].
              * apply IH in H as (m2 & Hm). apply iteration_frame in H2 as [[(m1 & Hm1 & _) _ _] _].
                exists (m1 ++ m2). rewrite Hm, Hm1, Hs, app_assoc. reflexivity.
              * apply iteration_frame in H2 as [[(m1 & Hm1 & _) _ _] _]. exists m1. congruence.
            + apply pair_equal_spec in H as [_ <-]. exists []. rewrite app_nil_r. congruence. }
        apply bind_inv in Hrest as [([] & s2 & H2 & H)|(e & H2 & ->)].
        2:{ apply Hl in H2 as (m & Hm). exists m. rewrite Hm, E1. now rewrite app_assoc. }
        apply Hl in H2 as (m & Hm).
        assert (Hw : o_evals st' = o_evals s2).
        { apply bind_inv in H as [([] & s3 & H3 & H)|(e & H3 & ->)].
          - unfold get, ret in H. erewrite bind_ok in H by reflexivity. cbv beta in H. apply pair_equal_spec in H as [_ <-].
            apply write_history_inv in H3 as [(_ & _ & ->)|[(file & _ & _ & _ & ->)|(file & _ & _ & -> & _)]]; reflexivity.
          - apply write_history_inv in H3 as [(_ & _ & ->)|[(file & _ & _ & _ & ->)|(file & _ & _ & -> & _)]]; reflexivity. }
        exists m. rewrite Hw, Hm, E1. now rewrite app_assoc.
      + left. eapply evaluated_contract; eauto.
    - apply prepare_inv in Hp.
      inversion Hp as [Hd|Hd Hb|e' Hd Hb Hev|pf e' Hd Hb Hev Hh|pf hess h' e' Hd Hb Hev Hh Hs
                      |pf hess h' f' Hd Hb Hev Hh Hc Ht Hf|]; subst.
      + left. split; auto.
      + left. split; auto.
      + right. exists (nudge C x0), (pr_ret E C x0 st). split; [exists []; reflexivity|].
        right. split; [reflexivity|]. exists e. split; auto.
        assert (H2 := Hev). apply fun_evaluate_err in Hev as [->| ->]; auto.
        right; left. split; auto. unfold fun_evaluate in H2.
        destruct (pr_ret E C x0 st) as [l| |]; auto; try discriminate.
        destruct (negb _); try discriminate. destruct (c_resfun C).
        * destruct l as [|[] [|[] [|? ?]]]; try discriminate. destruct (_ && _); discriminate.
        * destruct l as [|? [|? [|? [|? ?]]]]; discriminate.
      + right. exists (nudge C x0), (pr_ret E C x0 st). split; [exists []; reflexivity|].
        right. split; [reflexivity|]. exists e. split; auto.
        assert (H2 := Hh). apply pr_hess_err in Hh as [->| ->]; auto. right; right. split; auto.
        unfold pr_hess in H2. destruct (o_happ st) as [h|].
        * destruct (pr_hess0 h0 pf) eqn:E0.
          -- destruct h_init eqn:Ei; [discriminate|]. apply h_init_err in Ei. congruence.
          -- right. unfold pr_hess0 in E0. destruct h0; try discriminate; auto.
             destruct (pf_hess pf); congruence.
        * specialize (Hcons eq_refl). left. destruct (pf_hess pf) eqn:Ep; try discriminate.
          unfold fun_evaluate in Hev. destruct (pr_ret E C x0 st) as [l| |]; try discriminate.
          constructor. rewrite Hcons in Hev. destruct (Nat.eqb_spec (List.length l) 3); [|discriminate].
          cbn [negb] in Hev. destruct (c_resfun C).
          -- destruct l as [|[] [|[] [|? ?]]]; try discriminate.
          -- destruct l as [|f0 [|g0 [|h1 [|? ?]]]]; try discriminate; injection Hev as <-; simpl in Ep.
             subst. simpl. auto.
      + right. exists (nudge C x0), (pr_ret E C x0 st). split; [exists []; reflexivity|].
        right. split; [reflexivity|]. exists e. split; auto.
        destruct Hs as [Hs|Hs]; [|apply typed_fout_err in Hs; auto].
        assert (H2 := Hs). apply checkdims_err in Hs as [->| ->]; auto. right; right. split; auto. left.
        unfold checkdims in H2. destruct (pf_fval pf); try discriminate.
        destruct (pf_grad pf) eqn:Ep; try discriminate.
        * unfold fun_evaluate in Hev. destruct (pr_ret E C x0 st) as [l| |]; try discriminate.
          constructor. destruct (negb _); try discriminate. destruct (c_resfun C).
          -- destruct l as [|[] [|[] [|? ?]]]; try discriminate. destruct (_ && _) in Hev; [|discriminate].
             injection Hev as <-. discriminate.
          -- destruct l as [|f0 [|g0 [|h1 [|? ?]]]]; try discriminate; injection Hev as <-; simpl in Ep;
             subst; simpl; auto.
        * destruct (negb _); try discriminate. destruct (pf_hess pf); try discriminate.
          destruct (negb _); try discriminate. destruct (negb _); discriminate.
      + right. exists (nudge C x0), (pr_ret E C x0 st). split.
        * exists []. unfold pr_s4. destruct better; reflexivity.
        * left. eapply evaluated_contract; eauto.
  Qed.
End C04.

(** the number of outputs the constructor expects, written out *)
Theorem C03_nargout {T} {N : Num T} {NI : NumInt T} parses lb ub (d : odict T) h resfun files c st :
  optimizer_init parses lb ub d h resfun files = Ok (c, st) ->
  o_happ st = h /\ c_resfun c = resfun /\
  c_nargout c = match h with
                | None => 3              (* fval, grad, hess *)
                | Some (HIter _) => 2    (* fval, grad *)
                | Some (HFixed _ _ _ _) | Some (HFraction _ _ _ _) => 3
                | Some (HFX _ _ _) | Some (HStruct _) => 2   (* res, sres *)
                end%nat.
Proof.
  unfold optimizer_init.
  destruct (match h with Some _ => _ | None => _ end) as [[]|]; cbn [rbind]; [|discriminate].
  destruct validate_options; cbn [rbind]; [|discriminate].
  destruct opts_of; cbn [rbind]; [|discriminate]. destruct (_ && _); [discriminate|].
  intros H. injection H as <- <-. repeat split; auto. destruct h as [[]|]; reflexivity.
Qed.

(** and an output meeting the contract, with finite numbers, is accepted (hess0 not given) *)
Theorem C04_valid_output_accepted {T} {N : Num T} (E : env T) (C : cfg T) ndim x0 sid st out :
  (ndim <= 1)%nat -> (0 < List.length x0)%nat ->
  List.length x0 = List.length (c_lb C) -> List.length x0 = List.length (c_ub C) ->
  in_bounds C (nudge C x0) = true ->
  e_obj E (List.length (o_evals st)) (nudge C x0) = out ->
  contract C st (List.length x0) out ->
  (forall pf, fun_evaluate (c_nargout C) (c_resfun C) out = Ok pf ->
     match pf_fval pf, pf_grad pf with PScal f, PVec g => nisfin f = true /\ vfinite g = true | _, _ => True end
     /\ match pf_hess pf with PMat _ h => mfinite h = true | _ => True end) ->
  (c_nargout C = 3%nat \/ o_happ st <> None) ->
  exists f st', prepare E C ndim x0 sid H0None st = (Ok f, st').
Proof.
  intros Hd1 Hd2 Hd3 Hd4 Hb Ho Hc Hfin Hn.
  assert (Hd : pr_dims C ndim x0 = true).
  { unfold pr_dims. rewrite <- Hd3, <- Hd4, Nat.eqb_refl. apply andb_true_iff. split.
    - rewrite andb_true_r. destruct (Nat.ltb_spec 1 ndim); [lia|reflexivity].
    - destruct (Nat.eqb_spec (List.length x0) 0); [lia|reflexivity]. }
  assert (Hpf : exists pf, fun_evaluate (c_nargout C) (c_resfun C) out = Ok pf
      /\ checkdims (List.length x0) pf = Ok tt
      /\ (forall x, exists f, typed_fout (List.length x0) pf x = Ok f
            /\ pf_fval pf = PScal (fo_fval f) /\ pf_grad pf = PVec (fo_grad f)
            /\ match fo_hess f with None => True | Some h => exists nc, pf_hess pf = PMat nc h end)
      /\ (o_happ st = None -> exists nc rows, pf_hess pf = PMat nc rows)).
  { inversion Hc as [rs j Hr Hna Hm|f g Hr Hna Hg|f g h Hr Hna Hg Hm|f g Hr Hna Hh Hg]; subst out;
      rewrite Hr, Hna; unfold fun_evaluate; cbn [List.length Nat.eqb negb].
    - destruct Hm as [Hm1 Hm2]. rewrite <- Hm1, Nat.eqb_refl. cbn [andb].
      rewrite (proj2 (forallb_forall _ j)) by (intros r Hi; apply Nat.eqb_eq; auto).
      eexists. split; [reflexivity|].
      set (J := map (fun i => map (fun row => nth i row n0) j) (seq 0 (List.length x0))).
      assert (HJ : List.length J = List.length x0) by (unfold J; now rewrite map_length, seq_length).
      assert (Hg : List.length (vecmat (List.length x0) rs j) = List.length x0) by (apply lincomb_length; auto).
      assert (HR : rect (List.length x0) (List.length x0) (map (fun a => map (fun b => dot a b) J) J) = true).
      { unfold rect. rewrite map_length, HJ, Nat.eqb_refl. cbn [andb]. apply forallb_forall. intros r Hi.
        apply in_map_iff in Hi as (a & <- & _). rewrite map_length, HJ. apply Nat.eqb_refl. }
      unfold checkdims, typed_fout. cbn [pf_fval pf_grad pf_hess]. rewrite Hg, Nat.eqb_refl. cbn [negb].
      rewrite map_length, HJ, Nat.eqb_refl. cbn [negb]. rewrite HR.
      split; [reflexivity|]. split; [|eauto]. intros x. eexists. split; [reflexivity|]. simpl. eauto.
    - eexists. split; [reflexivity|]. unfold checkdims, typed_fout. cbn [pf_fval pf_grad pf_hess].
      rewrite Hg, Nat.eqb_refl. split; [reflexivity|]. split.
      + intros x. eexists. split; [reflexivity|]. simpl. auto.
      + intros Hh. destruct Hn; congruence.
    - eexists. split; [reflexivity|]. unfold checkdims, typed_fout. cbn [pf_fval pf_grad pf_hess].
      rewrite Hg, (proj2 (rect_iff _ _ _) Hm). destruct Hm as [Hm1 Hm2]. rewrite Hm1, !Nat.eqb_refl.
      split; [reflexivity|]. split; [|eauto]. intros x. eexists. split; [reflexivity|]. simpl. eauto.
    - eexists. split; [reflexivity|]. unfold checkdims, typed_fout. cbn [pf_fval pf_grad pf_hess].
      rewrite Hg, Nat.eqb_refl. split; [reflexivity|]. split.
      + intros x. eexists. split; [reflexivity|]. simpl. auto.
      + intros Hx. congruence. }
  destruct Hpf as (pf & Hev & Hck & Hty & Hhn).
  assert (Hh : exists hess h', pr_hess (o_happ st) (List.length x0) H0None pf = Ok (hess, h')).
  { unfold pr_hess, pr_hess0. destruct (o_happ st) as [h|].
    - destruct h; simpl; unfold ih_init, sh_init, hb_init; eauto.
    - destruct (Hhn eq_refl) as (nc & rows & ->). eauto. }
  destruct Hh as (hess & h' & Hh).
  destruct (prepare E C ndim x0 sid H0None st) as [r st'] eqn:Ep.
  assert (Hp := Ep). apply prepare_inv in Hp.
  assert (Eo : pr_ret E C x0 st = out) by exact Ho.
  inversion Hp as [Hd'|Hd' Hb'|e' Hd' Hb' Hev'|pf' e' Hd' Hb' Hev' Hh'|pf' hess' h1 e' Hd' Hb' Hev' Hh' Hs
                      |pf' hess' h1 f' Hd' Hb' Hev' Hh' Hc' Ht' Hf'|pf' hess' h1 f' Hd' Hb' Hev' Hh' Hc' Ht' Hf'];
    clear Hp; try congruence; rewrite Eo in Hev'; rewrite Hev in Hev'; try discriminate;
    injection Hev' as <-; try congruence.
  - destruct Hs as [Hs|Hs]; [congruence|]. destruct (Hty (List.length (o_heap st))) as (f & Hf & _). congruence.
  - exfalso. destruct (Hty (List.length (o_heap st))) as (f & Hf & F1 & F2 & F3).
    rewrite Hf in Ht'. injection Ht' as <-. destruct (Hfin pf Hev) as [G1 G2]. rewrite F1, F2 in G1.
    unfold all_finite in Hf'. destruct G1 as [G3 G4]. rewrite G3, G4 in Hf'. cbn [andb] in Hf'.
    destruct (fo_hess f) as [h|]; [|discriminate]. destruct F3 as (nc & F3). rewrite F3 in G2. congruence.
  - eauto.
Qed.

Example C04_sumsq_meets_contract : forall x, List.length x = 2%nat ->
  contract (fst (free 2 [])) (snd (free 2 [])) 2 (sumsq 0 x).
Proof.
  intros [|a [|b [|? ?]]] Hx; try discriminate. unfold sumsq. cbn [List.length].
  apply ct_hess; [reflexivity|reflexivity|reflexivity|].
  split; [reflexivity|]. intros r [<-|[<-|[]]]; reflexivity.
Qed.
(** gradient too short: ValueError after a single evaluation *)
Example C04_short_gradient :
  exists st', run_of (fun _ x => RTuple [PScal n0; PVec [n0]; PMat 2 [[n0; n0]; [n0; n0]]]) (free 2 []) 5 [n1; n1]
     = (Err EValue, st') /\ List.length (o_evals st') = 1%nat.
Proof.
  destruct (err_witness (fun e s => match e with EValue => Nat.eqb (List.length (o_evals s)) 1 | _ => false end)
    (run_of (fun _ x => RTuple [PScal n0; PVec [n0]; PMat 2 [[n0; n0]; [n0; n0]]]) (free 2 []) 5 [n1; n1]))
    as (e & s & Hr & Hp).
  { vm_compute. reflexivity. }
  exists s. destruct e; try discriminate. split; auto. now apply Nat.eqb_eq.
Qed.
