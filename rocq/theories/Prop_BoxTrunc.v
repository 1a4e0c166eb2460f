(** C12: the trial points of truncated candidates are in the box in double precision.
    A truncated candidate puts the coordinate that would hit a bound a factor theta short of it and goes on in the other
    coordinates; so no coordinate ever starts from a bound, as happens for reflected candidates (Prop_BoxReflect.v). *)
From Coq Require Import ZArith String List Bool Reals Lra Lia Psatz.
From Flocq Require Import Core BinarySingleNaN.
From Verif Require Import Num Constants Subproblem HessApprox Steps TrustRegion Minimize
  ER F64 NumFacts Argmin Cand StepFacts Spec Run Witness Prop_Box Prop_BoxF64.
Import ListNotations.
Local Open Scope list_scope.
Local Open Scope R_scope.
Local Open Scope num_scope.

(** ** zero or NaN *)
Definition zn (a : F64) : Prop := match a with B754_zero _ => True | B754_nan => True | _ => False end.
Lemma zn_mul_l (a b : F64) : zn a -> zn (a * b). Proof. destruct a; cbn [zn]; try tauto; destruct b; intros _; exact I. Qed.
Lemma zn_mul_r (a b : F64) : zn b -> zn (a * b). Proof. destruct b; cbn [zn]; try tauto; destruct a; intros _; exact I. Qed.
Lemma zn_add (a b : F64) : zn a -> zn b -> zn (a + b).
Proof. destruct a as [[]| | |]; cbn [zn]; try tauto; destruct b as [[]| | |]; cbn [zn]; try tauto; intros _ _; exact I. Qed.
Lemma zn_div (a b : F64) : zn a -> zn (a / b). Proof. destruct a; cbn [zn]; try tauto; destruct b; intros _; exact I. Qed.
Lemma zn_zero (a : F64) : zn a -> is_finite a = true -> B2R a = 0%R.
Proof. destruct a; cbn; try tauto; try discriminate. Qed.
Definition zcol (i : nat) (v : list F64) : Prop := zn (nth i v nnan).
Lemma nth_map_zn (f : F64 -> F64) v i : (forall a, zn a -> zn (f a)) -> zcol i v -> zcol i (map f v).
Proof.
  intros Hf H. unfold zcol in *. destruct (Nat.lt_ge_cases i (List.length v)) as [Hi|Hi].
  - rewrite (nth_indep _ nnan (f nnan)) by now rewrite map_length. rewrite map_nth. auto.
  - rewrite nth_overflow by (rewrite map_length; lia). exact I.
Qed.
Lemma zcol_map2 (f : F64 -> F64 -> F64) : forall a b i, (forall p q, zn q -> zn p -> zn (f p q)) -> zcol i a -> zcol i b -> zcol i (map2 f a b).
Proof.
  unfold zcol. induction a as [|p a IH]; intros [|q b] [|i] Hf Ha Hb; cbn [map2 nth] in *; auto; try exact I.
Qed.
Lemma zcol_vmul d : forall v i, zcol i v -> zcol i (vmul d v).
Proof.
  unfold zcol, vmul. induction d as [|p d IH]; intros [|q v] [|i] H; cbn [map2 nth] in *; auto; try exact I. now apply zn_mul_r.
Qed.
Lemma zcol_vadd a b i : zcol i a -> zcol i b -> zcol i (vadd a b).
Proof. intros Ha Hb. apply zcol_map2; auto. intros p q Hq Hp. now apply zn_add. Qed.
Lemma zcol_lincomb n i : forall cols c, Forall (zcol i) cols -> zcol i (lincomb n c cols).
Proof.
  assert (Z : zcol i (vzeros n)).
  { unfold zcol, vzeros. destruct (Nat.lt_ge_cases i n) as [Hi|Hi].
    - rewrite (nth_error_nth _ _ nnan (nth_error_repeat n0 Hi)). exact I.
    - rewrite nth_overflow by (rewrite repeat_length; lia). exact I. }
  induction cols as [|col cols IH]; intros [|a c] H; cbn [lincomb]; try exact Z.
  inversion H; subst. apply zcol_vadd; [|auto]. apply nth_map_zn; auto. intros b Hb. now apply zn_mul_r.
Qed.
Lemma zcol_normalize i v : zcol i v -> zcol i (normalize v).
Proof.
  intros H. unfold normalize. destruct (_ >? _); [|exact H]. unfold vdivs. apply nth_map_zn; auto. intros a Ha. now apply zn_div.
Qed.

Lemma nth_mapi_n (f : nat -> F64 -> F64) l i : (i < List.length l)%nat -> nth i (mapi f l) nnan = f i (nth i l nnan).
Proof.
  unfold mapi. assert (G : forall k j, (j < List.length l)%nat -> nth j (mapi_from f k l) nnan = f (k + j)%nat (nth j l nnan)).
  { clear. induction l as [|a l IH]; intros k j H; [simpl in H; lia|]. destruct j; simpl; [now rewrite Nat.add_0_r|].
    rewrite IH by (simpl in H; lia). f_equal. lia. }
  intros H. now rewrite G.
Qed.
Lemma mapi_len {A B} (f : nat -> A -> B) l : List.length (mapi f l) = List.length l.
Proof. unfold mapi. generalize 0%nat. induction l; intros k; simpl; auto. Qed.
Lemma zcol_trunc idx i : forall v, (mem i idx = true \/ zcol i v) -> zcol i (mapi (fun i a => if mem i idx then n0 else a) v).
Proof.
  intros v H. unfold zcol in *. destruct (Nat.lt_ge_cases i (List.length v)) as [Hi|Hi].
  - rewrite nth_mapi_n by auto. destruct (mem i idx) eqn:E; [exact I|]. destruct H as [H|H]; [discriminate|exact H].
  - rewrite nth_overflow by (rewrite mapi_len; lia). exact I.
Qed.
Lemma zcol_subspace idx sub i : (mem i idx = true \/ Forall (zcol i) sub) -> Forall (zcol i) (trunc_subspace idx sub).
Proof.
  intros H. unfold trunc_subspace. apply Forall_forall. intros v Hv. apply in_map_iff in Hv as (w & <- & Hw).
  apply zcol_normalize. apply filter_In in Hw as [Hw _]. apply in_map_iff in Hw as (u & <- & Hu). apply zcol_trunc.
  destruct H as [H|H]; [now left|right]. apply (proj1 (Forall_forall _ _) H), Hu.
Qed.

Lemma er_mul_comm a b : er_mul a b = er_mul b a.
Proof. destruct a, b; cbn [er_mul]; rewrite ?(Rmult_comm r); auto. Qed.

(** ** the chain of truncated candidates *)
Section Chain.
  Variables (O : StepOracles F64) (A : sargs F64).
  Notation x := (a_x A).
  Notation n := (List.length (a_x A)).
  Hypothesis Hbox : in_box (a_lb A) (a_ub A) x.
  Hypothesis Hne : x <> [].
  Hypothesis Hfin : forall i, (i < n)%nat -> is_finite (nth i x nnan) = true.
  Hypothesis Hth : (0 < B2R (a_theta A) <= 1 - bpow radix2 (-50))%R.

  Definition at_ (v : list F64) i := nth i v nnan.
  Record chained (p : step F64) : Prop := mkChained {
    ch_lens0 : List.length (st_s0 p) = n;
    ch_lenx : List.length (st_x p) = n;
    ch_theta : st_theta p = a_theta A;
    ch_br : st_br p = breakpoints (st_x p) (st_og_s p) (a_lb A) (a_ub A);
    ch_minbr : st_minbr p = npmin (st_br p);
    ch_iminbr : st_iminbr p = where_ (map (fun b => b =? st_minbr p) (st_br p));
    ch_alpha : st_alpha p = npmin [n1; a_theta A * st_minbr p];
    ch_s : st_s p = vscaler (st_og_s p) (st_alpha p);
    ch_coord : forall i, (i < n)%nat ->
      (emb (at_ (st_x p) i) = emb (at_ x i) /\ emb (at_ (st_s0 p) i) = Fin 0)
      \/ (zcol i (st_og_s p) /\ Forall (zcol i) (st_subspace p) /\ emb (at_ (st_x p) i) = emb (at_ x i + at_ (st_s0 p) i)
          /\ at_ (a_lb A) i <=? at_ (st_x p) i = true /\ at_ (st_x p) i <=? at_ (a_ub A) i = true)
  }.
  (** the proposed step is finite, and no distance to a bound, divided by the step, underflows *)
  Definition finite_proposal (p : step F64) : Prop :=
    List.length (st_og_s p) = n /\ (forall i, (i < n)%nat -> is_finite (nth i (st_og_s p) nnan) = true)
    /\ Forall no_underflow (breakpoints (st_x p) (st_og_s p) (a_lb A) (a_ub A)).

  Lemma theta8 : (0 < B2R (a_theta A) <= 1 - 8 * uro)%R.
  Proof.
    replace (8 * uro)%R with (bpow radix2 (-50)); [exact Hth|].
    unfold uro. change (-50)%Z with (3 + -53)%Z. rewrite (bpow_plus radix2 3 (-53)).
    change (bpow radix2 3) with 8%R. reflexivity.
  Qed.
  Lemma emb_finite (a b : F64) : emb a = emb b -> is_finite b = true -> is_finite a = true.
  Proof. intros E H. rewrite (emb_fin b H) in E. destruct a as [|[]| |]; cbn in *; auto; discriminate. Qed.

  Lemma in_x i : (i < n)%nat -> at_ (a_lb A) i <=? at_ x i = true /\ at_ x i <=? at_ (a_ub A) i = true.
  Proof. intros Hi. destruct Hbox as (_ & _ & H). apply H, Hi. Qed.
  (** a free coordinate is in the box *)
  Lemma free_in p i : (i < n)%nat -> emb (at_ (st_x p) i) = emb (at_ x i) ->
    is_finite (at_ (st_x p) i) = true /\ at_ (a_lb A) i <=? at_ (st_x p) i = true /\ at_ (st_x p) i <=? at_ (a_ub A) i = true.
  Proof.
    intros Hi E. split; [exact (emb_finite _ _ E (Hfin i Hi))|]. rewrite !emb_leb, E, <- !emb_leb. now apply in_x.
  Qed.
  Lemma bp_zero (a s l u : F64) : B2R s = 0%R -> is_finite s = true -> breakpoint a s l u = ninf.
  Proof.
    intros E F. unfold breakpoint. rewrite emb_ltb, emb_abs, emb_0, (emb_fin _ F), E. cbn. rewrite Rabs_R0.
    destruct (Rltb_spec 0 0) as [Hc|_]; [lra|]. reflexivity.
  Qed.
  Lemma bp_nonneg p : chained p -> finite_proposal p -> forall i, (i < n)%nat ->
    er_leb (Fin 0) (emb (breakpoint (at_ (st_x p) i) (at_ (st_og_s p) i) (at_ (a_lb A) i) (at_ (a_ub A) i))) = true.
  Proof.
    intros Hc (L & F & _) i Hi. destruct (Req_dec (B2R (at_ (st_og_s p) i)) 0) as [E0|E0].
    - rewrite bp_zero by (auto; apply F; auto). reflexivity.
    - destruct (ch_coord p Hc i Hi) as [[E _]|(Z & _)].
      + destruct (free_in p i Hi E) as (F1 & L1 & U1). apply breakpoint_emb; auto. apply F; auto.
      + exfalso. apply E0. apply zn_zero; [exact Z|apply F; auto].
  Qed.
  Lemma bp_in p : chained p -> finite_proposal p -> forall i, (i < n)%nat ->
    In (breakpoint (at_ (st_x p) i) (at_ (st_og_s p) i) (at_ (a_lb A) i) (at_ (a_ub A) i)) (st_br p)
    /\ at_ (st_br p) i = breakpoint (at_ (st_x p) i) (at_ (st_og_s p) i) (at_ (a_lb A) i) (at_ (a_ub A) i).
  Proof.
    intros Hc (L & _) i Hi. destruct Hbox as (Hl & Hu & _). rewrite (ch_br p Hc). pose proof (ch_lenx p Hc) as Lx. split.
    - apply breakpoints_in; congruence.
    - unfold at_. rewrite <- Lx in Hi, Hl, Hu, L. clear - Hi Hl Hu L. revert i Hi Hl Hu L.
      generalize (st_x p) (st_og_s p) (a_lb A) (a_ub A). intros a. induction a as [|a0 a IH]; intros s l u i Hi Hl Hu L; [cbn in Hi; lia|].
      destruct s, l, u; try discriminate. destruct i; [reflexivity|]. cbn [breakpoints nth]. cbn [List.length] in *. apply IH; lia.
  Qed.
  Lemma minbr_ok p : chained p -> finite_proposal p ->
    er_leb (Fin 0) (emb (st_minbr p)) = true /\ forall b, In b (st_br p) -> st_minbr p <=? b = true.
  Proof.
    intros Hc Hf. assert (Hbr : forall b, In b (st_br p) -> er_leb (Fin 0) (emb b) = true).
    { intros b Hb. rewrite (ch_br p Hc) in Hb. apply in_breakpoints in Hb as (i & H1 & H2 & H3 & H4 & ->).
      rewrite (ch_lenx p Hc) in H1. apply (bp_nonneg p Hc Hf i H1). }
    assert (H0 : st_br p <> []).
    { assert (H0n : (0 < n)%nat) by (destruct x; [congruence|cbn; lia]). destruct (bp_in p Hc Hf 0 H0n) as [Hi _].
      intros E. rewrite E in Hi. destruct Hi. }
    assert (Hnn : Forall (fun y : F64 => nisnan y = false) (st_br p)).
    { apply Forall_forall. intros b Hb. apply Hbr in Hb. rewrite emb_isnan. now apply er_le_nan in Hb. }
    destruct (npmin_spec (st_br p) H0 Hnn) as [Hmin Hmem]. rewrite (ch_minbr p Hc). split; [apply Hbr, Hmem|exact Hmin].
  Qed.
  (** a free coordinate after the step-back *)
  Lemma free_step p i : chained p -> finite_proposal p -> (i < n)%nat -> emb (at_ (st_x p) i) = emb (at_ x i) ->
    at_ (a_lb A) i <=? at_ (st_x p) i + at_ (st_og_s p) i * st_alpha p = true
    /\ at_ (st_x p) i + at_ (st_og_s p) i * st_alpha p <=? at_ (a_ub A) i = true.
  Proof.
    intros Hc Hf Hi E. destruct (free_in p i Hi E) as (F1 & L1 & U1). destruct (minbr_ok p Hc Hf) as [Hm Hall].
    destruct (bp_in p Hc Hf i Hi) as [Hin _]. pose proof (bp_nonneg p Hc Hf i Hi) as Hnn. destruct Hf as (L & F & Hu).
    rewrite (ch_alpha p Hc). apply coordinate_f64; auto; [apply F; auto|apply theta8|].
    intros _. split; [apply Hall, Hin|]. apply usable_of; [exact Hnn|]. rewrite <- (ch_br p Hc) in Hu. apply (proj1 (Forall_forall _ _) Hu), Hin.
  Qed.

  Lemma alpha_fin p : chained p -> finite_proposal p -> exists al, emb (st_alpha p) = Fin al.
  Proof.
    intros Hc Hf. destruct (minbr_ok p Hc Hf) as [Hm _]. rewrite (ch_alpha p Hc).
    destruct (alpha_emb (a_theta A) (st_minbr p) theta8 Hm) as (al & E & _). now exists al.
  Qed.
  Lemma at_s p i : chained p -> (i < List.length (st_og_s p))%nat -> at_ (st_s p) i = at_ (st_og_s p) i * st_alpha p.
  Proof.
    intros Hc Hi. rewrite (ch_s p Hc). unfold at_, vscaler.
    rewrite (nth_indep _ nnan (nnan * st_alpha p)) by now rewrite map_length.
    apply (map_nth (fun v => v * st_alpha p)).
  Qed.
  Lemma emb_add_zero (a b : F64) : emb b = Fin 0 -> emb (a + b) = emb a.
  Proof. intros E. rewrite emb_add, E. destruct (emb a) eqn:Ea; cbn [er_add]; rewrite ?Rplus_0_r, <- Ea; apply rnd_emb. Qed.
  Lemma emb_zero_add (a b : F64) : emb a = Fin 0 -> emb (a + b) = emb b.
  Proof. intros E. rewrite emb_add, E. destruct (emb b) eqn:Eb; cbn [er_add]; rewrite ?Rplus_0_l, <- Eb; apply rnd_emb. Qed.
  Lemma emb_add_eq (a b c d : F64) : emb a = emb c -> emb b = emb d -> emb (a + b) = emb (c + d).
  Proof. intros E1 E2. now rewrite !emb_add, E1, E2. Qed.

  (** the trial point of a candidate of the chain is in the box *)
  Lemma chained_trial p : chained p -> finite_proposal p -> in_box (a_lb A) (a_ub A) (vadd (vadd x (st_s p)) (st_s0 p)).
  Proof.
    intros Hc Hf. pose proof Hf as (L & F & _). destruct Hbox as (Hl & Hu & _).
    assert (Ls : List.length (st_s p) = n) by (rewrite (ch_s p Hc); unfold vscaler; now rewrite map_length).
    pose proof (ch_lens0 p Hc) as L0.
    assert (L1 : List.length (vadd x (st_s p)) = n) by (unfold vadd; now apply map2_len).
    assert (L2 : List.length (vadd (vadd x (st_s p)) (st_s0 p)) = n) by (unfold vadd at 1; rewrite map2_len; congruence).
    split; [congruence|]. split; [congruence|]. rewrite L2. intros i Hi.
    assert (En : nth i (vadd (vadd x (st_s p)) (st_s0 p)) nnan = (at_ x i + at_ (st_s p) i) + at_ (st_s0 p) i).
    { unfold vadd at 1. rewrite (nth_m2 _ nnan nnan nnan) by congruence. f_equal. unfold vadd. now rewrite (nth_m2 _ nnan nnan nnan) by congruence. }
    rewrite En. pose proof (at_s p i Hc ltac:(congruence)) as Es. destruct (ch_coord p Hc i Hi) as [[E E0]|(Z & _ & E & Lo & Up)].
    - assert (K : emb ((at_ x i + at_ (st_s p) i) + at_ (st_s0 p) i) = emb (at_ (st_x p) i + at_ (st_og_s p) i * st_alpha p)).
      { rewrite emb_add_zero by exact E0. apply emb_add_eq; [now symmetry|now rewrite Es]. }
      pose proof (free_step p i Hc Hf Hi E) as [K1 K2]. rewrite !emb_leb, <- K, <- !emb_leb in K1. rewrite !emb_leb, <- K, <- !emb_leb in K2. split; assumption.
    - assert (Z0 : emb (at_ (st_s p) i) = Fin 0).
      { destruct (alpha_fin p Hc Hf) as (al & Ea). rewrite Es, emb_mul, Ea. unfold at_. rewrite (emb_fin _ (F i Hi)). unfold zcol in Z. rewrite (zn_zero _ Z (F i Hi)). cbn [er_mul]. rewrite Rmult_0_l. apply rnd_0. }
      assert (K : emb ((at_ x i + at_ (st_s p) i) + at_ (st_s0 p) i) = emb (at_ (st_x p) i)).
      { rewrite E. apply emb_add_eq; [now apply emb_add_zero|reflexivity]. }
      rewrite !emb_leb, <- K, <- !emb_leb in Lo, Up. split; assumption.
  Qed.

  (** the next candidate *)
  Lemma chained_next p c : chained p -> finite_proposal p -> st_alpha p =? n1 = false ->
    calculate O (tr_step_truncated A p) = Ok c -> chained c.
  Proof.
    intros Hc Hf Ha H. apply calculate_fields in H as (sc & ss & s & _ & Ess & Es & Hst & _).
    set (t := trunc_s0 p (st_s0 p) (st_og_s p)) in *.
    assert (Lt : List.length t = n) by (unfold t, trunc_s0; rewrite mapi_len; apply (ch_lens0 p Hc)).
    assert (E0 : st_s0 c = t) by (rewrite (sb_s0 _ _ _ _ _ Hst); reflexivity).
    assert (Ex : st_x c = vadd x t) by (rewrite (sb_x _ _ _ _ _ Hst); reflexivity).
    assert (Eb : st_subspace c = trunc_subspace (st_iminbr p) (st_subspace p)) by (rewrite (sb_subspace _ _ _ _ _ Hst); reflexivity).
    assert (Eo : st_og_s c = s) by apply (sb_og_s _ _ _ _ _ Hst).
    assert (Zs : forall i, Forall (zcol i) (st_subspace c) -> zcol i (st_og_s c)).
    { intros i Hz. rewrite Eb in Hz. rewrite Eo, Es. change (st_subspace (tr_step_truncated A p)) with (trunc_subspace (st_iminbr p) (st_subspace p)).
      assert (Zz : zcol i ss) by (rewrite Ess; change (st_subspace (tr_step_truncated A p)) with (trunc_subspace (st_iminbr p) (st_subspace p)); now apply zcol_lincomb).
      destruct (trunc_subspace _ _); [exact Zz|now apply zcol_vmul]. }
    constructor.
    - congruence.
    - rewrite Ex. unfold vadd. now apply map2_len.
    - rewrite (sb_theta _ _ _ _ _ Hst). reflexivity.
    - rewrite (sb_br _ _ _ _ _ Hst), Eo, (sb_x _ _ _ _ _ Hst). reflexivity.
    - apply (sb_minbr _ _ _ _ _ Hst).
    - apply (sb_iminbr _ _ _ _ _ Hst).
    - rewrite (sb_alpha _ _ _ _ _ Hst). reflexivity.
    - rewrite (sb_s _ _ _ _ _ Hst), Eo. reflexivity.
    - intros i Hi. pose proof (ch_lens0 p Hc) as L0.
      assert (Et : at_ t i = if mem i (st_iminbr p) then at_ (st_s0 p) i + st_theta p * nth i (st_br p) nnan * nth i (st_og_s p) nnan else at_ (st_s0 p) i).
      { unfold at_, t, trunc_s0. now rewrite nth_mapi_n by congruence. }
      assert (Exi : at_ (st_x c) i = at_ x i + at_ t i).
      { rewrite Ex. unfold at_, vadd. now rewrite (nth_m2 _ nnan nnan nnan) by congruence. }
      rewrite E0, Exi. destruct (bp_in p Hc Hf i Hi) as [_ Ebr]. fold (at_ (st_br p) i) (at_ (st_og_s p) i) in Et. rewrite (ch_theta p Hc) in Et.
      pose proof Hf as (Lo & Fo & _).
      assert (Im : mem i (st_iminbr p) = true -> at_ (st_br p) i =? st_minbr p = true).
      { rewrite (ch_iminbr p Hc), mem_where. intros H. destruct (Nat.lt_ge_cases i (List.length (st_br p))) as [Hi2|Hi2].
        - rewrite (nth_indep _ false ((fun b => b =? st_minbr p) nnan)) in H by now rewrite map_length.
          exact (eq_trans (eq_sym (map_nth (fun b => b =? st_minbr p) (st_br p) nnan i)) H).
        - rewrite nth_overflow in H by (rewrite map_length; lia). discriminate. }
      destruct (mem i (st_iminbr p)) eqn:Em.
      + specialize (Im eq_refl). assert (Eemb : emb (at_ (st_br p) i) = emb (st_minbr p)).
        { rewrite emb_eqb in Im. destruct (emb (at_ (st_br p) i)), (emb (st_minbr p)); cbn in Im; try discriminate; auto.
          f_equal. now destruct (Reqb_spec r r0). }
        assert (Ealpha : emb (a_theta A * at_ (st_br p) i) = emb (st_alpha p)).
        { rewrite emb_mul, Eemb, <- emb_mul. clear - Ha Hc. rewrite (ch_alpha p Hc) in Ha |- *.
          unfold npmin in Ha |- *. cbn [fold_left] in Ha |- *. unfold npmin2 in Ha |- *.
          destruct (nisnan n1) eqn:N1; [discriminate|]. destruct (nisnan (a_theta A * st_minbr p)); [reflexivity|].
          destruct (_ <? n1); [reflexivity|discriminate]. }
        destruct (ch_coord p Hc i Hi) as [[E Ez]|(Z & _)].
        * right. assert (Zc : Forall (zcol i) (st_subspace c)) by (rewrite Eb; apply zcol_subspace; now left).
          split; [now apply Zs|]. split; [exact Zc|]. split; [reflexivity|].
          assert (K : emb (at_ x i + at_ t i) = emb (at_ (st_x p) i + at_ (st_og_s p) i * st_alpha p)).
          { apply emb_add_eq; [now symmetry|]. rewrite Et, emb_zero_add by exact Ez. rewrite !emb_mul. rewrite emb_mul in Ealpha. rewrite Ealpha.
            f_equal. apply er_mul_comm. }
          pose proof (free_step p i Hc Hf Hi E) as [K1 K2].
          rewrite !emb_leb, <- K, <- !emb_leb in K1. rewrite !emb_leb, <- K, <- !emb_leb in K2. split; assumption.
        * exfalso. rewrite Ebr, (bp_zero _ _ _ _ (zn_zero _ Z (Fo i Hi)) (Fo i Hi)) in Ealpha.
          rewrite emb_mul, emb_inf in Ealpha.
          assert (Ft : is_finite (a_theta A) = true) by (destruct (a_theta A); auto; cbn [B2R] in Hth; lra).
          rewrite (emb_fin _ Ft) in Ealpha. cbn [er_mul] in Ealpha. unfold er_infmul in Ealpha.
          destruct (Rltb_spec 0 (B2R (a_theta A))); [|lra]. rewrite rnd_pinf in Ealpha.
          destruct (alpha_fin p Hc Hf) as (al & Eal). rewrite Eal in Ealpha. discriminate.
      + rewrite Et. destruct (ch_coord p Hc i Hi) as [[E Ez]|(Z & Zsub & E & Lo1 & Up1)].
        * left. split; [now apply emb_add_zero|exact Ez].
        * right. assert (Zc : Forall (zcol i) (st_subspace c)) by (rewrite Eb; apply zcol_subspace; now right).
          split; [now apply Zs|]. split; [exact Zc|]. split; [reflexivity|].
          rewrite !emb_leb, E, <- !emb_leb in Lo1, Up1. split; assumption.
  Qed.
End Chain.

(** ** truncated candidates come from the chain that starts at the main step *)
Section Members.
  Variables (O : StepOracles F64) (A : sargs F64) (P G : step F64 -> Prop).
  Hypothesis Hnext : forall p c, G p -> P p -> st_alpha p =? n1 = false -> calculate O (tr_step_truncated A p) = Ok c -> P c.
  Lemma loop_chain : forall k p l, G p -> P p -> truncate_loop k O A p = Ok l -> (forall c, In c l -> st_type c = "trt"%string -> G c) -> Forall P l.
  Proof.
    induction k as [|k IH]; intros p l Hg Hp H Hl; cbn [truncate_loop] in H; [discriminate|].
    destruct (st_subspace p); [injection H as <-; constructor|].
    destruct (st_alpha p =? n1) eqn:Ea; [injection H as <-; constructor|].
    destruct (calculate O (tr_step_truncated A p)) as [r|] eqn:Er; [|discriminate].
    destruct (truncate_loop k O A r) as [l'|] eqn:El; [|discriminate].
    injection H as <-. assert (Hr : P r) by (eapply Hnext; eauto). constructor; auto.
    pose proof Er as Et. apply calculate_fields in Et as (sc & ss & s & _ & _ & _ & Hst & _). pose proof (sb_type _ _ _ _ _ Hst) as Ht.
    apply (IH r l'); [|exact Hr|exact El|]. { apply Hl; [now left|exact Ht]. } intros c Hc. apply Hl. now right.
  Qed.
  Lemma back_chain p l : G p -> P p -> st_alpha p =? n1 = false -> stepback_truncate O A p = Ok l ->
    (forall c, In c l -> st_type c = "trt"%string -> G c) -> Forall P l.
  Proof.
    intros Hg Hp Ha H Hl. unfold stepback_truncate in H.
    destruct (calculate O (tr_step_truncated A p)) as [r|] eqn:Er; [|discriminate].
    destruct (truncate_loop _ O A r) as [l'|] eqn:El; [|discriminate].
    injection H as <-. assert (Hr : P r) by (eapply Hnext; eauto). constructor; auto.
    pose proof Er as Et. apply calculate_fields in Et as (sc & ss & s & _ & _ & _ & Hst & _). pose proof (sb_type _ _ _ _ _ Hst) as Ht.
    eapply loop_chain; [| |exact El|]; auto. { apply Hl; [now left|exact Ht]. } intros c Hc. apply Hl. now right.
  Qed.
  Lemma type_calc r c : calculate O r = Ok c -> st_type c = st_type r.
  Proof. intros H. apply calculate_fields in H as (sc & ss & s & _ & _ & _ & Hst & _). apply (sb_type _ _ _ _ _ Hst). Qed.
  Lemma trt_all sd strat l : candidates O A sd strat = Ok l ->
    (forall m, main_step O A sd = Ok m -> P m) ->
    (forall p, nth_error l 0 = Some p \/ In p l /\ st_type p = "trt"%string -> G p) ->
    forall c, In c l -> st_type c = "trt"%string -> P c.
  Proof.
    intros H Hm Hg c Hc Hty. unfold candidates in H. apply rbind_ok in H as (m & Em & H). pose proof (Hm m Em) as Pm.
    destruct (_ && _) eqn:Ec in H.
    2:{ injection H as <-. destruct Hc as [<-|[]]. exact Pm. }
    apply andb_true_iff in Ec as [Ea _]. apply lt_neq in Ea.
    apply rbind_ok in H as (ex & Hex & E). injection E as <-. destruct Hc as [<-|Hc]; [exact Pm|].
    assert (Gm : G m) by (apply Hg; now left).
    assert (Gx : forall c, In c ex -> st_type c = "trt"%string -> G c) by (intros c' Hc' Ht'; apply Hg; right; split; [now right|exact Ht']).
    unfold extra_steps in Hex. apply rbind_ok in Hex as (gs & Hgs & H). apply rbind_ok in H as (sr & Hsr & H).
    apply rbind_ok in H as (rf & Hrf & H). apply rbind_ok in H as (tt' & Htt & H).
    apply rbind_ok in H as (re & Hre & H). injection H as <-.
    cbn [In] in Hc. rewrite !in_app_iff in Hc. destruct Hc as [<-|[Hc|[Hc|[Hc|Hc]]]].
    - apply type_calc in Hgs. rewrite Hgs in Hty. discriminate Hty.
    - destruct (String.eqb _ _) in Hsr; [|injection Hsr as <-; destruct Hc].
      apply rbind_ok in Hsr as (r & Hr & E). injection E as <-. destruct Hc as [<-|[]]. apply type_calc in Hr. rewrite Hr in Hty. discriminate Hty.
    - destruct (_ || _) in Hrf; [|injection Hrf as <-; destruct Hc].
      assert (K : Forall (fun c => st_type c <> "trt"%string \/ c = m) rf).
      { apply (stepback_reflect_all O A (fun c => st_type c <> "trt"%string \/ c = m)) with (p := m); auto.
        intros p c' _ _ Hr. left. apply type_calc in Hr. rewrite Hr. discriminate. }
      destruct (proj1 (Forall_forall _ _) K c Hc) as [K'|K']; [contradiction|now subst].
    - destruct (_ || _) in Htt; [|injection Htt as <-; destruct Hc].
      assert (K : Forall P tt').
      { eapply back_chain; eauto. intros c' Hc'. apply Gx. right. rewrite !in_app_iff. auto. }
      apply (proj1 (Forall_forall _ _) K c Hc).
    - destruct (_ && _) in Hre; [|injection Hre as <-; destruct Hc].
      apply rbind_ok in Hre as (r & Hr & E). injection E as <-. destruct Hc as [<-|[]].
      apply refined_fields in Hr as (sc & ss & s & _ & _ & Hst & _). rewrite (sb_type _ _ _ _ _ Hst) in Hty. discriminate Hty.
  Qed.
End Members.

(** the main step is a chain of its own *)
Lemma main_new (O : StepOracles F64) A sd m : main_step O A sd = Ok m ->
  exists typ sub ss0 pd nw sc ss s, stepped (new_step typ A (a_x A) sub (zeros_of A) ss0 [] [] pd nw) s ss sc m.
Proof.
  intros H. apply main_step_cases in H as [(_ & r & Hr & H)|[(_ & H)|(_ & H)]].
  - apply tr2d_new in Hr as (sub & pd & nw & ->). apply calculate_fields in H as (sc & ss & s & _ & _ & _ & Hst & _).
    do 8 eexists. exact Hst.
  - apply calculate_fields in H as (sc & ss & s & _ & _ & _ & Hst & _). do 8 eexists. exact Hst.
  - apply cg_fields in H as (sub & sc & ss & ss0 & s & _ & _ & Hst & _). do 8 eexists. exact Hst.
Qed.
Lemma main_chained (O : StepOracles F64) A sd m : List.length (a_sg A) = List.length (a_x A) ->
  main_step O A sd = Ok m -> chained A m.
Proof.
  intros Hn H. apply main_new in H as (typ & sub & ss0 & pd & nw & sc & ss & s & Hst).
  set (r := new_step _ _ _ _ _ _ _ _ _ _) in Hst.
  constructor.
  - rewrite (sb_s0 _ _ _ _ _ Hst). change (st_s0 r) with (vzeros (T:=F64) (List.length (a_sg A))). unfold vzeros. now rewrite repeat_length.
  - rewrite (sb_x _ _ _ _ _ Hst). reflexivity.
  - rewrite (sb_theta _ _ _ _ _ Hst). reflexivity.
  - rewrite (sb_br _ _ _ _ _ Hst), (sb_og_s _ _ _ _ _ Hst), (sb_x _ _ _ _ _ Hst). reflexivity.
  - apply (sb_minbr _ _ _ _ _ Hst).
  - apply (sb_iminbr _ _ _ _ _ Hst).
  - rewrite (sb_alpha _ _ _ _ _ Hst). reflexivity.
  - rewrite (sb_s _ _ _ _ _ Hst), (sb_og_s _ _ _ _ _ Hst). reflexivity.
  - intros i Hi. left. split; [rewrite (sb_x _ _ _ _ _ Hst); reflexivity|].
    rewrite (sb_s0 _ _ _ _ _ Hst). change (st_s0 r) with (vzeros (T:=F64) (List.length (a_sg A))). unfold at_, vzeros.
    rewrite (nth_error_nth _ _ nnan (nth_error_repeat n0 (eq_ind_r (fun k => (i < k)%nat) Hi Hn))). apply emb_0.
Qed.
Lemma trt_length (O : StepOracles F64) A sd strat l c : candidates O A sd strat = Ok l -> In c l -> st_type c = "trt"%string ->
  List.length (st_s0 c) = List.length (a_sg A).
Proof.
  intros H Hc Ht. apply (trt_all O A (fun c => List.length (st_s0 c) = List.length (a_sg A)) (fun _ => True)) with (2 := H); auto.
  - intros p c' _ Hp _ Hr. apply calculate_fields in Hr as (sc & ss & s & _ & _ & _ & Hst & _). rewrite (sb_s0 _ _ _ _ _ Hst).
    change (st_s0 (tr_step_truncated A p)) with (trunc_s0 p (st_s0 p) (st_og_s p)). unfold trunc_s0. now rewrite mapi_len.
  - intros m Hm. apply main_new in Hm as (typ & sub & ss0 & pd & nw & sc & ss & s & Hst). rewrite (sb_s0 _ _ _ _ _ Hst).
    change (st_s0 _) with (vzeros (T:=F64) (List.length (a_sg A))). unfold vzeros. now rewrite repeat_length.
Qed.

(** ** the theorem *)
(** the steps the iteration compares: [proposes] picks one of them *)
Definition compares (E : env F64) (C : cfg F64) (s : opt F64) (l : list (step F64)) : Prop :=
  let x := deref s (o_x s) in
  let vdv := affine_scaling x (o_grad s) (c_lb C) (c_ub C) in
  candidates (e_la E) (tr_args x (o_grad s) (o_hess s) (map (fun p => nsqrt (nabs (fst p))) vdv)
      (o_delta s) (map snd vdv)
      (pymax (op_theta_max (c_opts C)) (n1 - norm_inf (vmul (map fst vdv) (o_grad s))))
      (c_lb C) (c_ub C)) (op_subspace_dim (c_opts C)) (op_stepback (c_opts C)) = Ok l.
(** the step before it was shortened has finite entries, one per coordinate, and no distance to a bound, divided by
    the entry, underflows *)
Definition regular_step (C : cfg F64) (x : list F64) (p : step F64) : Prop :=
  List.length (st_og_s p) = List.length x
  /\ (forall i, (i < List.length x)%nat -> is_finite (nth i (st_og_s p) nnan) = true)
  /\ Forall no_underflow (breakpoints (st_x p) (st_og_s p) (c_lb C) (c_ub C)).
Theorem C12_truncated_trial_point (E : env F64) (C : cfg F64) (s : opt F64) (sp : step F64) (l : list (step F64)) :
  proposes E C s sp -> compares E C s l -> st_type sp = "trt"%string ->
  let x := deref s (o_x s) in
  in_box (c_lb C) (c_ub C) x -> x <> [] ->
  (forall i, (i < List.length x)%nat -> is_finite (nth i x nnan) = true) ->
  (0 < B2R (st_theta sp) <= 1 - bpow radix2 (-50))%R ->
  (forall p, nth_error l 0 = Some p \/ In p l /\ st_type p = "trt"%string -> regular_step C x p) ->
  in_box (c_lb C) (c_ub C) (trial_point s sp).
Proof.
  intros (Htr & Hls & Hl0) Hl Hty x Hbox Hne Hf Hth Hg. unfold compares in Hl. cbv zeta in Htr, Hl.
  apply trust_region_in in Htr as (l' & Hl' & Hnth). rewrite Hl in Hl'. apply Ok_inj in Hl'. subst l'. apply nth_error_In in Hnth.
  pose proof (trt_length _ _ _ _ _ _ Hl Hnth Hty) as Hlen. rewrite Hl0 in Hlen. symmetry in Hlen.
  set (A := tr_args _ _ _ _ _ _ _ _ _) in *.
  assert (Et : st_theta sp = a_theta A).
  { apply (trt_all (e_la E) A (fun c => st_theta c = a_theta A) (fun _ => True)) with (2 := Hl) (c := sp); auto.
    - intros p c' _ _ _ Hr. apply calculate_fields in Hr as (sc & ss & s1 & _ & _ & _ & Hst & _). rewrite (sb_theta _ _ _ _ _ Hst). reflexivity.
    - intros m Hm. apply main_new in Hm as (typ & sub & ss0 & pd & nw & sc & ss & s1 & Hst). rewrite (sb_theta _ _ _ _ _ Hst). reflexivity. }
  rewrite Et in Hth.
  assert (Hc : chained A sp).
  { apply (trt_all (e_la E) A (chained A) (finite_proposal A)) with (2 := Hl) (c := sp); auto.
    - intros p c' Gp Hp Ha Hr. eapply chained_next; eauto.
    - intros m Hm. eapply main_chained; eauto. }
  apply (chained_trial A Hbox Hne Hf Hth sp Hc). apply Hg. right. now split.
Qed.

(** (x - 5)^2 - y^2 over the box [1, 10]^2 from (7, 6) with delta_init = 100 and the strategy "truncate": the first proposed
    step is truncated and meets the hypotheses *)
Definition wide_truncate : odict F64 :=
  [(KStr "delta_init", VReal (fz 100)); (KStr "stepback_strategy", VStr "truncate")]%string.
Definition hyperbolic (_ : nat) (x : list F64) : retval F64 :=
  let a := (nth 0 x nnan - fz 5)%num in let b := nth 1 x nnan in
  RTuple [PScal (a * a - b * b)%num; PVec [(fz 2 * a)%num; (- (fz 2 * b))%num]; PMat 2 [fzs [2; 0]%Z; fzs [0; -2]%Z]].
Definition truncating : cfg F64 * opt F64 := built (fzs [1; 1]%Z) (fzs [10; 10]%Z) wide_truncate None false.
Definition entry_ok (b : F64) : bool := normal_entry b || negb (is_finite b).
Lemma entry_ok_ok b : entry_ok b = true -> no_underflow b.
Proof.
  unfold entry_ok. rewrite orb_true_iff. intros [H|H]; [now apply normal_entry_ok|]. right. right. now apply negb_true_iff.
Qed.
Definition regular_b (C : cfg F64) (x : list F64) (p : step F64) : bool :=
  Nat.eqb (List.length (st_og_s p)) (List.length x) && all_finite (st_og_s p)
  && forallb entry_ok (breakpoints (st_x p) (st_og_s p) (c_lb C) (c_ub C)).
Lemma regular_b_ok C x p : regular_b C x p = true -> regular_step C x p.
Proof.
  unfold regular_b, regular_step. rewrite !andb_true_iff, Nat.eqb_eq. intros [[H1 H2] H3]. split; [exact H1|]. split.
  - intros i Hi. apply all_finite_ok; congruence.
  - apply Forall_forall. intros b Hb. apply entry_ok_ok, (proj1 (forallb_forall _ _) H3), Hb.
Qed.
Example truncated_trial_point_exists :
  exists f s sp l, loop_head (world hyperbolic) (fst truncating) 1 (fzs [7; 6]%Z) None H0None (snd truncating) f s
    /\ proposes (world hyperbolic) (fst truncating) s sp /\ compares (world hyperbolic) (fst truncating) s l
    /\ st_type sp = "trt"%string
    /\ in_box (c_lb (fst truncating)) (c_ub (fst truncating)) (deref s (o_x s)) /\ deref s (o_x s) <> []
    /\ (forall i, (i < List.length (deref s (o_x s)))%nat -> is_finite (nth i (deref s (o_x s)) nnan) = true)
    /\ (0 < B2R (st_theta sp) <= 1 - bpow radix2 (-50))%R
    /\ (forall p, In p l -> regular_step (fst truncating) (deref s (o_x s)) p).
Proof.
  set (D := fun s : opt F64 => let C := fst truncating in
    let x := deref s (o_x s) in
    let vdv := affine_scaling x (o_grad s) (c_lb C) (c_ub C) in
    candidates (e_la (world hyperbolic)) (tr_args x (o_grad s) (o_hess s) (map (fun p => nsqrt (nabs (fst p))) vdv)
      (o_delta s) (map snd vdv)
      (pymax (op_theta_max (c_opts C)) (n1 - norm_inf (vmul (map fst vdv) (o_grad s))))
      (c_lb C) (c_ub C)) (op_subspace_dim (c_opts C)) (op_stepback (c_opts C))).
  set (P := fun (s : opt F64) (sp : step F64) => let x := deref s (o_x s) in
    String.eqb (st_type sp) "trt" && in_box_b (c_lb (fst truncating)) (c_ub (fst truncating)) x
    && Nat.eqb (List.length x) 2 && all_finite x && below_one (st_theta sp)
    && match D s with Ok l => forallb (regular_b (fst truncating) x) l | Err _ => false end).
  assert (H : first_proposal hyperbolic truncating (fzs [7; 6]%Z) P = true) by (vm_compute; reflexivity).
  apply first_proposal_ok in H as (f & s & sp & H1 & H2 & H3).
  unfold P in H3. cbv zeta in H3. clear P. rewrite !andb_true_iff in H3. destruct H3 as [[[[[K1 K2] K3] K4] K5] K6].
  destruct (D s) as [l|] eqn:El; [|discriminate].
  exists f, s, sp, l. split; [exact H1|]. split; [exact H2|]. split; [exact El|].
  apply String.eqb_eq in K1. apply Nat.eqb_eq in K3. split; [exact K1|]. split; [now apply in_box_b_ok|].
  split; [intros E; rewrite E in K3; discriminate|].
  split; [intros i Hi; now apply all_finite_ok|].
  split; [now apply below_one_ok|].
  intros p Hp. apply regular_b_ok, (proj1 (forallb_forall _ _) K6), Hp.
Qed.
