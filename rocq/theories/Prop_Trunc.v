(** C36: the truncation loop stops (exact arithmetic) *)
From Coq Require Import String ZArith List Bool Reals Lra Lia Psatz.
From Verif Require Import Num Subproblem Steps TrustRegion ER NumFacts RVec SubNd RShess Argmin Cand StepFacts Prop_Sub1d Prop_Pred Prop_Box Prop_Cand TRErr RealStep Prop_Grad Region Prop_Secular.
Import ListNotations.
Local Open Scope R_scope.
Local Open Scope list_scope.

(** no coordinate is infinite (NaN is allowed) *)
Definition ni (a : ER) : Prop := a <> PInf /\ a <> NInf.
Definition no_infinite (v : list ER) : Prop := Forall ni v.
(** the eigendecomposition consists of finite numbers *)
Definition finite_eig (O : SubOracles ER) : Prop :=
  forall b ev vecs, sp_eig O b = Some (ev, vecs) -> exists vals V, ev = fv vals /\ vecs = fm V.

Lemma ni_fin r : ni (Fin r). Proof. split; discriminate. Qed.
Lemma ni_add a b : ni a -> ni b -> ni (er_add a b).
Proof. intros [A1 A2] [B1 B2]. destruct a, b; try congruence; split; discriminate. Qed.
Lemma ni_mul a b : ni a -> ni b -> ni (er_mul a b).
Proof. intros [A1 A2] [B1 B2]. destruct a, b; try congruence; split; discriminate. Qed.
Lemma ni_sqrt a : ni a -> ni (er_sqrt a).
Proof. intros [A1 A2]. destruct a; try congruence; cbn [er_sqrt]; [destruct (Rltb r 0)|]; split; discriminate. Qed.
Lemma ni_div a b : ni a -> er_eqb b (Fin 0) = false -> ni (er_div a b).
Proof.
  intros [A1 A2] E. destruct a, b; try congruence; cbn [er_div] in *; try (split; discriminate).
  cbn [er_eqb] in E. rewrite E. split; discriminate.
Qed.
Lemma ni_fv v : no_infinite (fv v).
Proof. apply Forall_forall. intros a Ha. apply in_map_iff in Ha as (r & <- & _). apply ni_fin. Qed.
Lemma ni_map2 (f : ER -> ER -> ER) a : forall b, (forall u v, ni u -> ni v -> ni (f u v)) -> no_infinite a -> no_infinite b -> no_infinite (map2 f a b).
Proof.
  induction a as [|u a IH]; intros [|v b] Hf Ha Hb; try constructor; inversion Ha; inversion Hb; subst; auto. now apply IH.
Qed.
Lemma ni_vscale c v : ni c -> no_infinite v -> no_infinite (vscale c v).
Proof. intros Hc Hv. apply Forall_forall. intros a Ha. apply in_map_iff in Ha as (r & <- & Hr). apply ni_mul; auto. unfold no_infinite in Hv. rewrite Forall_forall in Hv. auto. Qed.
Lemma ni_vadd a b : no_infinite a -> no_infinite b -> no_infinite (vadd a b).
Proof. apply ni_map2. apply ni_add. Qed.
Lemma ni_zeros n : no_infinite (vzeros n).
Proof. rewrite h_vzeros. apply ni_fv. Qed.
Lemma ni_lincomb n : forall c cols, no_infinite c -> Forall no_infinite cols -> no_infinite (lincomb n c cols).
Proof.
  induction c as [|a c IH]; intros [|u cols] Hc Hu; try apply ni_zeros. inversion Hc; inversion Hu; subst.
  cbn [lincomb]. apply ni_vadd; [now apply ni_vscale|auto].
Qed.
Lemma ni_dot a b : no_infinite a -> no_infinite b -> ni (dot a b).
Proof.
  intros Ha Hb. unfold dot. pose proof (ni_map2 nmul a b ni_mul Ha Hb) as Hm. induction Hm as [|c l Hc _ IH]; [apply ni_fin|].
  cbn [vsum fold_right]. now apply ni_add.
Qed.
Lemma ni_slam lam w vals V : no_infinite w -> no_infinite (slam lam w (fv vals) (fm V)).
Proof.
  intros Hw. unfold slam. apply ni_lincomb.
  - generalize (map (fun e : ER => (e + lam)%num) (fv vals)). induction w as [|a w IH]; intros [|e l]; try constructor.
    + inversion Hw as [|? ? Ha Hw']; subst. change (n0 : ER) with (Fin 0). destruct (e =? Fin 0)%num eqn:E; [auto|]. now apply ni_div.
    + inversion Hw; subst. now apply IH.
  - apply Forall_forall. intros c Hc. apply in_map_iff in Hc as (r & <- & _). apply ni_fv.
Qed.
Lemma ni_masked (f : ER -> bool) : forall w l, no_infinite w -> no_infinite (map2 (fun wi e => if f e then n0 else wi) w l).
Proof.
  induction w as [|a w IH]; intros [|e l] Hw; try constructor; inversion Hw as [|? ? Ha Hw']; subst.
  - destruct (f e); [apply ni_fin|exact Ha].
  - apply IH. exact Hw'.
Qed.
Lemma fin_neg_dec a : (Fin a <? n0)%num = Rltb a 0. Proof. reflexivity. Qed.

(** then the subproblem solver returns no infinite coordinate *)
Lemma nd_no_infinite (O : SubOracles ER) b g d sc lab : finite_eig O ->
  solve_nd_trust_region_subproblem O b (fv g) (Fin d) = Ok (sc, lab) -> no_infinite sc.
Proof.
  intros HE H. unfold solve_nd_trust_region_subproblem in H.
  destruct (Fin d =? n0)%num; [injection H as <- _; apply ni_zeros|].
  destruct (sp_eig O b) as [[ev vecs]|] eqn:Ev; [|discriminate].
  destruct (HE _ _ _ Ev) as (vals & V & -> & ->). rewrite h_tmatvec, h_vopp in H. set (w := rscale (-1) (rmv V g)) in H.
  assert (Hw : no_infinite (fv w)) by apply ni_fv.
  assert (Hh : forall j m, no_infinite (hard_case (Fin d) (fv w) (fv vals) (fm V) j m)).
  { intros j m. unfold hard_case. cbv zeta.
    match goal with |- context [slam ?l ?w' _ _] => set (s := slam l w' (fv vals) (fm V)); assert (Hs : no_infinite s) end.
    { apply ni_slam. apply (ni_masked (fun e => (e - m =? n0)%num)). exact Hw. }
    apply ni_vadd; [exact Hs|]. apply ni_vscale.
    - apply ni_sqrt. unfold pymax. match goal with |- ni (if ?c then _ else _) => destruct c end; [apply ni_fin|]. unfold nsq. cbn [nsub ERNum nmul]. unfold er_sub.
      apply ni_add; [apply ni_mul; apply ni_fin|].
      assert (K : ni (er_mul (norm s) (norm s))) by (apply ni_mul; apply ni_sqrt; now apply ni_dot).
      destruct K as [K1 K2]. destruct (er_mul (norm s) (norm s)); try congruence; split; discriminate.
    - destruct (nth_in_or_default j (fm V) []) as [Hj|E]; [|rewrite E; constructor].
      apply in_map_iff in Hj as (r & <- & _). apply ni_fv. }
  cbv zeta in H.
  repeat match type of H with
    | (if ?c then _ else _) = _ => destruct c; try discriminate H
    | match sp_newton ?a ?f ?f' ?x with _ => _ end = _ =>
        destruct (sp_newton a f f' x) eqn:?; try discriminate H
    | match sp_brentq ?a ?f ?f' ?x ?y with _ => _ end = _ =>
        destruct (sp_brentq a f f' x y) eqn:?; try discriminate H
    | (let '(_, _) := expand_bracket ?p ?n ?x ?y in _) = _ =>
        destruct (expand_bracket p n x y) as [[? ?] [|?]]; try discriminate H
    end; injection H as <- _; auto; now apply ni_slam.
Qed.

(** coordinates in which some column is not zero *)
Definition live (sub : list rvec) (i : nat) : bool := existsb (fun col => negb (Reqb (nth i col 0) 0)) sub.
Definition live_count (n : nat) (sub : list rvec) : nat := length (filter (live sub) (seq 0 n)).

Lemma filter_length_le {X} (f : X -> bool) l : (length (filter f l) <= length l)%nat.
Proof. induction l as [|a l IH]; simpl; [auto|]. destruct (f a); simpl; lia. Qed.

Lemma live_true sub i : live sub i = true <-> exists col, In col sub /\ nth i col 0 <> 0.
Proof.
  unfold live. rewrite existsb_exists. split; intros (col & H1 & H2); exists col; split; auto.
  - destruct (Reqb_spec (nth i col 0) 0); [discriminate|auto].
  - destruct (Reqb_spec (nth i col 0) 0); [contradiction|auto].
Qed.

Lemma lincomb_len n : forall sc sub, Forall (fun col => length col = n) sub -> length (lincomb n sc (fm sub)) = n.
Proof.
  assert (Z : length (@vzeros ER _ n) = n) by (rewrite h_vzeros, fv_length; apply repeat_length).
  induction sc as [|a sc IH]; intros [|u sub] Hs; auto. inversion Hs as [|? ? Lu Hs']; subst.
  cbn [fm map lincomb]. fold (fm sub). unfold vadd. rewrite map2_length.
  rewrite IH by auto. unfold vscale. rewrite map_length, fv_length. apply Nat.min_id.
Qed.

Lemma lincomb_cases n : forall sc sub, Forall (fun col => length col = n) sub -> no_infinite sc ->
  lincomb n sc (fm sub) = repeat NaN n
  \/ exists w, lincomb n sc (fm sub) = fv w /\ length w = n /\ forall i, nth i w 0 <> 0 -> live sub i = true.
Proof.
  assert (Z : forall sub, exists w, vzeros n = fv w /\ length w = n /\ forall i, nth i w 0 <> 0 -> live sub i = true).
  { intros sub. exists (rzeros n). split; [apply h_vzeros|]. split; [apply repeat_length|]. intros i Hi. rewrite nth_rzeros in Hi. contradiction. }
  induction sc as [|a sc IH]; intros [|u sub] Hs Hf; try (right; apply Z).
  inversion Hs as [|? ? Lu Hs']; subst. inversion Hf as [|? ? Ha Hf']; subst.
  cbn [fm map lincomb]. fold (fm sub).
  assert (N1 : forall v, length v = length u -> vadd v (repeat NaN (length u)) = repeat NaN (length u)).
  { clear. induction u as [|b u IHu]; intros [|y v] Hv; try discriminate; [reflexivity|].
    cbn [length repeat vadd map2]. f_equal; [destruct y; reflexivity|]. apply IHu. simpl in Hv. lia. }
  assert (N2 : forall v, length v = length u -> vadd (repeat NaN (length u)) v = repeat NaN (length u)).
  { clear. induction u as [|b u IHu]; intros [|y v] Hv; try discriminate; [reflexivity|].
    cbn [length repeat vadd map2]. f_equal. apply IHu. simpl in Hv. lia. }
  assert (LL : length (lincomb (length u) sc (fm sub)) = length u).
  { apply lincomb_len. exact Hs'. }
  destruct a as [a| | |]; try (destruct Ha; congruence).
  - rewrite h_vscale. destruct (IH sub Hs' Hf') as [E|(w & E & Lw & Hw)]; rewrite E.
    + left. apply N1. rewrite fv_length, rscale_length. reflexivity.
    + right. exists (radd (rscale a u) w). rewrite h_vadd. split; [reflexivity|]. split; [rlen|].
      intros i Hi. rewrite nth_radd, nth_rscale in Hi by rlen.
      destruct (Req_dec (nth i u 0) 0) as [Z0|Z0].
      * rewrite Z0 in Hi. assert (Hw0 : nth i w 0 <> 0) by lra. specialize (Hw i Hw0). apply live_true in Hw as (col & H1 & H2).
        apply live_true. exists col. split; [now right|auto].
      * apply live_true. exists u. split; [now left|auto].
  - left. replace (@vscale ER ERNum NaN (fv u)) with (repeat NaN (length u)); [now apply N2|].
    clear. induction u as [|b u IHu]; [reflexivity|]. cbn [length repeat fv map vscale]. f_equal. exact IHu.
Qed.

Section Trunc.
  Variables (O : StepOracles ER) (n : nat) (x g : rvec) (H : rmat) (D dv : rvec) (delta theta : R) (lb ub : list ER).
  Hypothesis P : problem n x g H D dv delta theta lb ub.
  Hypothesis Hnd : finite_eig (so_sub O).
  Local Notation A := (rA x g H D dv delta theta lb ub).
  Local Notation B := (rB n g H D dv).
  Local Notation sg := (rsg g D).
  Local Notation box c := (boxed A theta c).

  (** a computed candidate with finite subspace and start; [lv]: its step moves only along its subspace *)
  Record regular (lv : bool) (sub : list rvec) (c : step ER) : Prop := mkRegular {
    rg_box : box c;
    rg_sub : st_subspace c = fm sub;
    rg_len : Forall (fun col => length col = n) sub;
    rg_s0 : exists z0, st_s0 c = fv z0 /\ length z0 = n;
    rg_ss0 : exists z, st_ss0 c = fv z /\ length z = n;
    rg_og : (st_alpha c = n1 /\ st_og_s c = repeat NaN n)
      \/ exists os ow, st_og_s c = fv os /\ length os = n /\ st_og_ss c = fv ow /\ length ow = n
           /\ (lv = true -> forall i, nth i os 0 <> 0 -> live sub i = true)
  }.

  Lemma solve_1d_no_infinite u z : length u = n -> length z = n ->
    no_infinite (solve_1d_trust_region_subproblem (fm B) (fv sg) (fv u) (Fin delta) (fv z)).
  Proof.
    intros Lu Lz. pose proof P as P'. destruct P'. destruct (nonzero_dec u) as [Hnz|Hz].
    - destruct (C25_any_start n B sg u z delta) as [E|(tau & E & _)]; auto.
      + apply rB_mat.
      + apply (rB_sym n x g H D dv delta theta lb ub P).
      + apply (rsg_length n x g H D dv delta theta lb ub P).
      + rewrite E. repeat constructor; discriminate.
      + rewrite E. repeat constructor; discriminate.
    - rewrite C25_degenerate by (right; intros (i & Hi); now apply Hi). repeat constructor; discriminate.
  Qed.

  Lemma regular_calc typ y sub z0 z refl tr pd nw c :
    y = vadd (a_x A) (fv z0) -> (forall i, nan_or_within (nth i (a_lb A) NaN) (nth i (a_ub A) NaN) (nth i y NaN)) ->
    Forall (fun col => length col = n) sub -> length z0 = n -> length z = n ->
    calculate O (new_step typ A y (fm sub) (fv z0) (fv z) refl tr pd nw) = Ok c ->
    regular true sub c.
  Proof.
    intros Ey Hy Hsub Lz0 Lz Hc. pose proof P as P'. destruct P'.
    apply calculate_fields in Hc as (sc & ss & s & Hsol & Ess & Es & Hst & _).
    assert (Bx : box c) by (eapply stepped_boxed; [reflexivity|exact Ey|exact Hy|exact Hst]).
    cbn [new_step st_s0 st_subspace st_scaling] in Ess, Es. change (a_scaling A) with (fv D) in Es.
    rewrite fv_length, Lz0 in Ess.
    assert (Hsc : no_infinite sc).
    { unfold solved in Hsol. cbn [new_step st_subspace st_shess st_sg st_delta st_ss0] in Hsol.
      destruct sub as [|u [|u' sub]]; cbn [fm map] in Hsol.
      - subst sc. constructor.
      - rewrite (rA_shess n x g H D dv delta theta lb ub P), rA_sg in Hsol. change (a_delta A) with (Fin delta) in Hsol.
        rewrite Hsol. assert (Lu : length u = n) by (now inversion Hsub). now apply solve_1d_no_infinite.
      - destruct Hsol as (lab & Hsol). change (fv u :: fv u' :: map fv sub) with (fm (u :: u' :: sub)) in Hsol.
        rewrite rA_sg, h_tmatvec, h_norm in Hsol. change (a_delta A) with (Fin delta) in Hsol. unfold nsq in Hsol. cbn [nmul nsub ERNum er_mul er_sub er_add er_opp] in Hsol.
        assert (Hd : exists d, nsqrt (pymax (Fin (delta * delta + - (rnorm z * rnorm z))) n0) = Fin d).
        { unfold pymax. rewrite fin_neg_dec. destruct (Rltb_spec (delta * delta + - (rnorm z * rnorm z)) 0).
          - exists (sqrt 0). cbn [nsqrt ERNum er_sqrt n0 nofZ]. destruct (Rltb_spec 0 0); [lra|reflexivity].
          - exists (sqrt (delta * delta + - (rnorm z * rnorm z))). cbn [nsqrt ERNum er_sqrt]. destruct (Rltb_spec (delta * delta + - (rnorm z * rnorm z)) 0); [lra|reflexivity]. }
        destruct Hd as (d & Ed). rewrite Ed in Hsol. eapply nd_no_infinite; [exact Hnd|exact Hsol]. }
    assert (Ly : length y = n) by (rewrite Ey; change (a_x A) with (fv x); rewrite h_vadd, fv_length; rlen).
    destruct Hst. cbn [new_step st_x st_lb st_ub st_theta st_s0 st_ss0 st_subspace] in *.
    constructor; auto; [exists z0; auto|exists z; auto|].
    destruct (lincomb_cases n sc sub Hsub Hsc) as [E|(w & E & Lw & Hw)]; rewrite E in Ess; subst ss.
    - left. assert (Es' : s = repeat NaN n).
      { rewrite Es. destruct (fm sub); [reflexivity|]. now apply vmul_nan. }
      split; [|rewrite sb_og_s; exact Es']. rewrite Es' in sb_br. rewrite breakpoints_nan in sb_br by auto. rewrite sb_br, npmin_pinf in sb_minbr by auto.
      rewrite sb_alpha, sb_minbr. change (a_theta A) with (Fin theta). cbn [nmul ERNum er_mul]. unfold er_infmul.
      destruct (Rltb_spec 0 theta); [|lra]. reflexivity.
    - right. destruct sub as [|u sub]; cbn [fm map] in Es.
      + exists w, w. subst s. repeat split; auto.
      + exists (rmul D w), w. rewrite h_vmul in Es. subst s. split; [exact sb_og_s|]. split; [now apply rmul_length|].
        split; [exact sb_og_ss|]. split; [exact Lw|]. intros _ i Hi. apply Hw. intros E0. apply Hi.
        rewrite (nth_rmul D w n) by auto. rewrite E0. ring.
  Qed.

  (** which columns are left after truncation *)
  Definition zeroed (idx : list nat) (col : rvec) : rvec := mapi (fun i a => if mem i idx then 0 else a) col.
  Lemma nth_mapi {X Y} (f : nat -> X -> Y) l i d d' : (i < length l)%nat -> nth i (mapi f l) d' = f i (nth i l d).
  Proof.
    unfold mapi. assert (G : forall k j, (j < length l)%nat -> nth j (mapi_from f k l) d' = f (k + j)%nat (nth j l d)).
    { induction l as [|a l IH]; intros k j Hj; [simpl in Hj; lia|]. destruct j; simpl; [now rewrite Nat.add_0_r|].
      rewrite IH by (simpl in Hj; lia). f_equal. lia. }
    intros Hi. now rewrite G.
  Qed.
  Lemma nth_zeroed idx col i : nth i (zeroed idx col) 0 = if mem i idx then 0 else nth i col 0.
  Proof.
    destruct (Nat.lt_ge_cases i (length col)) as [Hi|Hi].
    - unfold zeroed. now rewrite (nth_mapi _ col i 0 0) by auto.
    - rewrite nth_overflow by (unfold zeroed; rewrite mapi_length; auto). rewrite (nth_overflow col) by auto. now destruct (mem i idx).
  Qed.
  Definition rnormalize (v : rvec) : rvec := if Rltb 0 (rnorm v) then rscale (/ rnorm v) v else v.
  Definition rtrunc (idx : list nat) (sub : list rvec) : list rvec :=
    map rnormalize (filter (fun col => negb (vall_zero (fv col))) (map (zeroed idx) sub)).
  Lemma h_trunc_subspace idx sub : trunc_subspace idx (fm sub) = fm (rtrunc idx sub).
  Proof.
    unfold trunc_subspace, rtrunc, fm. rewrite !map_map.
    rewrite (map_ext _ (fun col => fv (zeroed idx col))).
    2:{ intros col. unfold zeroed. apply mapi_fv. intros i a. now destruct (mem i idx). }
    induction sub as [|c sub IH]; [reflexivity|]. cbn [map filter].
    destruct (negb (vall_zero (fv (zeroed idx c)))); cbn [map]; [f_equal; [apply h_normalize|exact IH]|exact IH].
  Qed.
  Lemma rnormalize_length v : length (rnormalize v) = length v.
  Proof. unfold rnormalize. destruct (Rltb 0 (rnorm v)); rlen. Qed.
  Lemma rtrunc_length idx sub : Forall (fun col => length col = n) sub -> Forall (fun col => length col = n) (rtrunc idx sub).
  Proof.
    intros Hs. rewrite Forall_forall in *. intros c Hc. unfold rtrunc in Hc. apply in_map_iff in Hc as (c1 & <- & Hc).
    apply filter_In in Hc as [Hc _]. apply in_map_iff in Hc as (c2 & <- & Hc).
    rewrite rnormalize_length. unfold zeroed. rewrite mapi_length. auto.
  Qed.
  Lemma rtrunc_live idx sub i : live (rtrunc idx sub) i = true -> live sub i = true /\ mem i idx = false.
  Proof.
    rewrite live_true. intros (c & Hc & Hi). unfold rtrunc in Hc. apply in_map_iff in Hc as (c1 & <- & Hc).
    apply filter_In in Hc as [Hc _]. apply in_map_iff in Hc as (c2 & <- & Hc).
    assert (K : nth i (zeroed idx c2) 0 <> 0).
    { intros E. apply Hi. unfold rnormalize. destruct (Rltb 0 (rnorm (zeroed idx c2))); [rewrite nth_rscale, E; ring|exact E]. }
    rewrite nth_zeroed in K. destruct (mem i idx); [contradiction|]. split; [|reflexivity]. apply live_true. eauto.
  Qed.
  Lemma rtrunc_empty idx sub : (forall i, (i < n)%nat -> live (rtrunc idx sub) i = false) -> Forall (fun col => length col = n) sub -> rtrunc idx sub = [].
  Proof.
    intros Hl Hs. destruct (rtrunc idx sub) as [|c l] eqn:E; [reflexivity|]. exfalso.
    assert (Hin : In c (rtrunc idx sub)) by (rewrite E; now left). unfold rtrunc in Hin.
    apply in_map_iff in Hin as (c1 & Ec & Hin). apply filter_In in Hin as [Hc Hz].
    apply in_map_iff in Hc as (c2 & E2 & Hc2).
    assert (Hnz : nonzero c1). { apply h_all_zero_false. now destruct (vall_zero (fv c1)). }
    pose proof (nonzero_norm _ Hnz) as Np. destruct Hnz as (i & Hi).
    assert (Hin' : (i < n)%nat).
    { destruct (Nat.lt_ge_cases i n); auto. exfalso. apply Hi. apply nth_overflow. rewrite <- E2. unfold zeroed. rewrite mapi_length.
      rewrite Forall_forall in Hs. rewrite (Hs _ Hc2). lia. }
    specialize (Hl i Hin'). rewrite <- not_true_iff_false in Hl. apply Hl. apply live_true. exists c. split; [now left|].
    rewrite <- Ec. unfold rnormalize. destruct (Rltb_spec 0 (rnorm c1)); [|lra]. rewrite nth_rscale.
    apply Rmult_integral_contrapositive_currified; auto. apply Rinv_neq_0_compat. lra.
  Qed.

  Lemma live_count_lt sub sub' i : (i < n)%nat -> live sub i = true -> live sub' i = false ->
    (forall j, live sub' j = true -> live sub j = true) -> (live_count n sub' < live_count n sub)%nat.
  Proof.
    intros Hi H1 H2 H3. unfold live_count.
    assert (G : forall l, (forall j, In j l -> True) -> (length (filter (live sub') l) <= length (filter (live sub) l))%nat
        /\ (In i l -> (length (filter (live sub') l) < length (filter (live sub) l))%nat)).
    { induction l as [|j l IH]; intros _; [split; [auto|contradiction]|]. destruct IH as [IH1 IH2]; [auto|]. cbn [filter].
      split.
      - destruct (live sub' j) eqn:E'; [rewrite (H3 j E'); simpl; lia|]. destruct (live sub j); simpl; lia.
      - intros [->|Hin].
        + rewrite H1, H2. simpl. lia.
        + specialize (IH2 Hin). destruct (live sub' j) eqn:E'; [rewrite (H3 j E'); simpl; lia|]. destruct (live sub j); simpl; lia. }
    apply G; auto. apply in_seq. lia.
  Qed.
  Lemma live_count_zero sub : live_count n sub = 0%nat -> forall i, (i < n)%nat -> live sub i = false.
  Proof.
    unfold live_count. intros E i Hi. destruct (live sub i) eqn:L; [|reflexivity].
    assert (Hin : In i (filter (live sub) (seq 0 n))) by (apply filter_In; split; auto; apply in_seq; lia).
    destruct (filter (live sub) (seq 0 n)); [contradiction|discriminate].
  Qed.

  Lemma trunc_fv p (v0 og : rvec) : st_theta p = Fin theta -> length v0 = n -> length og = n ->
    (forall i, mem i (st_iminbr p) = true -> exists b, nth i (st_br p) NaN = Fin b) ->
    exists v, trunc_s0 p (fv v0) (fv og) = fv v /\ length v = n
      /\ forall i, (i < n)%nat -> nth i v 0 = if mem i (st_iminbr p) then nth i v0 0 + theta * er_val (nth i (st_br p) NaN) * nth i og 0 else nth i v0 0.
  Proof.
    intros Et L0 Lo Hb. unfold trunc_s0. rewrite Et.
    exists (mapi (fun i a => if mem i (st_iminbr p) then a + theta * er_val (nth i (st_br p) NaN) * nth i og 0 else a) v0).
    split.
    - unfold mapi. rewrite (mapi_from_map _ (Fin 0)), (mapi_from_map _ 0), fv_length. unfold fv at 4. rewrite map_map.
      apply map_ext_in. intros i Hi. apply in_seq in Hi. cbn [Nat.add]. rewrite h_nth0.
      destruct (mem i (st_iminbr p)) eqn:M; [|reflexivity]. destruct (Hb i M) as (b & Eb).
      change (nnan : ER) with NaN. rewrite Eb. rewrite h_nth by lia. reflexivity.
    - split; [now rewrite mapi_length|]. intros i Hi. now rewrite (nth_mapi _ v0 i 0 0) by lia.
  Qed.

  (** one more truncation *)
  Lemma truncated_regular lv sub p c : regular lv sub p -> (st_alpha p =? n1)%num = false ->
    calculate O (tr_step_truncated A p) = Ok c ->
    regular true (rtrunc (st_iminbr p) sub) c /\ (lv = true -> live_count n (rtrunc (st_iminbr p) sub) < live_count n sub)%nat.
  Proof.
    intros Hp Ha Hc. pose proof P as P'. destruct P'.
    destruct Hp as [Hb Hsub Hlen (z0 & E0 & L0) (z & Ez & Lz) Hog].
    destruct Hog as [[E _]|(os & ow & Eos & Los & Eow & Low & Hlive)].
    { exfalso. rewrite E in Ha. cbn [neqb ERNum n1 nofZ er_eqb] in Ha. destruct (Reqb_spec 1 1); [discriminate|lra]. }
    assert (Ex : st_x p = fv (radd x z0)) by (rewrite (bx_x _ _ _ Hb), E0; change (a_x A) with (fv x); apply h_vadd).
    assert (Ly : length (radd x z0) = n) by rlen.
    destruct (back_real n theta lb ub pb_n pb_theta pb_lb pb_ub (radd x z0) os (st_br p)) as [Lb (a & Ea & _ & Hm & _) Hbr]; auto.
    { apply nan_box; auto. rewrite <- Ex. apply (bx_in _ _ _ Hb). }
    { rewrite (bx_br _ _ _ Hb), Ex, Eos. reflexivity. }
    rewrite <- (bx_minbr _ _ _ Hb), <- (bx_alpha _ _ _ Hb) in Ea. rewrite <- (bx_minbr _ _ _ Hb) in Hm.
    destruct Hm as [[_ E1]|(m & Em & _ & _ & i & Hi & Ei)].
    { exfalso. rewrite Ea, E1 in Ha. cbn [neqb ERNum n1 nofZ er_eqb] in Ha. destruct (Reqb_spec 1 1); [discriminate|lra]. }
    assert (Mi : mem i (st_iminbr p) = true).
    { rewrite (bx_im _ _ _ Hb), mem_where. erewrite nth_indep by (rewrite map_length; lia).
      rewrite (map_nth (fun b => neqb b (st_minbr p)) (st_br p) NaN i), Ei, Em. cbn [neqb ERNum er_eqb]. destruct (Reqb_spec m m); [auto|lra]. }
    assert (Li : lv = true -> live sub i = true).
    { intros El. apply Hlive; auto. destruct (Hbr i Hi) as [K|(m' & _ & _ & K)]; [rewrite K in Ei; discriminate|exact K]. }
    assert (Hfin : forall j, mem j (st_iminbr p) = true -> exists b, nth j (st_br p) NaN = Fin b).
    { intros j Hj. apply (mem_iminbr _ _ _ _ Hb) in Hj. rewrite Em in Hj. cbn [neqb ERNum] in Hj.
      destruct (nth j (st_br p) NaN) as [b| | |]; try discriminate. eauto. }
    assert (Bx : box c) by (exact (truncated_boxed O A theta (A_theta x g H D dv delta theta lb ub) (th01 n x g H D dv delta theta lb ub P) (A_len n x g H D dv delta theta lb ub P) p c Hb Ha Hc)).
    split.
    - unfold tr_step_truncated in Hc. rewrite E0, Ez, Eos, Eow, Hsub, h_trunc_subspace in Hc.
      destruct (trunc_fv p z0 os) as (z0' & E0' & L0' & _); auto. { apply (bx_th _ _ _ Hb). }
      destruct (trunc_fv p z ow) as (z' & Ez' & Lz' & _); auto. { apply (bx_th _ _ _ Hb). }
      rewrite E0', Ez' in Hc. eapply regular_calc; [reflexivity| |now apply rtrunc_length|exact L0'|exact Lz'|exact Hc].
      intros j. replace (vadd (a_x A) (fv z0')) with (st_x c); [apply (bx_in _ _ _ Bx)|].
      apply calculate_fields in Hc as (sc & ss & s & _ & _ & _ & Hst & _). destruct Hst. rewrite sb_x. reflexivity.
    - intros El. apply (live_count_lt sub _ i); auto.
      + destruct (live (rtrunc (st_iminbr p) sub) i) eqn:L; [|reflexivity]. apply rtrunc_live in L as [_ L]. congruence.
      + intros j Hj. now apply rtrunc_live in Hj.
  Qed.

  Lemma truncate_loop_stops : roots_raise (so_sub O) (fun e => e <> EDiverge) -> forall k sub p,
    regular true sub p -> (live_count n sub = 0%nat -> sub = []) -> (live_count n sub < k)%nat ->
    (exists l, truncate_loop k O A p = Ok l /\ (length l <= live_count n sub)%nat)
    \/ exists e, truncate_loop k O A p = Err e /\ e <> EDiverge.
  Proof.
    intros HR. induction k; intros sub p Hp Hz Hk; [lia|]. cbn [truncate_loop]. rewrite (rg_sub _ _ _ Hp).
    destruct sub as [|u sub]; [left; exists []; split; [reflexivity|simpl; lia]|]. cbn [fm map].
    set (S0 := u :: sub) in *.
    destruct (st_alpha p =? n1)%num eqn:Ea; [left; exists []; split; [reflexivity|simpl; lia]|].
    destruct (calculate O (tr_step_truncated A p)) as [r|e] eqn:Er.
    2:{ right. exists e. split; [reflexivity|]. apply (calculate_err O (fun e => e <> EDiverge) HR) in Er; [exact Er|discriminate]. }
    destruct (truncated_regular _ S0 p r Hp Ea Er) as [Hr Hlt]. specialize (Hlt eq_refl).
    destruct (IHk (rtrunc (st_iminbr p) S0) r Hr) as [(l & El & Hl)|(e & El & He)].
    - intros E. apply rtrunc_empty; [now apply live_count_zero|]. apply (rg_len _ _ _ Hp).
    - lia.
    - left. exists (r :: l). rewrite El. split; [reflexivity|]. simpl. lia.
    - right. exists e. rewrite El. auto.
  Qed.

  (** Truncation of a stepped-back candidate [p] with finite subspace and start: given enough passes the loop is
      never cut short; it adds at most n candidates, or n+1 if the step of [p] also moves outside its subspace (CG) *)
  Lemma truncations_bounded : forall (lv : bool) sub p, (n + (if lv then 0 else 1) <= so_trfuel O)%nat ->
    roots_raise (so_sub O) (fun e => e <> EDiverge) ->
    regular lv sub p -> (st_alpha p =? n1)%num = false ->
    (exists l, stepback_truncate O A p = Ok l /\ (1 <= length l <= n + (if lv then 0 else 1))%nat)
    \/ exists e, stepback_truncate O A p = Err e /\ e <> EDiverge.
  Proof.
    intros lv sub p Hf HR Hp Ha. unfold stepback_truncate.
    destruct (calculate O (tr_step_truncated A p)) as [r|e] eqn:Er.
    2:{ right. exists e. split; [reflexivity|]. apply (calculate_err O (fun e => e <> EDiverge) HR) in Er; [exact Er|discriminate]. }
    destruct (truncated_regular lv sub p r Hp Ha Er) as [Hr Hlt].
    assert (Hn : forall s : list rvec, (live_count n s <= n)%nat).
    { intros s. unfold live_count. etransitivity; [apply filter_length_le|]. now rewrite seq_length. }
    assert (Hc : (live_count n (rtrunc (st_iminbr p) sub) < n + (if lv then 0 else 1))%nat).
    { specialize (Hn sub) as H1. specialize (Hn (rtrunc (st_iminbr p) sub)). destruct lv; [specialize (Hlt eq_refl); lia|lia]. }
    destruct (truncate_loop_stops HR (so_trfuel O) (rtrunc (st_iminbr p) sub) r Hr) as [(l & El & Hl)|(e & El & He)].
    - intros E. apply rtrunc_empty; [now apply live_count_zero|]. apply (rg_len _ _ _ Hp).
    - lia.
    - left. exists (r :: l). rewrite El. split; [reflexivity|]. simpl. lia.
    - right. exists e. rewrite El. auto.
  Qed.

  (** the dense-matrix routines used to build the 2-D subspace return n finite numbers, resp. n columns of n finite numbers *)
  Definition finite_2d : Prop :=
    (forall m v l, so_lstsq O m v = Some l -> exists r, l = fv r /\ length r = n)
    /\ (forall m re ab v, so_eig O m = Some (re, ab, v) ->
          exists V, v = fm V /\ length V = n /\ length re = n /\ Forall (fun c => length c = n) V).

  Lemma rvopp v : vopp (fv v) = fv (rscale (-1) v). Proof. apply h_vopp. Qed.
  Lemma fin_vec (v : list ER) : Forall (fun a => exists r, a = Fin r) v -> exists w, v = fv w.
  Proof. induction 1 as [|a v (r & ->) _ (w & ->)]; [exists []; reflexivity|exists (r :: w); reflexivity]. Qed.

  Lemma main_2d_regular r c : (1 < n)%nat -> finite_2d -> tr_step_2d O A = Ok r -> calculate O r = Ok c -> exists sub, regular true sub c.
  Proof.
    intros Hn [Hls Heg] Hr Hc. pose proof P as P'. destruct P'.
    assert (G : exists sub pd nw, r = new_step "2d" A (a_x A) (fm sub) (zeros_of A) (zeros_of A) [] [] pd nw /\ Forall (fun col => length col = n) sub).
    { unfold tr_step_2d in Hr. cbv zeta in Hr. destruct (so_lstsq O _ _) as [ls|] eqn:El; [|discriminate].
      destruct (so_eig O _) as [[[e_re e_abs] v]|] eqn:Ee; [|discriminate].
      destruct (Hls _ _ _ El) as (l & -> & Ll). destruct (Heg _ _ _ _ Ee) as (V & -> & LV & Lre & FV).
      rewrite rA_sg in Hr. pose proof (rsg_length n x g H D dv delta theta lb ub P) as Lsg.
      assert (Esg : exists a b rest, rsg g D = a :: b :: rest).
      { destruct (rsg g D) as [|a [|b rest]]; [simpl in Lsg; lia|simpl in Lsg; lia|eauto]. }
      destruct Esg as (sa & sb & rest & Esg). set (sv := rsg g D) in *.
      set (posdef := (npmin e_re >? _)%num) in Hr. clearbody posdef.
      assert (Hr' : (let s_newt := vopp (fv l) in
         if posdef && (norm s_newt <? a_delta A)%num then Ok (new_step "2d" A (a_x A) [normalize s_newt] (zeros_of A) (zeros_of A) [] [] (Some posdef) (Some true))
         else let s_newt := if posdef then s_newt else nth (argmin e_re) (fm V) [] in
              let s_grad := if posdef then fv sv else vmul (a_scaling A) (map (fun g => npsign g + nofbool (g =? n0))%num (fv sv)) in
              let s_newt := normalize s_newt in
              let s_grad := vsub s_grad (vscaler s_newt (dot s_newt s_grad)) in
              if (norm s_grad >? spacing1)%num
              then Ok (new_step "2d" A (a_x A) [s_newt; normalize s_grad] (zeros_of A) (zeros_of A) [] [] (Some posdef) (Some false))
              else Ok (new_step "2d" A (a_x A) [s_newt] (zeros_of A) (zeros_of A) [] [] (Some posdef) (Some false))) = Ok r).
      { rewrite Esg in Hr |- *. exact Hr. }
      clear Hr. cbv zeta in Hr'. rewrite h_vopp in Hr'.
      destruct (posdef && _) eqn:Epd in Hr'.
      - apply Ok_inj in Hr'. subst r. rewrite h_normalize. match goal with |- context [[fv ?u]] => exists [u] end.
        exists (Some posdef), (Some true). split; [reflexivity|]. constructor; [|constructor].
        destruct (Rltb 0 _); rlen.
      - assert (Hnw : exists u, (if posdef then fv (rscale (-1) l) else nth (argmin e_re) (fm V) []) = fv u /\ length u = n).
        { destruct posdef; [eexists; split; [reflexivity|rlen]|].
          assert (Ha : (argmin e_re < length e_re)%nat) by (apply argmin_lt; intros ->; simpl in Lre; lia).
          exists (nth (argmin e_re) V []). split.
          - unfold fm. rewrite (nth_indep _ [] (fv [])) by (rewrite map_length; lia). apply map_nth.
          - rewrite Forall_forall in FV. apply FV, nth_In. lia. }
        destruct Hnw as (u & Eu & Lu). rewrite Eu in Hr'. clear Eu.
        assert (Hgr : exists q, (if posdef then fv sv else vmul (a_scaling A) (map (fun g => npsign g + nofbool (g =? n0))%num (fv sv))) = fv q /\ length q = n).
        { destruct posdef; [eexists; split; [reflexivity|exact Lsg]|].
          change (a_scaling A) with (fv D).
          assert (F : exists t, map (fun g : ER => npsign g + nofbool (g =? n0))%num (fv sv) = fv t).
          { apply fin_vec. apply Forall_forall. intros b0 Hb0. apply in_map_iff in Hb0 as (a0 & <- & Ha0). apply in_map_iff in Ha0 as (t & <- & _).
            unfold npsign. cbn [nisnan ERNum er_isnan]. destruct (Fin t <? n0)%num, (n0 <? Fin t)%num, (Fin t =? n0)%num; eexists; reflexivity. }
          destruct F as (t & Et). exists (rmul D t). rewrite Et, h_vmul. split; [reflexivity|]. apply rmul_length; auto.
          apply (f_equal (@length ER)) in Et. rewrite map_length, !fv_length in Et. congruence. }
        destruct Hgr as (q & Eq & Lq). rewrite Eq in Hr'. clear Eq. rewrite h_normalize in Hr'.
        set (u1 := if Rltb 0 (rnorm u) then _ else u) in Hr'.
        assert (Lu1 : length u1 = n) by (unfold u1; destruct (Rltb 0 (rnorm u)); rlen).
        clearbody u1. rewrite h_dot, h_vscaler, h_vsub, h_normalize in Hr'.
        match type of Hr' with context [[fv u1; fv ?q2]] => set (q1 := q2) in Hr'; assert (Lq1 : length q1 = n) end.
        { unfold q1. match goal with |- context [Rltb 0 ?e] => destruct (Rltb 0 e) end; rewrite ?rscale_length; rewrite rsub_length; rewrite ?rscale_length; congruence. }
        destruct (_ <? _)%num in Hr'; apply Ok_inj in Hr'; subst r.
        + exists [u1; q1], (Some posdef), (Some false). split; [reflexivity|]. repeat constructor; auto.
        + exists [u1], (Some posdef), (Some false). split; [reflexivity|]. repeat constructor; auto. }
    destruct G as (sub & pd & nw & -> & Hsub). exists sub.
    rewrite (zeros_rA n x g H D dv delta theta lb ub P) in Hc.
    assert (Zl : length (rzeros n) = n) by apply repeat_length.
    eapply regular_calc; [| |exact Hsub|exact Zl|exact Zl|exact Hc].
    - rewrite <- (zeros_rA n x g H D dv delta theta lb ub P). symmetry. apply x_zeros. apply (A_len n x g H D dv delta theta lb ub P).
    - apply (A_box n x g H D dv delta theta lb ub P).
  Qed.

  Lemma main_full_regular c : calculate O (tr_step_full A) = Ok c -> exists sub, regular true sub c.
  Proof.
    intros Hc. exists (reye n). unfold tr_step_full in Hc. change (a_hess A) with (fm H) in Hc.
    destruct (pb_H _ _ _ _ _ _ _ _ _ _ P) as [LH _]. rewrite fm_length, LH, h_eye, (zeros_rA n x g H D dv delta theta lb ub P) in Hc.
    assert (Zl : length (rzeros n) = n) by apply repeat_length.
    eapply regular_calc; [| |apply is_mat_eye|exact Zl|exact Zl|exact Hc].
    - rewrite <- (zeros_rA n x g H D dv delta theta lb ub P). symmetry. apply x_zeros. apply (A_len n x g H D dv delta theta lb ub P).
    - apply (A_box n x g H D dv delta theta lb ub P).
  Qed.
End Trunc.
