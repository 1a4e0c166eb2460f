(** C33: with the full-space solver, truncated candidates stay in the trust region (exact arithmetic).
    (With the two-dimensional solver they need not: C33_truncated_refuted in Prop_TruncRegion.) *)
From Coq Require Import String ZArith List Bool Reals Lra Lia Psatz.
From Verif Require Import Num Subproblem Steps TrustRegion ER NumFacts RVec Ortho SubNd Prop_Secular Prop_SubNd RShess Argmin Cand StepFacts Prop_Sub1d Prop_Pred Prop_Box Prop_Cand TRErr RealStep Prop_Grad GradEx Region Prop_Trunc Prop_CG Prop_Stepback Prop_TwoD Prop_Region.
Import ListNotations.
Local Open Scope R_scope.
Local Open Scope list_scope.

(** the external routines solve the candidate's reduced problem exactly: the radius is what the fixed part
    [st_ss0] of the candidate's scaled step leaves of the trust region radius *)
Definition solved_within (O : StepOracles ER) (delta : R) (c : step ER) : Prop :=
  (2 <= length (st_subspace c))%nat ->
  exists k Bc gc vals vecs z r, st_ss0 c = fv z /\ 0 < r /\ rdot z z + r * r = delta * delta
    /\ st_chess c = fm Bc /\ st_cg c = fv gc
    /\ nd_problem k Bc gc r vals vecs (so_sub O) /\ roots_found (so_sub O) gc r vals vecs.

(** *** vectors with disjoint supports *)
Definition apart (u v : rvec) : Prop := forall i, nth i u 0 = 0 \/ nth i v 0 = 0.

Lemma apart_dot : forall u v, apart u v -> rdot u v = 0.
Proof.
  induction u as [|a u IH]; intros [|b v] H; auto. cbn [rdot]. rewrite IH by (intros i; exact (H (S i))).
  destruct (H 0%nat) as [E|E]; cbn [nth] in E; rewrite E; ring.
Qed.
Lemma dot_mono : forall u v, length u = length v -> (forall i, nth i u 0 * nth i u 0 <= nth i v 0 * nth i v 0) -> rdot u u <= rdot v v.
Proof.
  induction u as [|a u IH]; intros [|b v] L H; try discriminate; [cbn; lra|]. cbn [rdot]. pose proof (H 0%nat) as H0. cbn [nth] in H0.
  assert (rdot u u <= rdot v v) by (apply IH; [simpl in L; congruence|intros i; exact (H (S i))]). lra.
Qed.
Lemma dot_add_apart u v : length u = length v -> apart u v -> rdot (radd u v) (radd u v) = rdot u u + rdot v v.
Proof. intros L H. rewrite rdot_radd_l, !rdot_radd_r by rlen. rewrite (rdot_comm v u), (apart_dot u v H). ring. Qed.

Lemma apart_lincomb n u : forall sc sub, Forall (apart u) sub -> Forall (fun v => length v = n) sub -> apart u (rlincomb n sc sub).
Proof.
  induction sc as [|a sc IH]; intros [|v sub] H L i; try (right; apply nth_rzeros).
  inversion H as [|? ? Hv Hs]; inversion L as [|? ? Lv Ls]; subst. cbn [rlincomb].
  assert (Lr : length (rlincomb (length v) sc sub) = length v).
  { pose proof (lincomb_len (length v) (fv sc) sub Ls) as K. rewrite h_lincomb, fv_length in K. exact K. }
  rewrite nth_radd, nth_rscale by rlen. destruct (Hv i) as [E|E]; [now left|]. destruct (IH sub Hs Ls i) as [E'|E']; [now left|].
  right. rewrite E, E'. ring.
Qed.
Lemma lincomb_apart_dot n : forall sc sub, length sc = length sub -> Forall (fun v => length v = n) sub -> Forall (fun v => rnorm v <= 1) sub ->
  ForallOrdPairs apart sub -> rdot (rlincomb n sc sub) (rlincomb n sc sub) <= rdot sc sc.
Proof.
  induction sc as [|a sc IH]; intros [|v sub] L F N D; try discriminate.
  - cbn [rlincomb rdot]. rewrite rdot_zeros_l. lra.
  - inversion F as [|? ? Lv Fs]; inversion N as [|? ? Nv Ns]; inversion D as [|? ? Dv Ds]; subst. cbn [rlincomb].
    assert (Lr : length (rlincomb (length v) sc sub) = length v).
    { pose proof (lincomb_len (length v) (fv sc) sub Fs) as K. rewrite h_lincomb, fv_length in K. exact K. }
    rewrite dot_add_apart; [| rlen |].
    + cbn [rdot]. specialize (IH sub (eq_add_S _ _ L) Fs Ns Ds). rewrite rdot_rscale_l, rdot_rscale_r, <- rnorm_sq.
      pose proof (rnorm_nonneg v). pose proof (Rle_0_sqr a) as Sa. unfold Rsqr in Sa.
      assert (rnorm v * rnorm v <= 1) by nra. nra.
    + intros i. destruct (apart_lincomb (length v) v sc sub Dv Fs i) as [E|E]; [left; rewrite nth_rscale, E; ring|now right].
Qed.
Lemma lincomb_apart_le n sc sub : length sc = length sub -> Forall (fun v => length v = n) sub -> Forall (fun v => rnorm v <= 1) sub ->
  ForallOrdPairs apart sub -> rnorm (rlincomb n sc sub) <= rnorm sc.
Proof. intros. apply sqrt_le_1_alt. now apply lincomb_apart_dot. Qed.

Lemma live_lincomb n i : forall sc sub, Forall (fun v => length v = n) sub -> nth i (rlincomb n sc sub) 0 <> 0 -> live sub i = true.
Proof.
  induction sc as [|a sc IH]; intros [|v sub] L H; try (exfalso; apply H, nth_rzeros).
  inversion L as [|? ? Lv Ls]; subst. cbn [rlincomb] in H.
  assert (Lr : length (rlincomb (length v) sc sub) = length v).
  { pose proof (lincomb_len (length v) (fv sc) sub Ls) as K. rewrite h_lincomb, fv_length in K. exact K. }
  rewrite nth_radd, nth_rscale in H by rlen. apply live_true.
  destruct (Req_dec (nth i v 0) 0) as [E|E]; [|exists v; split; [now left|auto]].
  destruct (proj1 (live_true sub i)) as (w & Hw & Hi); [|exists w; split; [now right|auto]].
  apply IH; auto. intros E'. apply H. rewrite E, E'. ring.
Qed.

(** *** truncating a subspace *)
Lemma rnormalize_zero v i : nth i v 0 = 0 -> nth i (rnormalize v) 0 = 0.
Proof. intros E. unfold rnormalize. destruct (Rltb 0 (rnorm v)); [rewrite nth_rscale, E; ring|exact E]. Qed.
Lemma rtrunc_zero idx col i : nth i col 0 = 0 -> nth i (rnormalize (zeroed idx col)) 0 = 0.
Proof. intros E. apply rnormalize_zero. rewrite nth_zeroed, E. now destruct (mem i idx). Qed.
Lemma rtrunc_in idx sub v : In v (rtrunc idx sub) -> exists u, In u sub /\ v = rnormalize (zeroed idx u).
Proof.
  unfold rtrunc. intros H. apply in_map_iff in H as (c1 & <- & Hc). apply filter_In in Hc as [Hc _].
  apply in_map_iff in Hc as (u & <- & Hu). eauto.
Qed.
Lemma rtrunc_apart idx : forall sub, ForallOrdPairs apart sub -> ForallOrdPairs apart (rtrunc idx sub).
Proof.
  induction sub as [|u sub IH]; intros D; [constructor|]. inversion D as [|? ? Du Ds]; subst.
  unfold rtrunc. cbn [map filter]. destruct (negb (vall_zero (fv (zeroed idx u)))); [|apply IH, Ds].
  cbn [map]. constructor; [|apply IH, Ds]. apply Forall_forall. intros v Hv. apply rtrunc_in in Hv as (w & Hw & ->).
  rewrite Forall_forall in Du. intros i. destruct (Du w Hw i) as [E|E]; [left|right]; now apply rtrunc_zero.
Qed.
Lemma rtrunc_unit idx sub : Forall (fun v => rnorm v <= 1) (rtrunc idx sub).
Proof. apply Forall_forall. intros v Hv. apply rtrunc_in in Hv as (w & _ & ->). apply rnormalize_le. Qed.

Section TruncFull.
  Variables (O : StepOracles ER) (n : nat) (x g : rvec) (H : rmat) (D dv : rvec) (delta theta : R) (lb ub : list ER).
  Hypothesis P : problem n x g H D dv delta theta lb ub.
  Local Notation A := (rA x g H D dv delta theta lb ub).
  Local Notation fc := (fcand n x g H D dv delta theta lb ub).
  Local Notation nc := (ncand n x g H D dv delta theta lb ub).
  Local Notation rho := (delta + / IZR (2 ^ 26)).

  (** the columns of [sub] have disjoint supports and length at most one; the fixed part [z] of the step does not touch them,
      the moving part [w] stays on them *)
  Record split_at (sub : list rvec) (w z : rvec) (c : step ER) : Prop := mkSplit {
    sp_cand : fc rho c w z;
    sp_sub : st_subspace c = fm sub;
    sp_len : Forall (fun v => length v = n) sub;
    sp_unit : Forall (fun v => rnorm v <= 1) sub;
    sp_apart : ForallOrdPairs apart sub;
    sp_z : forall i, live sub i = true -> nth i z 0 = 0;
    sp_w : forall i, nth i w 0 <> 0 -> live sub i = true
  }.

  Lemma lin_length : forall sc sub, Forall (fun v => length v = n) sub -> length (rlincomb n sc sub) = n.
  Proof. intros sc sub Hs. pose proof (lincomb_len n (fv sc) sub Hs) as K. rewrite h_lincomb, fv_length in K. exact K. Qed.

  (** the computed truncated candidate *)
  Lemma trunc_calc typ y sub z0 z refl tr pd nw c :
    y = vadd (a_x A) (fv z0) -> (forall i, nan_or_within (nth i (a_lb A) NaN) (nth i (a_ub A) NaN) (nth i y NaN)) ->
    Forall (fun v => length v = n) sub -> Forall (fun v => rnorm v <= 1) sub -> ForallOrdPairs apart sub ->
    (forall i, live sub i = true -> nth i z 0 = 0) ->
    length z0 = n -> length z = n -> rnorm z <= rho ->
    calculate O (new_step typ A y (fm sub) (fv z0) (fv z) refl tr pd nw) = Ok c ->
    solved_within O delta c ->
    (exists w, split_at sub w z c) \/ nc c.
  Proof.
    intros Ey Hy Fs Us Ds Hz Lz0 Lz Nz Hc Hex. pose proof P as P'. destruct P'. pose proof two26 as He.
    assert (Sub : st_subspace c = fm sub).
    { apply calculate_fields in Hc as (sc & ss & s & _ & _ & _ & Hst & _). destruct Hst. exact sb_subspace. }
    destruct sub as [|u [|u' sub]].
    - left. apply calculate_fields in Hc as (sc & ss & s & Hsol & Ess & Es & Hst & _).
      assert (Bx : boxed A theta c) by (eapply stepped_boxed; [reflexivity|exact Ey|exact Hy|exact Hst]).
      cbn [new_step st_s0 st_subspace fm map] in Ess, Es. rewrite fv_length, Lz0 in Ess.
      unfold solved in Hsol. cbn [new_step st_subspace fm map] in Hsol. subst sc. cbn [lincomb] in Ess. rewrite h_vzeros in Ess. subst ss. subst s.
      change (repeat 0 n) with (rzeros n) in *.
      exists (rzeros n). destruct Hst. cbn [new_step st_s0 st_ss0] in *. constructor; auto.
      + split; [exact Bx|]. split; [apply zlen|]. split; [exact Lz|]. split; [exact sb_og_ss|]. split; [exact sb_ss0|].
        split; [exists (rzeros n), z0; repeat split; auto; apply zlen|]. split; [now rewrite sb_og_ss|]. split; [exact Nz|].
        replace (radd z (rzeros n)) with z; auto. apply rvec_ext; [rewrite radd_length; [reflexivity|rewrite zlen; auto]|].
        intros i. rewrite nth_radd, nth_rzeros by (rewrite zlen; auto). ring.
      + intros i Hi. rewrite nth_rzeros in Hi. contradiction.
    - assert (Lu : length u = n) by now inversion Fs.
      apply (line_calc O n x g H D dv delta theta lb ub P rho) in Hc; auto; [|lra].
      destruct Hc as [(tau & Hf)|[Hn _]]; [left|right; exact Hn]. exists (rscale tau u). constructor; auto.
      intros i Hi. rewrite nth_rscale in Hi. apply live_true. exists u. split; [now left|]. intros E. apply Hi. rewrite E. ring.
    - left. set (S0 := u :: u' :: sub) in *.
      assert (HL : (2 <= length (st_subspace c))%nat) by (rewrite Sub; unfold S0; cbn; lia).
      destruct (Hex HL) as (k & Bc & gc & vals & vecs & zz & r & Ezz & Hr & Epy & Eb & Eg & HP & HN). clear Hex.
      apply calculate_fields in Hc as (sc & ss & s & Hsol & Ess & Es & Hst & _ & Ech & Ecg).
      assert (Bx : boxed A theta c) by (eapply stepped_boxed; [reflexivity|exact Ey|exact Hy|exact Hst]).
      assert (zz = z).
      { destruct Hst. rewrite sb_ss0 in Ezz. cbn [new_step st_ss0] in Ezz. now apply fv_inj in Ezz. }
      subst zz. cbn [new_step st_s0 st_subspace st_scaling] in Ess, Es. change (a_scaling A) with (fv D) in Es. rewrite fv_length, Lz0 in Ess.
      rewrite Ech in Eb. rewrite Ecg in Eg. unfold solved in Hsol. rewrite Eb, Eg in Hsol.
      cbn [new_step st_subspace st_delta st_ss0] in Hsol. change (a_delta A) with (Fin delta) in Hsol.
      assert (Ed : nsqrt (pymax (nsq (Fin delta) - nsq (norm (fv z)))%num n0) = Fin r).
      { rewrite h_norm. unfold nsq, pymax. cbn [nsub nmul nltb nsqrt ERNum er_sub er_add er_opp er_mul er_ltb n0 nofZ].
        assert (Q : delta * delta + - (rnorm z * rnorm z) = r * r) by (rewrite rnorm_sq; lra). rewrite Q.
        destruct (Rltb_spec (r * r) 0); [nra|]. cbn [er_sqrt].
        destruct (Rltb_spec (r * r) 0); [nra|]. f_equal. apply sqrt_square. lra. }
      rewrite Ed in Hsol.
      assert (Lk : k = length S0).
      { destruct HP as ([Lb _] & _). apply (f_equal (@List.length _)) in Eb. unfold subspace_hess, fm in Eb.
        cbn [new_step st_subspace] in Eb. unfold fm in Eb. rewrite !map_length in Eb. congruence. }
      unfold S0 in Hsol, Es. cbn [fm map] in Hsol, Es. destruct Hsol as (lab & Hsol).
      destruct (C27_with_newton k Bc gc r vals vecs (so_sub O) sc lab HP HN Hsol) as (q & -> & Lq & Nq & _).
      rewrite h_lincomb in Ess. fold S0 in Ess. subst ss. rewrite h_vmul in Es. subst s.
      assert (Lw : length (rlincomb n q S0) = n) by now apply lin_length.
      exists (rlincomb n q S0). destruct Hst. cbn [new_step st_s0 st_ss0] in *.
      assert (Hw : forall i, nth i (rlincomb n q S0) 0 <> 0 -> live S0 i = true) by (intros i; now apply live_lincomb).
      constructor; auto. split; [exact Bx|]. split; [exact Lw|]. split; [exact Lz|]. split; [exact sb_og_ss|]. split; [exact sb_ss0|].
      split; [exists (rmul D (rlincomb n q S0)), z0; repeat split; auto; now apply rmul_length|].
      split; [now rewrite sb_og_ss|]. split; [exact Nz|].
      apply rnorm_le; [lra|].
      rewrite dot_add_apart; [|congruence|].
      2:{ intros i. destruct (Req_dec (nth i (rlincomb n q S0) 0) 0) as [E|E]; [now right|left; apply Hz, Hw, E]. }
      assert (Nw : rnorm (rlincomb n q S0) <= r + / IZR (2 ^ 26)) by (eapply Rle_trans; [apply lincomb_apart_le; auto; congruence|exact Nq]).
      rewrite <- (rnorm_sq (rlincomb n q S0)). pose proof (rnorm_nonneg (rlincomb n q S0)) as N0.
      assert (Hrd : r <= delta).
      { pose proof (rnorm_sq z) as Zs. pose proof (rnorm_nonneg z). nra. }
      set (e := / IZR (2 ^ 26)) in *. set (N := rnorm (rlincomb n q S0)) in *. clearbody e N.
      assert (N * N <= (r + e) * (r + e)) by nra. nra.
  Qed.

  (** one more truncation of such a candidate *)
  Lemma trunc_next sub w z p c : split_at sub w z p -> (st_alpha p =? n1)%num = false ->
    calculate O (tr_step_truncated A p) = Ok c -> solved_within O delta c ->
    (exists sub' w' z', split_at sub' w' z' c) \/ nc c.
  Proof.
    intros Hp Ha Hc Hex. pose proof P as P'. destruct P'. pose proof two26 as He.
    destruct Hp as [Hf Hsub Hlen Hun Hap Hz Hw].
    destruct (fcand_alpha n x g H D dv delta theta lb ub P _ _ _ _ Hf) as (a & Ea & Ha01 & Hm).
    destruct Hf as (Hb & Lw & Lz & Eow & Ez & (os & z0 & Los & L0 & Eos & E0) & Ess & N1 & N2).
    assert (Na1 : a <> 1).
    { intros E. rewrite Ea, E in Ha. cbn [neqb ERNum n1 nofZ er_eqb] in Ha. destruct (Reqb_spec 1 1); [discriminate|lra]. }
    destruct Hm as [[_ E1]|(m & Em & Hm0 & Eam & _)]; [contradiction|].
    assert (Eam' : a = theta * m) by (unfold Rmin in Eam; destruct (Rle_dec 1 (theta * m)); [contradiction|exact Eam]).
    assert (Hfin : forall j, mem j (st_iminbr p) = true -> nth j (st_br p) NaN = Fin m).
    { intros j Hj. apply (mem_iminbr _ _ _ _ Hb) in Hj. rewrite Em in Hj. cbn [neqb ERNum] in Hj.
      destruct (nth j (st_br p) NaN) as [b| | |]; try discriminate. cbn [er_eqb] in Hj. destruct (Reqb_spec b m); [now subst|discriminate]. }
    assert (Bx : boxed A theta c) by (exact (truncated_boxed O A theta (A_theta x g H D dv delta theta lb ub) (th01 n x g H D dv delta theta lb ub P) (A_len n x g H D dv delta theta lb ub P) p c Hb Ha Hc)).
    unfold tr_step_truncated in Hc. rewrite E0, Ez, Eos, Eow, Hsub, h_trunc_subspace in Hc.
    assert (Hfin' : forall i, mem i (st_iminbr p) = true -> exists b, nth i (st_br p) NaN = Fin b) by (intros i Hi; eexists; apply Hfin, Hi).
    destruct (trunc_fv n theta p z0 os) as (z0' & E0' & L0' & _); auto. { apply (bx_th _ _ _ Hb). }
    destruct (trunc_fv n theta p z w) as (z' & Ez' & Lz' & Nz'); auto. { apply (bx_th _ _ _ Hb). }
    rewrite E0', Ez' in Hc.
    assert (Hzw : forall i, nth i z 0 = 0 \/ nth i w 0 = 0).
    { intros i. destruct (Req_dec (nth i w 0) 0) as [E|E]; [now right|left; apply Hz, Hw, E]. }
    assert (Nn : rnorm z' <= rho).
    { eapply Rle_trans; [|exact N2]. apply sqrt_le_1_alt, dot_mono; [rlen|]. intros i.
      destruct (Nat.lt_ge_cases i n) as [Hi|Hi]; [|rewrite !nth_overflow by rlen; lra].
      rewrite Nz' by auto. rewrite nth_radd by rlen. destruct (mem i (st_iminbr p)) eqn:M.
      - rewrite (Hfin i M). cbn [Prop_Secular.er_val]. rewrite <- Eam'. destruct (Hzw i) as [E|E]; rewrite E.
        + rewrite !Rplus_0_l. pose proof (Rle_0_sqr (nth i w 0)) as Sq. unfold Rsqr in Sq.
          assert (0 <= a * a <= 1) by nra. nra.
        + lra.
      - destruct (Hzw i) as [E|E]; rewrite E; [|lra]. pose proof (Rle_0_sqr (nth i w 0)) as Sq. unfold Rsqr in Sq. lra. }
    eapply trunc_calc in Hc; [..|exact Hex].
    - destruct Hc as [(w' & Hs)|Hn]; [left; eauto|right; exact Hn].
    - reflexivity.
    - intros j. replace (vadd (a_x A) (fv z0')) with (st_x c); [apply (bx_in _ _ _ Bx)|].
      apply calculate_fields in Hc as (sc & ss & s & _ & _ & _ & Hst & _). destruct Hst. rewrite sb_x. reflexivity.
    - now apply rtrunc_length.
    - apply rtrunc_unit.
    - now apply rtrunc_apart.
    - intros i Hi. apply rtrunc_live in Hi as [Hl Hmi].
      destruct (Nat.lt_ge_cases i n) as [Hi|Hi]; [|now rewrite nth_overflow by lia]. rewrite Nz', Hmi by auto. now apply Hz.
    - exact L0'.
    - exact Lz'.
    - exact Nn.
  Qed.

  Local Notation ok c := (in_region rho c \/ nan_step n c).
  Lemma split_ok sub w z c : split_at sub w z c -> ok c.
  Proof. intros Hs. left. eapply fcand_in; [exact P|exact (sp_cand _ _ _ _ Hs)]. Qed.
  Lemma nc_ok c : nc c -> ok c.
  Proof. intros Hc. right. eapply ncand_nan; eauto. Qed.

  Lemma trunc_loop_region : forall k p l, (exists sub w z, split_at sub w z p) \/ nc p -> truncate_loop k O A p = Ok l ->
    Forall (solved_within O delta) l -> Forall (fun c => ok c) l.
  Proof.
    induction k; intros p l Hp Hl Hs; cbn [truncate_loop] in Hl; [discriminate|].
    destruct (st_subspace p) eqn:Esb; [apply Ok_inj in Hl; subst l; constructor|].
    destruct (st_alpha p =? n1)%num eqn:Ea; [apply Ok_inj in Hl; subst l; constructor|].
    destruct (calculate O (tr_step_truncated A p)) as [r|] eqn:Er; [|discriminate].
    destruct (truncate_loop k O A r) as [l'|] eqn:El; [|discriminate]. apply Ok_inj in Hl. subst l.
    inversion Hs as [|? ? Hr Hs']; subst.
    destruct Hp as [(sub & w & z & Hp)|Hp].
    - pose proof (trunc_next _ _ _ _ _ Hp Ea Er Hr) as Hn. constructor.
      + destruct Hn as [(sub' & w' & z' & Hn)|Hn]; [eapply split_ok; eauto|now apply nc_ok].
      + eapply IHk; eauto.
    - rewrite (ncand_stops n x g H D dv delta theta lb ub p Hp) in Ea. discriminate.
  Qed.

  Lemma stepback_truncate_region sub w z p l : split_at sub w z p -> (st_alpha p =? n1)%num = false ->
    stepback_truncate O A p = Ok l -> Forall (solved_within O delta) l -> Forall (fun c => ok c) l.
  Proof.
    intros Hp Ea Hl Hs. unfold stepback_truncate in Hl. destruct (calculate O (tr_step_truncated A p)) as [r|] eqn:Er; [|discriminate].
    destruct (truncate_loop _ O A r) as [l'|] eqn:El; [|discriminate]. apply Ok_inj in Hl. subst l.
    inversion Hs as [|? ? Hr Hs']; subst. pose proof (trunc_next _ _ _ _ _ Hp Ea Er Hr) as Hn. constructor.
    - destruct Hn as [(sub' & w' & z' & Hn)|Hn]; [eapply split_ok; eauto|now apply nc_ok].
    - eapply trunc_loop_region; eauto.
  Qed.

  (** all candidates of a problem whose main step is of that form *)
  Lemma candidates_split sd strat l : strat <> "refine"%string ->
    (forall c, main_step O A sd = Ok c -> solved_within O delta c -> (exists sub w z, split_at sub w z c) \/ nc c) ->
    candidates O A sd strat = Ok l -> Forall (solved_within O delta) l ->
    Forall (fun c => ok c) l.
  Proof.
    intros Hs Hmain Hl Hex. pose proof P as P'. destruct P'. pose proof two26 as He.
    unfold candidates in Hl. destruct (main_step O A sd) as [tr|] eqn:Em; [|discriminate]. cbn [rbind] in Hl.
    destruct ((st_alpha tr <? n1)%num && Nat.ltb 1 (length (a_sg A)))%bool eqn:Ec.
    2:{ apply Ok_inj in Hl. subst l. inversion Hex; subst. constructor; [|constructor].
        destruct (Hmain _ eq_refl) as [(sub & w & z & Hm)|Hm]; auto; [eapply split_ok; eauto|now apply nc_ok]. }
    apply andb_true_iff in Ec as [Ea _]. apply lt_neq in Ea.
    unfold extra_steps in Hl. destruct (calculate O (gradient_step A)) as [gs|] eqn:Eg; [|discriminate]. cbn [rbind] in Hl.
    assert (Hg : ok gs). { left. eapply in_region_le; [|eapply (C33_gradient O n x g H D dv delta theta lb ub P); exact Eg]. lra. }
    assert (Htr : solved_within O delta tr).
    { match type of Hl with rbind ?m _ = _ => destruct m as [ex|]; [|discriminate] end. cbn [rbind] in Hl.
      apply Ok_inj in Hl. subst l. now inversion Hex. }
    destruct (Hmain tr eq_refl Htr) as [(sub & w & z & Hm)|Hm].
    2:{ rewrite (ncand_stops n x g H D dv delta theta lb ub tr Hm) in Ea. discriminate. }
    destruct (String.eqb_spec strat "refine") as [E|_]; [contradiction|]. cbn [andb] in Hl.
    match type of Hl with rbind (rbind ?m _) _ = _ => destruct m as [sr|] eqn:Esr; [|discriminate] end. cbn [rbind] in Hl.
    match type of Hl with rbind (rbind ?m _) _ = _ => destruct m as [rf|] eqn:Erf; [|discriminate] end. cbn [rbind] in Hl.
    match type of Hl with rbind (rbind ?m _) _ = _ => destruct m as [tt|] eqn:Ett; [|discriminate] end. cbn [rbind] in Hl.
    apply Ok_inj in Hl. subst l. inversion Hex as [|? ? _ Hex1]; subst. inversion Hex1 as [|? ? _ Hex2]; subst.
    rewrite app_nil_r in *. apply Forall_app in Hex2 as [_ Hex2]. apply Forall_app in Hex2 as [_ Hex2].
    constructor; [eapply split_ok; eauto|]. constructor; [exact Hg|]. apply Forall_app. split; [|apply Forall_app; split].
    - destruct (String.eqb strat "reflect_single") in Esr; [|apply Ok_inj in Esr; subst sr; constructor].
      destruct (calculate O (tr_step_reflected A tr)) as [r|] eqn:Er; [|discriminate]. cbn [rbind] in Esr. apply Ok_inj in Esr. subst sr.
      constructor; [|constructor].
      destruct (reflected_next O n x g H D dv delta theta lb ub P tr r w z (sp_cand _ _ _ _ Hm) Er) as [(w' & z' & Hr)|Hr]; [left; eapply fcand_in; eauto|now apply nc_ok].
    - destruct (_ || _)%bool in Erf; [|apply Ok_inj in Erf; subst rf; constructor].
      eapply (stepback_reflect_region O n x g H D dv delta theta lb ub P); [exact (sp_cand _ _ _ _ Hm)|exact Erf].
    - destruct (_ || _)%bool in Ett; [|apply Ok_inj in Ett; subst tt; constructor].
      eapply stepback_truncate_region; eauto.
  Qed.

  Lemma reye_apart : ForallOrdPairs apart (reye n).
  Proof.
    clear P. unfold reye. generalize (seq_NoDup n 0). generalize (seq 0 n) at 1 3. induction l as [|i l IH]; intros Hd; cbn [map]; [constructor|].
    inversion Hd as [|? ? Hi Hd']; subst. constructor; [|now apply IH]. apply Forall_map, Forall_forall. intros j Hj k.
    destruct (Nat.lt_ge_cases k n) as [Hk|Hk]; [|left; apply nth_overflow; rewrite map_length, seq_length; lia].
    assert (K : forall i, nth k (map (fun j => if Nat.eqb i j then 1 else 0) (seq 0 n)) 0 = if Nat.eqb i k then 1 else 0).
    { intros i'. rewrite (nth_indep _ 0 ((fun j => if Nat.eqb i' j then 1 else 0) 0%nat)) by (rewrite map_length, seq_length; lia).
      rewrite (map_nth (fun j => if Nat.eqb i' j then 1 else 0)), seq_nth by lia. reflexivity. }
    rewrite !K. destruct (Nat.eqb_spec i k); [|now left]. destruct (Nat.eqb_spec j k); [|now right]. subst. contradiction.
  Qed.
  Lemma reye_unit : Forall (fun v => rnorm v <= 1) (reye n).
  Proof.
    clear P. apply Forall_forall. intros v Hv. apply (In_nth _ _ []) in Hv as (i & Hi & <-).
    pose proof (orthonormal_eye n i i Hi Hi) as E. rewrite Nat.eqb_refl in E. apply rnorm_le; lra.
  Qed.

  (** *** solver "full": every candidate, truncated ones included, stays in the trust region (up to the tolerance 2^-26 of
      the subproblem solver) or is NaN throughout, provided the external routines solve its reduced problem *)
  Theorem C33_truncated_full : forall strat l,
    strat <> "refine"%string ->
    candidates O A "full" strat = Ok l ->
    Forall (solved_within O delta) l ->
    Forall (fun c => in_region (delta + / IZR (2 ^ 26)) c \/ nan_step n c) l.
  Proof.
    intros strat l Hs Hl Hex. eapply candidates_split; [exact Hs| |exact Hl|exact Hex].
    intros c Hc Hsw. pose proof P as P'. destruct P'. pose proof two26 as He.
    apply main_step_cases in Hc as [(E & _)|[(_ & Hc)|(E & _)]]; try discriminate.
    unfold tr_step_full in Hc. change (a_hess A) with (fm H) in Hc. destruct pb_H as [LH _].
    rewrite fm_length, LH, h_eye, (zeros_rA n x g H D dv delta theta lb ub P) in Hc.
    apply trunc_calc in Hc; auto.
    - destruct Hc as [(w & Hw)|Hn]; [left; eauto|now right].
    - rewrite <- (zeros_rA n x g H D dv delta theta lb ub P). symmetry. apply x_zeros. apply (A_len n x g H D dv delta theta lb ub P).
    - apply (A_box n x g H D dv delta theta lb ub P).
    - apply is_mat_eye.
    - apply reye_unit.
    - apply reye_apart.
    - intros i _. apply nth_rzeros.
    - apply zlen.
    - apply zlen.
    - rewrite znorm. lra.
  Qed.
End TruncFull.

(** *** the hypotheses are met by a concrete indefinite problem with an active radius and a bound, whose main step is stepped
    back and truncated *)
Definition t3_lb : list ER := [Fin (- / 2); NInf].
Definition t3_A := rA [0; 0] [3; 0] (diag2 (-1) 1) [1; 1] [0; 0] 1 (/ 2) t3_lb [PInf; PInf].
Lemma t3_problem : problem 2 [0; 0] [3; 0] (diag2 (-1) 1) [1; 1] [0; 0] 1 (/ 2) t3_lb [PInf; PInf].
Proof.
  pose proof r3_problem as Q. destruct Q. constructor; auto.
  intros i Hi. destruct i as [|[|]]; [| |lia]; split; cbn; auto. destruct (Rleb_spec (- / 2) 0); [auto|lra].
Qed.
Lemma t3_main : exists c, main_step r3_la t3_A "full" = Ok c /\ st_subspace c = fm (reye 2) /\ solved_within r3_la 1 c
  /\ (st_alpha c <? n1)%num = true /\ exists i, (i < 2)%nat /\ mem i (st_iminbr c) = true.
Proof.
  destruct C28_ex_newton as (HP & HN & Hsm & Hg).
  destruct (C28_solves 2 (diag2 (-1) 1) [3; 0] 1 [-1; 1] (reye 2) (so_sub r3_la) (-1) HP Hsm (or_introl HN)) as (r & lab & Es & Nr & Mr & _).
  { right. right. exists 0%nat. repeat split; [lia|exact Hg]. }
  pose proof t3_problem as P. pose proof (rA_shess 2 _ _ _ _ _ _ _ _ _ P) as Esh. pose proof (rA_sg [0; 0] [3; 0] (diag2 (-1) 1) [1; 1] [0; 0] 1 (/ 2) t3_lb [PInf; PInf]) as Esg.
  fold t3_A in Esh, Esg.
  assert (EB : rB 2 [3; 0] (diag2 (-1) 1) [1; 1] [0; 0] = diag2 (-1) 1).
  { unfold rB, rshess, diag2, rabsv, rmul, entry. simpl. repeat f_equal; lra. }
  assert (Eg : rsg [3; 0] [1; 1] = [3; 0]) by (unfold rsg, rmul; simpl; repeat f_equal; lra).
  rewrite EB in Esh. rewrite Eg in Esg.
  set (st := tr_step_full t3_A).
  assert (Esub : st_subspace st = fm (reye 2)) by (unfold st, tr_step_full; cbn [new_step st_subspace]; change (length (a_hess t3_A)) with 2%nat; apply h_eye).
  assert (E1 : st_shess st = fm (diag2 (-1) 1)) by exact Esh.
  assert (E2 : st_sg st = fv [3; 0]) by exact Esg.
  assert (Ech : subspace_hess st = fm (diag2 (-1) 1)).
  { unfold subspace_hess. rewrite Esub, E1. unfold fm at 1 3. rewrite map_map. unfold diag2 at 2, fm.
    cbn [reye map seq]. change (map fv (diag2 (-1) 1)) with (fm (diag2 (-1) 1)). rewrite !h_matvec, !h_dot.
    unfold rmv, rdot, diag2. simpl. repeat f_equal; lra. }
  assert (Ecg : tmatvec (st_subspace st) (st_sg st) = fv [3; 0]).
  { rewrite Esub, E2, h_tmatvec. f_equal. unfold rmv, reye, rdot. simpl. repeat f_equal; lra. }
  assert (Z0 : zeros_of t3_A = fv (rzeros 2)) by (unfold t3_A; rewrite (zeros_rA 2 _ _ _ _ _ _ _ _ _ P); reflexivity).
  assert (Ed : nsqrt (pymax (nsq (Fin 1) - nsq (norm (fv (rzeros 2))))%num n0) = Fin 1).
  { rewrite h_norm. replace (rnorm (rzeros 2)) with 0 by (unfold rnorm; rewrite rdot_zeros_l, sqrt_0; reflexivity).
    unfold nsq, pymax. cbn [nsub nmul nltb nsqrt ERNum er_sub er_add er_opp er_mul er_ltb n0 nofZ].
    destruct (Rltb_spec (1 * 1 + - (0 * 0)) 0); [lra|]. cbn [er_sqrt].
    destruct (Rltb_spec (1 * 1 + - (0 * 0)) 0); [lra|]. f_equal. replace (1 * 1 + - (0 * 0)) with 1 by ring. apply sqrt_1. }
  assert (Hex : exists c, calculate r3_la st = Ok c).
  { unfold calculate. assert (K : exists c, compute_step r3_la (reduce_to_subspace st) = Ok c); [|destruct K as (c & ->); eexists; reflexivity].
    unfold compute_step. change (st_subspace (reduce_to_subspace st)) with (st_subspace st). rewrite Esub. cbn [fm map reye seq].
    change (st_chess (reduce_to_subspace st)) with (subspace_hess st). change (st_cg (reduce_to_subspace st)) with (tmatvec (st_subspace st) (st_sg st)).
    rewrite Ech, Ecg.
    change (st_delta (reduce_to_subspace st)) with (Fin 1). change (st_ss0 (reduce_to_subspace st)) with (zeros_of t3_A).
    rewrite Z0, Ed, Es. eexists. reflexivity. }
  destruct Hex as (c & Hc). exists c. split; [exact Hc|].
  pose proof (calculate_fields r3_la st c Hc) as (sc & ss & s & Hsol & Ess & Es' & Hst & _ & Kch & Kcg).
  assert (Esc : st_subspace c = fm (reye 2)) by (destruct Hst; now rewrite sb_subspace).
  split; [exact Esc|].
  assert (Ess0 : st_ss0 c = fv (rzeros 2)) by (destruct Hst; rewrite sb_ss0; exact Z0).
  split.
  { intros _. exists 2%nat, (diag2 (-1) 1), [3; 0], [-1; 1], (reye 2), (rzeros 2), 1. rewrite Kch, Kcg.
    split; [exact Ess0|]. split; [lra|]. split; [rewrite rdot_zeros_l; lra|]. split; [exact Ech|]. split; [exact Ecg|].
    split; [exact HP|]. left. exact HN. }
  (* the step *)
  revert Hsol. unfold solved. rewrite Ecg, Ech. rewrite Esub. cbn [fm map reye seq].
  change (st_delta st) with (Fin 1). change (st_ss0 st) with (zeros_of t3_A). rewrite Z0, Ed, Es.
  intros (lab' & Hsol). apply Ok_inj in Hsol. apply pair_equal_spec in Hsol as [<- _].
  assert (L0 : length (st_s0 st) = 2%nat) by (change (st_s0 st) with (zeros_of t3_A); rewrite Z0; reflexivity).
  rewrite L0, Esub, h_lincomb in Ess. rewrite Esub in Es'. cbn [fm map reye seq] in Es'.
  change (st_scaling st) with (fv [1; 1]) in Es'. subst ss. rewrite h_vmul in Es'.
  destruct (C27_with_newton 2 _ _ _ _ _ _ _ _ HP (or_introl HN) Es) as (r' & Er & Lr & _). apply fv_inj in Er. subst r'.
  destruct r as [|a [|b [|]]]; try discriminate Lr.
  replace (rmul [1; 1] (rlincomb 2 [a; b] (reye 2))) with [a; b] in Es'.
  2:{ unfold rmul, reye, rscale. cbn. repeat f_equal; ring. }
  assert (N1 : rnorm [-1; 0] <= 1) by (apply rnorm_le; [lra|]; cbn; lra).
  specialize (Mr [-1; 0] eq_refl N1). unfold qmodel, rform, rmv, rdot, diag2 in Mr. cbn in Mr.
  assert (N2 : a * a + b * b <= 101 / 100).
  { assert (E26 : / IZR (2 ^ 26) <= / 1000) by (apply Rinv_le_contravar; [lra|apply IZR_le; discriminate]).
    pose proof (rnorm_sq [a; b]) as Q. cbn [rdot] in Q. pose proof (rnorm_nonneg [a; b]). nra. }
  assert (Na : a < - / 2) by nra.
  assert (Bx : boxed t3_A (/ 2) c).
  { eapply stepped_boxed; [reflexivity| | |exact Hst].
    - apply (start_eq 2 [0; 0] [3; 0] (diag2 (-1) 1) [1; 1] [0; 0] 1 (/ 2) t3_lb [PInf; PInf] P).
    - apply (A_box 2 [0; 0] [3; 0] (diag2 (-1) 1) [1; 1] [0; 0] 1 (/ 2) t3_lb [PInf; PInf] P). }
  assert (Eog : st_og_s c = fv [a; b]) by (destruct Hst; rewrite sb_og_s; exact Es').
  assert (Ex : st_x c = fv [0; 0]) by (destruct Hst; rewrite sb_x; reflexivity).
  destruct (back_real 2 (/ 2) t3_lb [PInf; PInf] ltac:(lia) ltac:(lra) eq_refl eq_refl [0; 0] [a; b] (st_br c)) as [Lbr (al & Eal & Hal & Hmb & _) _]; auto.
  { apply (pb_box 2 _ _ _ _ _ _ _ _ _ P). }
  { rewrite (bx_br _ _ _ Bx), Ex, Eog. reflexivity. }
  rewrite <- (bx_minbr _ _ _ Bx), <- (bx_alpha _ _ _ Bx) in Eal. rewrite <- (bx_minbr _ _ _ Bx) in Hmb.
  assert (Hlt : al < 1).
  { apply Rnot_le_lt. intros Hge. assert (al = 1) by lra. subst al.
    pose proof (A_len 2 [0; 0] [3; 0] (diag2 (-1) 1) [1; 1] [0; 0] 1 (/ 2) t3_lb [PInf; PInf] P) as HA.
    assert (Ft : fits c (st_alpha c)) by (apply (alpha_fits t3_A (/ 2)); [lra|exact HA|exact Bx]).
    destruct (fits_coordinate t3_A (/ 2) HA c (st_alpha c) 0 Bx Ft) as [K|[K _]];
      rewrite Ex, Eog, Eal in K; change (nth 0 (a_lb t3_A) NaN) with (Fin (- / 2)) in K; cbn in K; [discriminate|].
    destruct (Rleb_spec (- / 2) (0 + a * 1)); [lra|discriminate]. }
  split.
  - rewrite Eal. cbn [nltb ERNum er_ltb n1 nofZ]. destruct (Rltb_spec al 1); [reflexivity|lra].
  - destruct Hmb as [[_ E]|(m & Em & _ & _ & i & Hi & Ei)]; [lra|]. exists i. split; [exact Hi|].
    rewrite (bx_im _ _ _ Bx), mem_where. erewrite nth_indep by (rewrite map_length; lia).
    rewrite (map_nth (fun b => neqb b (st_minbr c)) (st_br c) NaN i), Ei, Em. cbn [neqb ERNum er_eqb]. destruct (Reqb_spec m m); [auto|lra].
Qed.

(** fewer than two columns: nothing is asked of the external routines *)
Lemma solved_small (O : StepOracles ER) r c : (length (st_subspace r) <= 1)%nat -> calculate O r = Ok c -> solved_within O 1 c.
Proof.
  intros Hl Hc H2. apply calculate_fields in Hc as (sc & ss & s & _ & _ & _ & Hst & _). destruct Hst. rewrite sb_subspace in H2. lia.
Qed.
Lemma rtrunc_shorter idx sub : (length (rtrunc idx sub) <= length sub)%nat.
Proof. unfold rtrunc. rewrite map_length. eapply Nat.le_trans; [apply filter_length_le|]. now rewrite map_length. Qed.
Lemma small_loop (O : StepOracles ER) A : forall k p l, (length (st_subspace p) <= 1)%nat -> truncate_loop k O A p = Ok l ->
  Forall (solved_within O 1) l.
Proof.
  induction k; intros p l Hp Hl; cbn [truncate_loop] in Hl; [discriminate|].
  destruct (st_subspace p) eqn:Esb; [apply Ok_inj in Hl; subst l; constructor|]. rewrite <- Esb in Hp.
  destruct (st_alpha p =? n1)%num; [apply Ok_inj in Hl; subst l; constructor|].
  destruct (calculate O (tr_step_truncated A p)) as [r|] eqn:Er; [|discriminate].
  destruct (truncate_loop k O A r) as [l'|] eqn:El; [|discriminate]. apply Ok_inj in Hl. subst l.
  assert (Hs : (length (st_subspace (tr_step_truncated A p)) <= 1)%nat).
  { unfold tr_step_truncated. cbn [new_step st_subspace]. unfold trunc_subspace. rewrite map_length.
    eapply Nat.le_trans; [apply filter_length_le|]. now rewrite map_length. }
  constructor; [eapply solved_small; eauto|]. eapply IHk; [|exact El].
  apply calculate_fields in Er as (sc & ss & s & _ & _ & _ & Hst & _). destruct Hst. now rewrite sb_subspace.
Qed.
Lemma small_stops (O : StepOracles ER) A : forall k p e, (length (st_subspace p) <= 1)%nat -> truncate_loop k O A p = Err e -> e = EDiverge.
Proof.
  induction k; intros p e Hp Hl; cbn [truncate_loop] in Hl; [now injection Hl as <-|].
  destruct (st_subspace p) eqn:Esb; [discriminate|]. rewrite <- Esb in Hp.
  destruct (st_alpha p =? n1)%num; [discriminate|].
  assert (Hs : (length (st_subspace (tr_step_truncated A p)) <= 1)%nat).
  { unfold tr_step_truncated. cbn [new_step st_subspace]. unfold trunc_subspace. rewrite map_length.
    eapply Nat.le_trans; [apply filter_length_le|]. now rewrite map_length. }
  destruct (calculate_small O (tr_step_truncated A p) Hs) as (r & Er). rewrite Er in Hl.
  destruct (truncate_loop k O A r) as [l'|e'] eqn:El; [discriminate|]. injection Hl as <-. eapply IHk; [|exact El].
  apply calculate_fields in Er as (sc & ss & s & _ & _ & _ & Hst & _). destruct Hst. now rewrite sb_subspace.
Qed.

Lemma t3_shorter idx i : (i < 2)%nat -> mem i idx = true -> (length (rtrunc idx (reye 2)) <= 1)%nat.
Proof.
  intros Hi Hm. unfold rtrunc. rewrite map_length.
  assert (Z : forall v, vall_zero (fv v) = false -> nonzero v) by (intros v Hv; now apply h_all_zero_false).
  destruct (vall_zero (fv (zeroed idx [1; 0]))) eqn:E0, (vall_zero (fv (zeroed idx [0; 1]))) eqn:E1.
  all: change (reye 2) with [[1; 0]; [0; 1]]; cbn [map filter]; rewrite E0, E1; cbn [negb length]; try lia.
  exfalso. apply Z in E0. apply Z in E1. destruct E0 as (j & Hj), E1 as (k & Hk). rewrite nth_zeroed in Hj, Hk.
  assert (j = 0%nat) by (destruct j as [|[|[|]]]; auto; exfalso; apply Hj; match goal with |- (if ?b then _ else _) = _ => destruct b end; reflexivity).
  assert (k = 1%nat) by (destruct k as [|[|[|]]]; auto; exfalso; apply Hk; match goal with |- (if ?b then _ else _) = _ => destruct b end; reflexivity).
  subst j k. destruct i as [|[|]]; [| |lia]; rewrite Hm in *; contradiction.
Qed.

Example C33_truncated_ex : exists l, candidates r3_la t3_A "full" "truncate" = Ok l /\ (3 <= length l)%nat
  /\ Forall (solved_within r3_la 1) l /\ Forall (fun c => in_region (1 + / IZR (2 ^ 26)) c \/ nan_step 2 c) l.
Proof.
  destruct t3_main as (main & Hm & Hsub & Hsw & Hlt & i & Hi & Hmi). pose proof t3_problem as P.
  assert (Ha : (st_alpha main =? n1)%num = false) by now apply lt_neq.
  destruct (calculate_small r3_la (gradient_step t3_A)) as (gs & Hgs); [simpl; lia|].
  assert (F1 : finite_eig (so_sub r3_la)).
  { intros bb ev vecs E. injection E as <- <-. exists [-1; 1], (reye 2). split; reflexivity. }
  assert (F3 : roots_raise (so_sub r3_la) (fun e => e <> EDiverge)) by (split; intros; discriminate).
  assert (Hc : calculate r3_la (tr_step_full t3_A) = Ok main).
  { apply main_step_cases in Hm as [(E & _)|[(_ & E)|(E & _)]]; try discriminate E. exact E. }
  destruct (main_full_regular r3_la 2 _ _ _ _ _ _ _ _ _ P F1 main Hc) as (sub & Hr).
  set (idx := st_iminbr main) in *.
  assert (Hs1 : (length (st_subspace (tr_step_truncated t3_A main)) <= 1)%nat).
  { unfold tr_step_truncated. cbn [new_step st_subspace]. rewrite Hsub, h_trunc_subspace, fm_length. now apply (t3_shorter idx i). }
  destruct (calculate_small r3_la _ Hs1) as (tc & Htc).
  assert (Hs2 : (length (st_subspace tc) <= 1)%nat).
  { pose proof Htc as Htc'. apply calculate_fields in Htc' as (sc & ss & s & _ & _ & _ & Hst & _). destruct Hst. now rewrite sb_subspace. }
  assert (Ht : exists l, stepback_truncate r3_la t3_A main = Ok (tc :: l) /\ Forall (solved_within r3_la 1) (tc :: l)).
  { assert (Fu : (2 + (if true then 0 else 1) <= so_trfuel r3_la)%nat) by (simpl; lia).
    pose proof (truncations_bounded r3_la 2 _ _ _ _ _ _ _ _ _ P F1 true sub main Fu F3 Hr Ha) as B. fold t3_A in B.
    unfold stepback_truncate in *. rewrite Htc in *.
    destruct (truncate_loop (so_trfuel r3_la) r3_la t3_A tc) as [l|e] eqn:El.
    - exists l. split; [reflexivity|]. constructor; [exact (solved_small _ _ _ Hs1 Htc)|exact (small_loop _ _ _ _ _ Hs2 El)].
    - exfalso. pose proof (small_stops _ _ _ _ _ Hs2 El). destruct B as [(l & E & _)|(e' & E & He)]; [discriminate|].
      apply He. injection E as <-. assumption. }
  destruct Ht as (l & Hl & Hsl).
  assert (HC : candidates r3_la t3_A "full" "truncate" = Ok (main :: gs :: tc :: l)).
  { unfold candidates. rewrite Hm. cbn [rbind]. rewrite Hlt. change (Nat.ltb 1 (length (a_sg t3_A))) with true. cbn [andb].
    unfold extra_steps. rewrite Hgs. cbn [rbind String.eqb Ascii.eqb Bool.eqb orb andb]. rewrite Hl. cbn [rbind app]. rewrite app_nil_r. reflexivity. }
  exists (main :: gs :: tc :: l). split; [exact HC|]. split; [cbn [length]; lia|].
  assert (Hsa : Forall (solved_within r3_la 1) (main :: gs :: tc :: l)).
  { constructor; [exact Hsw|]. constructor; [|exact Hsl]. eapply solved_small; [|exact Hgs]. simpl. lia. }
  split; [exact Hsa|]. eapply (C33_truncated_full r3_la 2 _ _ _ _ _ _ _ _ _ P "truncate"); [discriminate|exact HC|exact Hsa].
Qed.

(** C32_predicted_decrease: the hypotheses are met by the main candidate of that problem *)
Example C32_ex : exists l c z, shaped r3_la [3; 0] (fm (diag2 (-1) 1)) [1; 1] (fv [0; 0]) 2
  /\ candidates r3_la (tr_args (fv [0; 0]) (fv [3; 0]) (fm (diag2 (-1) 1)) (fv [1; 1]) (Fin 1) (fv [0; 0]) (Fin (/ 2)) t3_lb [PInf; PInf]) "full" "truncate" = Ok l
  /\ In c l /\ vadd (st_ss c) (st_ss0 c) = fv z /\ (st_alpha c <? n1)%num = true.
Proof.
  destruct C33_truncated_ex as (l & Hl & _). destruct t3_main as (main & Hm & Hsub & Hsw & Hlt & _). pose proof t3_problem as P.
  assert (Hin : In main l).
  { unfold candidates in Hl. rewrite Hm in Hl. cbn [rbind] in Hl.
    match type of Hl with (if ?c then _ else _) = _ => destruct c end; [|apply Ok_inj in Hl; subst l; now left].
    match type of Hl with rbind ?m _ = _ => destruct m as [ex|]; [|discriminate] end. cbn [rbind] in Hl. apply Ok_inj in Hl. subst l. now left. }
  assert (Hc : calculate r3_la (tr_step_full t3_A) = Ok main).
  { apply main_step_cases in Hm as [(E & _)|[(_ & E)|(E & _)]]; try discriminate E. exact E. }
  assert (E0 : st_ss0 main = fv (rzeros 2)).
  { apply calculate_fields in Hc as (sc & ss & s & _ & _ & _ & Hst & _). destruct Hst. rewrite sb_ss0.
    change (st_ss0 (tr_step_full t3_A)) with (zeros_of t3_A). unfold t3_A. rewrite (zeros_rA 2 _ _ _ _ _ _ _ _ _ P). reflexivity. }
  assert (Hse : solved_exactly r3_la 1 main).
  { intros H2. destruct (Hsw H2) as (k & Bc & gc & vals & vecs & zz & r & Ez & Hr & Epy & Eb & Eg & HP & HN).
    rewrite E0 in Ez. apply fv_inj in Ez. subst zz. rewrite rdot_zeros_l in Epy. assert (r = 1) by nra. subst r.
    exists k, Bc, gc, vals, vecs. auto. }
  destruct (C33_main r3_la 2 _ _ _ _ _ _ _ _ _ P "full"%string main) as (z & Ez & _); [|exact Hm|].
  { split; [discriminate|]. split; [auto|discriminate]. }
  exists l, main, z. split; [|split; [exact Hl|split; [exact Hin|split; [exact Ez|exact Hlt]]]].
  split; [intros b v E; discriminate|]. split; [intros e1 e2 v E; discriminate|]. split; [reflexivity|]. repeat constructor.
Qed.
