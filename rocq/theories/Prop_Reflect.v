(** C58: where reflected and truncated candidates go (exact arithmetic) *)
From Coq Require Import String ZArith List Bool Reals Lra Lia Psatz.
From Verif Require Import Num Subproblem Steps TrustRegion ER NumFacts RVec Ortho SubNd Prop_Secular Prop_SubNd RShess Argmin Cand StepFacts Prop_Sub1d Prop_Pred Prop_Box Prop_Cand TRErr RealStep Prop_Grad GradEx Region Prop_Trunc Prop_CG Prop_Stepback Prop_TwoD Prop_Region Prop_StepFind WitnessER.
Import ListNotations.
Local Open Scope R_scope.
Local Open Scope list_scope.

(** *** vocabulary *)
(** moving from y in direction s, the coordinate is exactly at its bound after the fraction m *)
Definition hits (lo hi : ER) (y s m : R) : Prop := (0 < s /\ hi = Fin (y + m * s)) \/ (s < 0 /\ lo = Fin (y + m * s)).
(** [m] is the fraction of the step [s] at which the first bound is met, and [idx] are the coordinates that meet it there *)
Definition first_hit (n : nat) (lb ub : list ER) (y s : rvec) (m : R) (idx : list nat) : Prop :=
  (exists i, (i < n)%nat /\ mem i idx = true)
  /\ forall i, (i < n)%nat -> (mem i idx = true <-> hits (nth i lb NaN) (nth i ub NaN) (nth i y 0) (nth i s 0) m)
       /\ forall m', hits (nth i lb NaN) (nth i ub NaN) (nth i y 0) (nth i s 0) m' -> m <= m'.
(** [w'] is [w] with the sign of the coordinates in [idx] changed *)
Definition mirrored (idx : list nat) (w w' : rvec) : Prop :=
  length w' = length w /\ forall i, nth i w' 0 = if mem i idx then - nth i w 0 else nth i w 0.

(** the breakpoint of one coordinate *)
Lemma breakpoint_hits lo hi y s : inside lo y hi ->
  (breakpoint (Fin y) (Fin s) lo hi = PInf /\ forall m, ~ hits lo hi y s m)
  \/ exists m, breakpoint (Fin y) (Fin s) lo hi = Fin m /\ forall m', hits lo hi y s m' <-> m' = m.
Proof.
  intros [Hl Hu]. unfold breakpoint. cbn [nabs ERNum nltb n0 nofZ er_abs er_ltb].
  destruct (Rltb_spec 0 (Rabs s)) as [Hs|Hs].
  2:{ left. split; [reflexivity|]. assert (s = 0) as ->.
      { destruct (Req_dec s 0); auto. pose proof (Rabs_pos_lt s H). lra. }
      intros m [[K _]|[K _]]; lra. }
  assert (Hne : s <> 0) by (intros ->; rewrite Rabs_R0 in Hs; lra).
  assert (Ls : lo = NInf \/ exists l', lo = Fin l' /\ l' <= y).
  { destruct lo as [l'| | |]; cbn in Hl; try discriminate; auto. right. exists l'. split; auto. now apply Rleb_true. }
  assert (Us : hi = PInf \/ exists u', hi = Fin u' /\ y <= u').
  { destruct hi as [u'| | |]; cbn in Hu; try discriminate; auto. right. exists u'. split; auto. now apply Rleb_true. }
  assert (Mp : forall a b0, npmax2 (Fin a) (Fin b0) = Fin (Rmax a b0)).
  { intros a b0. unfold npmax2. cbn [nisnan ERNum er_isnan nltb er_ltb]. unfold Rmax.
    destruct (Rltb_spec a b0), (Rle_dec a b0); try reflexivity; f_equal; lra. }
  assert (Up : forall u', 0 < s -> forall m', hits lo (Fin u') y s m' <-> m' = (u' - y) / s).
  { intros u' S m'. split.
    - intros [[_ E]|[K _]]; [|lra]. injection E as ->. field. lra.
    - intros ->. left. split; [exact S|]. f_equal. field. lra. }
  assert (Dn : forall l', s < 0 -> forall m', hits (Fin l') hi y s m' <-> m' = (l' - y) / s).
  { intros l' S m'. split.
    - intros [[K _]|[_ E]]; [lra|]. injection E as ->. field. lra.
    - intros ->. right. split; [exact S|]. f_equal. field. lra. }
  destruct (Rlt_dec 0 s) as [S|S].
  - destruct Us as [->|(u' & -> & Hu')].
    + left. split; [|intros m [[_ K]|[K _]]; [discriminate|lra]].
      destruct Ls as [->|(l' & -> & _)].
      * cbn [nsub ERNum er_sub er_opp er_add ndiv er_div]. destruct (Rltb_spec s 0); [lra|]. reflexivity.
      * cbn [nsub ERNum er_sub er_opp er_add ndiv er_div]. destruct (Rltb_spec s 0); [lra|]. destruct (Reqb_spec s 0); [lra|]. reflexivity.
    + right. exists ((u' - y) / s). split; [|now apply Up].
      destruct Ls as [->|(l' & -> & Hl')].
      * cbn [nsub ERNum er_sub er_opp er_add ndiv er_div]. destruct (Rltb_spec s 0); [lra|]. destruct (Reqb_spec s 0); [lra|]. reflexivity.
      * cbn [nsub ERNum er_sub er_opp er_add ndiv er_div]. destruct (Reqb_spec s 0); [lra|]. rewrite Mp. f_equal.
        change (u' + - y) with (u' - y). change (l' + - y) with (l' - y). apply Rmax_left.
        apply Rmult_le_compat_r; [left; now apply Rinv_0_lt_compat|lra].
  - assert (S' : s < 0) by lra. destruct Ls as [->|(l' & -> & Hl')].
    + left. split; [|intros m [[K _]|[_ K]]; [lra|discriminate]].
      destruct Us as [->|(u' & -> & Hu')].
      * cbn [nsub ERNum er_sub er_opp er_add ndiv er_div]. destruct (Rltb_spec s 0); [|lra]. reflexivity.
      * cbn [nsub ERNum er_sub er_opp er_add ndiv er_div]. destruct (Rltb_spec s 0); [|lra]. destruct (Reqb_spec s 0); [lra|]. reflexivity.
    + right. exists ((l' - y) / s). split; [|now apply Dn].
      destruct Us as [->|(u' & -> & Hu')].
      * cbn [nsub ERNum er_sub er_opp er_add ndiv er_div]. destruct (Rltb_spec s 0); [|lra]. destruct (Reqb_spec s 0); [lra|]. reflexivity.
      * cbn [nsub ERNum er_sub er_opp er_add ndiv er_div]. destruct (Reqb_spec s 0); [lra|]. rewrite Mp. f_equal.
        change (u' + - y) with (u' - y). change (l' + - y) with (l' - y). apply Rmax_right.
        assert (K : / s < 0) by now apply Rinv_lt_0_compat. unfold Rdiv. nra.
Qed.

Section Reflect.
  Variables (O : StepOracles ER) (n : nat) (x g : rvec) (H : rmat) (D dv : rvec) (delta theta : R) (lb ub : list ER).
  Hypothesis P : problem n x g H D dv delta theta lb ub.
  Local Notation A := (rA x g H D dv delta theta lb ub).
  Local Notation B := (rB n g H D dv).
  Local Notation sg := (rsg g D).
  Local Notation fc := (fcand n x g H D dv delta theta lb ub).
  Local Notation nc := (ncand n x g H D dv delta theta lb ub).
  Local Notation rho := (delta + / IZR (2 ^ 26)).
  Local Notation reg := (regular n x g H D dv delta theta lb ub).

  (** a candidate that was cut back: where it started, how far the first bound is, which coordinates meet it *)
  Lemma cut_first p z0 os : boxed A theta p -> st_s0 p = fv z0 -> length z0 = n -> st_og_s p = fv os -> length os = n ->
    (st_alpha p =? n1)%num = false ->
    exists m, st_minbr p = Fin m /\ 0 <= m /\ st_x p = fv (radd x z0) /\ first_hit n lb ub (radd x z0) os m (st_iminbr p)
      /\ forall i, (i < n)%nat -> mem i (st_iminbr p) = true -> nth i (st_br p) NaN = Fin m.
  Proof using P.
    intros Hb E0 L0 Eos Los Ha. pose proof P as P'. destruct P'.
    assert (Ex : st_x p = fv (radd x z0)) by (rewrite (bx_x _ _ _ Hb), E0; change (a_x A) with (fv x); apply h_vadd).
    assert (Ly : length (radd x z0) = n) by rlen.
    assert (Hin : box_in n lb ub (radd x z0)).
    { apply (nan_box n lb ub); auto. rewrite <- Ex. apply (bx_in _ _ _ Hb). }
    assert (Ebr : st_br p = breakpoints (fv (radd x z0)) (fv os) lb ub) by (rewrite (bx_br _ _ _ Hb), Ex, Eos; reflexivity).
    destruct (back_real n theta lb ub pb_n pb_theta pb_lb pb_ub (radd x z0) os (st_br p)) as [Lb (a & Ea & _ & Hm & _) Hbr]; auto.
    rewrite <- (bx_minbr _ _ _ Hb), <- (bx_alpha _ _ _ Hb) in Ea. rewrite <- (bx_minbr _ _ _ Hb) in Hm.
    destruct Hm as [[_ E1]|(m & Em & Hm0 & _ & i & Hi & Ei)].
    { exfalso. rewrite Ea, E1 in Ha. cbn [neqb ERNum n1 nofZ er_eqb] in Ha. destruct (Reqb_spec 1 1); [discriminate|lra]. }
    assert (Mi : forall j, (j < n)%nat -> (mem j (st_iminbr p) = true <-> nth j (st_br p) NaN = Fin m)).
    { intros j Hj. rewrite (bx_im _ _ _ Hb), mem_where. erewrite nth_indep by (rewrite map_length; lia).
      rewrite (map_nth (fun b => neqb b (st_minbr p)) (st_br p) NaN j), Em. cbn [neqb ERNum]. split.
      - destruct (nth j (st_br p) NaN) as [b| | |]; cbn [er_eqb]; try discriminate. destruct (Reqb_spec b m); [intros _; now subst|discriminate].
      - intros ->. cbn [er_eqb]. destruct (Reqb_spec m m); [auto|lra]. }
    assert (Nb : forall j, (j < n)%nat -> nth j (st_br p) NaN = breakpoint (Fin (nth j (radd x z0) 0)) (Fin (nth j os 0)) (nth j lb NaN) (nth j ub NaN)).
    { intros j Hj. rewrite Ebr. destruct (nth_breakpoints (fv (radd x z0)) (fv os) lb ub j) as [[E _]|[E _]].
      - rewrite E, !h_nth by lia. reflexivity.
      - rewrite <- Ebr in E. lia. }
    assert (Le : forall j, (j < n)%nat -> er_leb (Fin m) (nth j (st_br p) NaN) = true).
    { intros j Hj. destruct (npmin_cases (st_br p)) as [K|[_ K]].
      - rewrite <- (bx_minbr _ _ _ Hb), Em in K. discriminate.
      - rewrite <- (bx_minbr _ _ _ Hb), Em in K. apply K. apply nth_In. lia. }
    exists m. split; [exact Em|]. split; [exact Hm0|]. split; [exact Ex|]. split.
    - split; [exists i; split; [exact Hi|]; now apply Mi|]. intros j Hj. specialize (Nb j Hj). specialize (Le j Hj).
      rewrite (Mi j Hj). rewrite Nb in Le |- *.
      destruct (breakpoint_hits (nth j lb NaN) (nth j ub NaN) (nth j (radd x z0) 0) (nth j os 0) (Hin j Hj)) as [[K1 K2]|(m1 & K1 & K2)]; rewrite K1 in Le |- *.
      + split; [split; [discriminate|intros K; now apply K2 in K]|]. intros m' K. now apply K2 in K.
      + split.
        * rewrite K2. split; [intros E; now injection E|intros ->; reflexivity].
        * intros m' K. apply K2 in K. subst m'. cbn in Le. now apply Rleb_true.
    - intros j Hj K. now apply Mi.
  Qed.

  (** *** reflection *)
  Lemma line_minimal typ y u z0 z refl tr pd nw c :
    length u = n -> length z0 = n -> length z = n -> nonzero u ->
    calculate O (new_step typ A y (fm [u]) (fv z0) (fv z) refl tr pd nw) = Ok c ->
    st_s0 c = fv z0 /\ st_ss0 c = fv z
    /\ (nan_step n c \/ exists t, st_og_ss c = fv (rscale t u) /\ rnorm (radd z (rscale t u)) <= delta
          /\ forall t', rnorm (radd z (rscale t' u)) <= delta -> qmodel B sg (radd z (rscale t u)) <= qmodel B sg (radd z (rscale t' u))).
  Proof using P.
    intros Lu Lz0 Lz Hnz Hc. pose proof P as P'. destruct P'.
    apply calculate_fields in Hc as (sc & ss & s & Hsol & Ess & Es & Hst & _).
    cbn [new_step st_s0 st_subspace st_scaling fm map] in Ess, Es.
    rewrite fv_length, Lz0 in Ess. change [fv u] with (fm [u]) in Ess.
    unfold solved in Hsol. cbn [new_step st_subspace fm map st_shess st_sg st_delta st_ss0] in Hsol.
    rewrite (rA_shess n x g H D dv delta theta lb ub P), rA_sg in Hsol. change (a_delta A) with (Fin delta) in Hsol.
    destruct Hst. cbn [new_step st_s0 st_ss0] in sb_s0, sb_ss0. split; [exact sb_s0|]. split; [exact sb_ss0|].
    destruct (C25_any_start n B sg u z delta) as [E|(tau & E & Hf & Hmin)]; auto.
    - apply rB_mat.
    - apply (rB_sym n x g H D dv delta theta lb ub P).
    - apply (rsg_length n x g H D dv delta theta lb ub P).
    - left. rewrite Hsol, E in Ess. rewrite lincomb_nan in Ess by auto. subst ss. unfold nan_step. rewrite sb_ss.
      unfold vscaler. rewrite map_length, repeat_length. split; [reflexivity|]. apply Forall_forall. intros v Hv.
      apply in_map_iff in Hv as (v' & <- & Hv). apply repeat_spec in Hv. subst v'. reflexivity.
    - right. exists tau. split; [|split; [exact Hf|exact Hmin]]. rewrite sb_og_ss, Ess, Hsol, E.
      change [Fin tau] with (fv [tau]). rewrite h_lincomb. f_equal.
      cbn [rlincomb]. apply rvec_ext; [rlen|]. intros i. rewrite nth_radd, nth_rzeros by rlen. ring.
  Qed.

  Lemma one_reflection p c w z : fc rho p w z -> (st_alpha p =? n1)%num = false -> calculate O (tr_step_reflected A p) = Ok c ->
    exists z0 os m w', st_s0 p = fv z0 /\ st_og_s p = fv os /\ length z0 = n /\ length os = n
      /\ first_hit n lb ub (radd x z0) os m (st_iminbr p) /\ 0 <= m /\ mirrored (st_iminbr p) w w'
      /\ st_s0 c = fv (radd z0 (rscale (Rmin m 1) os)) /\ st_ss0 c = fv (radd z (rscale (Rmin m 1) w))
      /\ (nan_step n c \/ (~ nonzero w /\ st_og_ss c = fv (rzeros n)) \/ exists t, st_og_ss c = fv (rscale t w')
            /\ rnorm (radd (radd z (rscale (Rmin m 1) w)) (rscale t w')) <= delta
            /\ forall t', rnorm (radd (radd z (rscale (Rmin m 1) w)) (rscale t' w')) <= delta ->
                 qmodel B sg (radd (radd z (rscale (Rmin m 1) w)) (rscale t w')) <= qmodel B sg (radd (radd z (rscale (Rmin m 1) w)) (rscale t' w'))).
  Proof using P.
    intros Hp Ha Hc. pose proof Hp as (Hb & Lw & Lz & Ew & Ez & (os & z0 & L1 & L2 & E1 & E2) & Es & N1 & N2).
    destruct (cut_first p z0 os Hb E2 L2 E1 L1 Ha) as (m & Em & Hm & Ex & Hfh & _).
    set (w' := mapi (fun i a => if mem i (st_iminbr p) then - a else a) w).
    assert (Lw' : length w' = n) by (unfold w'; rewrite mapi_length; auto).
    assert (Nw : forall i, nth i w' 0 = if mem i (st_iminbr p) then - nth i w 0 else nth i w 0).
    { intros i. destruct (Nat.lt_ge_cases i n) as [Hi|Hi].
      - unfold w'. now rewrite (nth_mapi _ w i 0 0) by lia.
      - rewrite !nth_overflow by lia. destruct (mem i (st_iminbr p)); ring. }
    set (b := Rmin m 1).
    assert (Eb : pymin (st_minbr p) n1 = Fin b).
    { rewrite Em. unfold pymin, b, Rmin. cbn [nltb ERNum n1 nofZ er_ltb]. destruct (Rltb_spec 1 m), (Rle_dec m 1); try lra; reflexivity. }
    exists z0, os, m, w'. split; [exact E2|]. split; [exact E1|]. split; [exact L2|]. split; [exact L1|]. split; [exact Hfh|]. split; [exact Hm|].
    split; [split; [lia|exact Nw]|]. fold b.
    unfold tr_step_reflected in Hc. rewrite Eb, Ew, Ez, E1, E2, !h_vscale, !h_vadd in Hc.
    rewrite (mapi_fv _ (fun i a => if mem i (st_iminbr p) then - a else a)) in Hc
      by (intros i v; destruct (mem i (st_iminbr p)); [cbn; f_equal; ring|reflexivity]).
    fold w' in Hc. rewrite h_normalize in Hc.
    assert (C1 : forall a q, length q = n -> length a = n -> radd (rscale b a) q = radd q (rscale b a)).
    { intros a q Lq La. apply rvec_ext; [rlen|]. intros i. rewrite !nth_radd by rlen. ring. }
    rewrite (C1 os z0), (C1 w z) in Hc by auto.
    destruct (nonzero_dec w') as [Hnz|Hz].
    2:{ assert (Zw : ~ nonzero w).
        { intros (i & Hi). apply Hi. specialize (Hz i). rewrite Nw in Hz. destruct (mem i (st_iminbr p)); lra. }
        set (u := if Rltb 0 (rnorm w') then _ else w') in Hc.
        assert (Zu : forall i, nth i u 0 = 0) by (intros i; unfold u; destruct (Rltb 0 (rnorm w')); rewrite ?nth_rscale, ?Hz; ring).
        assert (Lu : length u = n) by (unfold u; destruct (Rltb 0 (rnorm w')); rlen).
        change [fv u] with (fm [u]) in Hc. apply calculate_fields in Hc as (sc & ss & s & Hsol & Ess & _ & Hst & _).
        destruct Hst. cbn [new_step st_s0 st_ss0] in sb_s0, sb_ss0. split; [exact sb_s0|]. split; [exact sb_ss0|]. right. left. split; [exact Zw|].
        unfold solved in Hsol. cbn [new_step st_subspace fm map st_shess st_sg st_delta st_ss0] in Hsol. change (a_delta A) with (Fin delta) in Hsol.
        rewrite C25_degenerate in Hsol by (right; intros (i & Hi); apply Hi; apply Zu).
        cbn [new_step st_s0 st_subspace] in Ess. rewrite fv_length in Ess. replace (length (radd z0 (rscale b os))) with n in Ess by rlen.
        rewrite sb_og_ss, Ess, Hsol. change [Fin 0] with (fv [0]). rewrite h_lincomb. f_equal.
        cbn [rlincomb]. apply rvec_ext; [rlen|]. intros i. rewrite nth_radd, nth_rscale, !nth_rzeros by rlen. ring. }
    pose proof (nonzero_norm _ Hnz) as Np. destruct (Rltb_spec 0 (rnorm w')); [|lra].
    set (u := rscale (/ rnorm w') w') in Hc. assert (Lu : length u = n) by (unfold u; rlen).
    assert (Hu : nonzero u).
    { destruct Hnz as (i & Hi). exists i. unfold u. rewrite nth_rscale. apply Rmult_integral_contrapositive_currified; auto. apply Rinv_neq_0_compat. lra. }
    change [fv u] with (fm [u]) in Hc. apply line_minimal in Hc as (K1 & K2 & K3); auto; try rlen.
    split; [exact K1|]. split; [exact K2|]. destruct K3 as [K3|(t & K3 & K4 & K5)]; [left; exact K3|right; right].
    assert (Sc : forall a, rscale a u = rscale (a / rnorm w') w').
    { intros a. unfold u. apply rvec_ext; [rlen|]. intros i. rewrite !nth_rscale. field. lra. }
    exists (t / rnorm w'). rewrite <- Sc. split; [exact K3|]. split; [exact K4|]. intros t' Ht.
    replace (rscale t' w') with (rscale (t' * rnorm w') u) in Ht |- *.
    - now apply K5.
    - rewrite Sc. f_equal. field. lra.
  Qed.

  (** what relates a reflected candidate [c] to the candidate [p] it was obtained from: it starts where [p] met its first bound (or at
      the end of the full step of [p]), goes in the direction of [p] with the sign of the components that met the bound changed, and goes as far
      as the model decreases, forwards or backwards, within the trust region *)
  Definition reflection_of (p c : step ER) : Prop :=
    exists z0 s z w m w',
      st_s0 p = fv z0 /\ st_og_s p = fv s /\ st_ss0 p = fv z /\ st_og_ss p = fv w
      /\ length z0 = n /\ length s = n /\ length z = n /\ length w = n
      /\ 0 <= m /\ first_hit n lb ub (radd x z0) s m (st_iminbr p) /\ mirrored (st_iminbr p) w w'
      /\ st_s0 c = fv (radd z0 (rscale (Rmin m 1) s)) /\ st_ss0 c = fv (radd z (rscale (Rmin m 1) w))
      /\ (nan_step n c \/ (~ nonzero w /\ st_og_ss c = fv (rzeros n))
          \/ exists t, st_og_ss c = fv (rscale t w')
               /\ let at_t t := radd (radd z (rscale (Rmin m 1) w)) (rscale t w') in
                  rnorm (at_t t) <= delta /\ forall t', rnorm (at_t t') <= delta -> qmodel B sg (at_t t) <= qmodel B sg (at_t t')).

  Lemma one_reflection_of p c w z : fc rho p w z -> (st_alpha p =? n1)%num = false -> calculate O (tr_step_reflected A p) = Ok c -> reflection_of p c.
  Proof using P.
    intros Hp Ha Hc. destruct (one_reflection p c w z Hp Ha Hc) as (z0 & os & m & w' & K1 & K2 & K3 & K4 & K5 & K6 & K7 & K8 & K9 & K10).
    pose proof Hp as (_ & Lw & Lz & Ew & Ez & _).
    exists z0, os, z, w, m, w'. do 13 (split; [assumption|]). exact K10.
  Qed.

  Lemma loop_reflections : forall k p l w z, fc rho p w z -> reflect_loop k O A p = Ok l ->
    forall c, In c l -> exists q, (q = p \/ In q l) /\ (st_alpha q =? n1)%num = false /\ calculate O (tr_step_reflected A q) = Ok c /\ reflection_of q c.
  Proof using P.
    induction k as [|k IH]; intros p l w z Hp Hl c Hc; cbn [reflect_loop] in Hl; [apply Ok_inj in Hl; subst l; contradiction|].
    destruct (st_alpha p =? n1)%num eqn:Ea; [apply Ok_inj in Hl; subst l; contradiction|].
    destruct (calculate O (tr_step_reflected A p)) as [r|] eqn:Er; [|discriminate].
    destruct (reflect_loop k O A r) as [l'|] eqn:El; [|discriminate]. apply Ok_inj in Hl. subst l.
    destruct Hc as [<-|Hc].
    - exists p. split; [now left|]. split; [exact Ea|]. split; [exact Er|]. eapply one_reflection_of; eauto.
    - destruct (reflected_next O n x g H D dv delta theta lb ub P p r w z Hp Er) as [(w1 & z1 & Hr)|Hr].
      + destruct (IH r l' w1 z1 Hr El c Hc) as (q & [->|Hq] & K); [exists r; split; [right; now left|exact K]|exists q; split; [right; now right|exact K]].
      + exfalso. destruct k; cbn [reflect_loop] in El; [apply Ok_inj in El; subst l'; contradiction|].
        rewrite (ncand_stops n x g H D dv delta theta lb ub r Hr) in El. apply Ok_inj in El. subst l'. contradiction.
  Qed.

  Lemma loop_done k r : (st_alpha r =? n1)%num = true -> reflect_loop k O A r = Ok [].
  Proof using. intros E. destruct k; cbn [reflect_loop]; [reflexivity|]. now rewrite E. Qed.

  (** every reflected candidate of the list that minimize chooses from is the reflection of the main step or of another reflected
      candidate that had been cut back *)
  Theorem C58_reflected_candidates sd main l c :
    main_step O A sd = Ok main -> main_assumptions O n g delta sd main -> (st_alpha main =? n1)%num = false ->
    stepback_reflect O A main = Ok l -> In c l ->
    exists p, (p = main \/ In p l) /\ (st_alpha p =? n1)%num = false /\ reflection_of p c.
  Proof using P.
    intros Em Ha Hal Hl Hc. destruct (main_fc O n x g H D dv delta theta lb ub P sd main Ha Em) as (w & z & Hf).
    unfold stepback_reflect in Hl. destruct (calculate O (tr_step_reflected A main)) as [r|] eqn:Er; [|discriminate].
    destruct (reflect_loop _ O A r) as [l'|] eqn:El; [|discriminate]. apply Ok_inj in Hl. subst l.
    destruct Hc as [<-|Hc].
    - exists main. split; [now left|]. split; [exact Hal|]. eapply one_reflection_of; eauto.
    - destruct (reflected_next O n x g H D dv delta theta lb ub P main r w z Hf Er) as [(w1 & z1 & Hr)|Hr].
      + destruct (loop_reflections _ r l' w1 z1 Hr El c Hc) as (q & [->|Hq] & K1 & K2 & K3); [exists r|exists q]; (split; [right|]); auto.
        * now left.
        * now right.
      + exfalso. rewrite loop_done in El by exact (ncand_stops n x g H D dv delta theta lb ub r Hr). apply Ok_inj in El. subst l'. contradiction.
  Qed.

  (** *** truncation *)
  (** what relates a truncated candidate [c] to the candidate [p] it was obtained from: the components that met the first bound are moved
      the fraction [theta] of the way to it, all others go back to where [p] started; the new search directions are those of [p] without the
      components that met the bound, and the step of [c] moves only along them *)
  Definition cut_down (idx : list nat) (u u' : rvec) : Prop :=
    exists k, 0 < k /\ forall i, nth i u' 0 = if mem i idx then 0 else k * nth i u 0.
  Definition truncation_of (p c : step ER) : Prop :=
    exists z0 s m z0' sub sub',
      st_s0 p = fv z0 /\ st_og_s p = fv s /\ length z0 = n /\ length s = n
      /\ 0 <= m /\ theta * m < 1 /\ first_hit n lb ub (radd x z0) s m (st_iminbr p)
      /\ st_s0 c = fv z0' /\ length z0' = n /\ st_x c = fv (radd x z0')
      /\ (forall i, (i < n)%nat -> nth i z0' 0 = nth i z0 0 + (if mem i (st_iminbr p) then theta * (m * nth i s 0) else 0))
      /\ st_subspace p = fm sub /\ st_subspace c = fm sub'
      /\ (forall u', In u' sub' -> exists u, In u sub /\ cut_down (st_iminbr p) u u')
      /\ (forall u i, In u sub -> mem i (st_iminbr p) = false -> nth i u 0 <> 0 -> exists u', In u' sub' /\ cut_down (st_iminbr p) u u')
      /\ (st_og_s c = repeat NaN n
          \/ exists s', st_og_s c = fv s' /\ length s' = n /\ forall i, (forall u', In u' sub' -> nth i u' 0 = 0) -> nth i s' 0 = 0).

  Lemma rtrunc_cut idx sub u' : In u' (rtrunc idx sub) -> exists u, In u sub /\ cut_down idx u u'.
  Proof using.
    intros Hc. unfold rtrunc in Hc. apply in_map_iff in Hc as (c1 & <- & Hc).
    apply filter_In in Hc as [Hc Hz]. apply in_map_iff in Hc as (c2 & E2 & Hc). exists c2. split; [exact Hc|].
    assert (Hnz : nonzero c1). { apply h_all_zero_false. now destruct (vall_zero (fv c1)). }
    pose proof (nonzero_norm _ Hnz) as Np. exists (/ rnorm c1). split; [now apply Rinv_0_lt_compat|]. intros i.
    unfold rnormalize. destruct (Rltb_spec 0 (rnorm c1)); [|lra]. rewrite nth_rscale, <- E2, nth_zeroed. destruct (mem i idx); ring.
  Qed.
  Lemma rtrunc_cut_conv idx sub u i : In u sub -> mem i idx = false -> nth i u 0 <> 0 -> exists u', In u' (rtrunc idx sub) /\ cut_down idx u u'.
  Proof using.
    intros Hu Hm Hi. assert (Hnz : nonzero (zeroed idx u)) by (exists i; now rewrite nth_zeroed, Hm).
    pose proof (nonzero_norm _ Hnz) as Np.
    exists (rnormalize (zeroed idx u)). split.
    - unfold rtrunc. apply in_map. apply filter_In. split; [now apply in_map|].
      destruct (vall_zero (fv (zeroed idx u))) eqn:E; [|reflexivity]. exfalso. apply h_all_zero_false in Hnz. congruence.
    - exists (/ rnorm (zeroed idx u)). split; [now apply Rinv_0_lt_compat|]. intros j. unfold rnormalize.
      destruct (Rltb_spec 0 (rnorm (zeroed idx u))); [|lra]. rewrite nth_rscale, nth_zeroed. destruct (mem j idx); ring.
  Qed.

  Lemma one_truncation lv sub p c : finite_eig (so_sub O) -> reg lv sub p -> (st_alpha p =? n1)%num = false ->
    calculate O (tr_step_truncated A p) = Ok c -> truncation_of p c /\ reg true (rtrunc (st_iminbr p) sub) c.
  Proof using P.
    intros He Hp Ha Hc. destruct (truncated_regular O n x g H D dv delta theta lb ub P He lv sub p c Hp Ha Hc) as [Hr _].
    split; [|exact Hr]. pose proof P as P'. destruct P'.
    destruct Hp as [Hb Hsub Hlen (z0 & E0 & L0) (z & Ez & Lz) Hog].
    destruct Hog as [[E _]|(os & ow & Eos & Los & Eow & Low & Hlive)].
    { exfalso. rewrite E in Ha. cbn [neqb ERNum n1 nofZ er_eqb] in Ha. destruct (Reqb_spec 1 1); [discriminate|lra]. }
    destruct (cut_first p z0 os Hb E0 L0 Eos Los Ha) as (m & Em & Hm & Ex & Hfh & Hbr).
    assert (Hmi : forall i, mem i (st_iminbr p) = true -> nth i (st_br p) NaN = Fin m).
    { intros i Hi. apply (mem_iminbr _ _ _ _ Hb) in Hi. rewrite Em in Hi. cbn [neqb ERNum] in Hi.
      destruct (nth i (st_br p) NaN) as [b| | |]; try discriminate. cbn [er_eqb] in Hi. destruct (Reqb_spec b m); [now subst|discriminate]. }
    assert (Htm : theta * m < 1).
    { rewrite (bx_alpha _ _ _ Hb), Em in Ha. unfold npmin, npmin2 in Ha.
      cbn [fold_left nisnan nmul nltb neqb ERNum er_isnan er_mul er_ltb er_eqb n1 nofZ] in Ha.
      destruct (Rltb_spec (theta * m) 1) as [K|K]; [exact K|]. exfalso.
      cbn [er_eqb] in Ha. destruct (Reqb_spec 1 1); [discriminate|lra]. }
    destruct (trunc_fv n theta p z0 os) as (z0' & E0' & L0' & N0'); auto. { apply (bx_th _ _ _ Hb). } { intros i Hi. exists m. auto. }
    assert (Ec0 : st_s0 c = fv z0').
    { unfold tr_step_truncated in Hc. rewrite E0, Eos, E0' in Hc. apply calculate_fields in Hc as (sc & ss & s & _ & _ & _ & Hst & _). destruct Hst. exact sb_s0. }
    exists z0, os, m, z0', sub, (rtrunc (st_iminbr p) sub). do 7 (split; [assumption|]).
    split; [exact Ec0|]. split; [exact L0'|]. split.
    { rewrite (bx_x _ _ _ (rg_box _ _ _ _ _ _ _ _ _ _ _ _ _ Hr)), Ec0. change (a_x A) with (fv x). apply h_vadd. }
    split.
    { intros i Hi. rewrite N0' by auto. destruct (mem i (st_iminbr p)) eqn:M; [|ring]. rewrite (Hmi i M). cbn [Prop_Secular.er_val]. ring. }
    split; [exact Hsub|]. split; [apply (rg_sub _ _ _ _ _ _ _ _ _ _ _ _ _ Hr)|].
    split; [apply rtrunc_cut|]. split; [intros u i; apply rtrunc_cut_conv|].
    destruct (rg_og _ _ _ _ _ _ _ _ _ _ _ _ _ Hr) as [[_ E]|(os' & ow' & E1 & E2 & _ & _ & E3)]; [left; exact E|right].
    exists os'. split; [exact E1|]. split; [exact E2|]. intros i Hi. destruct (Req_dec (nth i os' 0) 0) as [|K]; auto.
    apply (E3 eq_refl), live_true in K as (u' & Hu & Hn). now rewrite Hi in Hn.
  Qed.

  (** each member of the list is the truncation of the member before it *)
  Fixpoint successive_truncations (p : step ER) (l : list (step ER)) : Prop :=
    match l with [] => True | c :: l' => (st_alpha p =? n1)%num = false /\ truncation_of p c /\ successive_truncations c l' end.

  Lemma loop_truncations : finite_eig (so_sub O) -> forall k sub p l, reg true sub p -> truncate_loop k O A p = Ok l -> successive_truncations p l.
  Proof using P.
    intros He. induction k as [|k IH]; intros sub p l Hp Hl; cbn [truncate_loop] in Hl; [discriminate|].
    destruct (st_subspace p) eqn:Es; [apply Ok_inj in Hl; subst l; exact I|].
    destruct (st_alpha p =? n1)%num eqn:Ea; [apply Ok_inj in Hl; subst l; exact I|].
    destruct (calculate O (tr_step_truncated A p)) as [r|] eqn:Er; [|discriminate].
    destruct (truncate_loop k O A r) as [l'|] eqn:El; [|discriminate]. apply Ok_inj in Hl. subst l.
    destruct (one_truncation true sub p r He Hp Ea Er) as [K1 K2]. cbn [successive_truncations]. split; [exact Ea|]. split; [exact K1|]. eapply IH; eauto.
  Qed.

  (** the truncated candidates of the list that minimize chooses from: the first is the truncation of the main step, each further one of its predecessor *)
  Theorem C58_truncated_candidates sd main l :
    (1 < n)%nat -> finite_eig (so_sub O) -> finite_2d O n -> (sd = "scg"%string -> nonzero g /\ (n <= so_cgfuel O)%nat) ->
    main_step O A sd = Ok main -> (st_alpha main =? n1)%num = false -> stepback_truncate O A main = Ok l ->
    l <> [] /\ successive_truncations main l.
  Proof using P.
    intros Hn He H2 Hs Em Ha Hl. destruct (main_regular O n x g H D dv delta theta lb ub P sd main Hn He H2 Hs Em) as (lv & sub & Hr).
    unfold stepback_truncate in Hl. destruct (calculate O (tr_step_truncated A main)) as [r|] eqn:Er; [|discriminate].
    destruct (truncate_loop _ O A r) as [l'|] eqn:El; [|discriminate]. apply Ok_inj in Hl. subst l. split; [discriminate|].
    destruct (one_truncation lv sub main r He Hr Ha Er) as [K1 K2]. cbn [successive_truncations]. split; [exact Ha|]. split; [exact K1|]. eapply loop_truncations; eauto.
  Qed.

  (** a coordinate in which no search direction of [p] moves keeps its value in all later truncations, and none of their steps moves it *)
  Lemma frozen_stays i : (i < n)%nat -> forall l p z0, successive_truncations p l -> st_s0 p = fv z0 -> length z0 = n ->
    (forall sub, st_subspace p = fm sub -> forall u, In u sub -> nth i u 0 = 0) -> (st_og_s p = repeat NaN n \/ nth i (st_og_s p) NaN = Fin 0) ->
    forall c, In c l -> nth i (st_x c) NaN = Fin (nth i x 0 + nth i z0 0) /\ (st_og_s c = repeat NaN n \/ nth i (st_og_s c) NaN = Fin 0).
  Proof using P.
    intros Hi. pose proof P as P'. destruct P'. induction l as [|c l IH]; intros p z0 Hs E0 L0 Hsub Hos d Hd; [contradiction|].
    destruct Hs as (Ha & (z0q & s & m & z0' & sub & sub' & T1 & T2 & T3 & T4 & T5 & T6 & T7 & T8 & T9 & T10 & T11 & T12 & T13 & T14 & T15 & T16) & Hs).
    assert (z0q = z0) by (apply fv_inj; congruence). subst z0q.
    assert (Si : nth i s 0 = 0).
    { destruct Hos as [K|K].
      - exfalso. rewrite T2 in K. destruct s as [|a s]; [simpl in T4; lia|]. destruct n; [lia|]. discriminate.
      - rewrite T2, h_nth in K by lia. now injection K. }
    assert (Ni : nth i z0' 0 = nth i z0 0) by (rewrite T11, Si by auto; destruct (mem i (st_iminbr p)); ring).
    assert (Zc : forall u', In u' sub' -> nth i u' 0 = 0).
    { intros u' Hu. destruct (T14 u' Hu) as (u & Hu1 & k & _ & Hk). rewrite Hk, (Hsub sub T12 u Hu1). destruct (mem i (st_iminbr p)); ring. }
    assert (Oc : st_og_s c = repeat NaN n \/ nth i (st_og_s c) NaN = Fin 0).
    { destruct T16 as [K|(s' & K1 & K2 & K3)]; [now left|right]. rewrite K1, h_nth by lia. now rewrite K3. }
    destruct Hd as [<-|Hd].
    - split; [|exact Oc]. rewrite T10, h_nth by rlen. rewrite nth_radd by rlen. now rewrite Ni.
    - rewrite <- Ni. eapply IH; eauto. intros sub1 E u Hu. assert (sub1 = sub') by (apply fm_inj; congruence). subst sub1. auto.
  Qed.

  (** a component that was moved the fraction [theta] of the way to a bound stays there: in this candidate and all later ones the start has
      that value and the own step of the candidate (if a number at all) does not change it *)
  Theorem C58_truncated_components_stay : forall p c l i z0, (i < n)%nat -> successive_truncations p (c :: l) -> mem i (st_iminbr p) = true ->
    st_s0 p = fv z0 ->
    exists b, (nth i lb NaN = Fin b \/ nth i ub NaN = Fin b)
      /\ forall d, In d (c :: l) ->
           nth i (st_x d) NaN = Fin ((nth i x 0 + nth i z0 0) + theta * (b - (nth i x 0 + nth i z0 0)))
           /\ (st_og_s d = repeat NaN n \/ nth i (st_og_s d) NaN = Fin 0).
  Proof using P.
    intros p c l i z0 Hi Hs Hm E0. pose proof P as P'. destruct P'.
    destruct Hs as (Ha & (z0q & s & m & z0' & sub & sub' & T1 & T2 & T3 & T4 & T5 & T6 & T7 & T8 & T9 & T10 & T11 & T12 & T13 & T14 & T15 & T16) & Hs).
    assert (z0q = z0) by (apply fv_inj; congruence). subst z0q.
    assert (Hb : exists b, (nth i lb NaN = Fin b \/ nth i ub NaN = Fin b) /\ m * nth i s 0 = b - (nth i x 0 + nth i z0 0)).
    { destruct T7 as [_ T7]. destruct (T7 i Hi) as [[K _] _]. specialize (K Hm). rewrite nth_radd in K by rlen.
      destruct K as [[_ K]|[_ K]]; eexists; (split; [eauto|ring]). }
    destruct Hb as (b & Hb & Eb). exists b. split; [exact Hb|].
    assert (Ni : nth i z0' 0 = nth i z0 0 + theta * (m * nth i s 0)) by (rewrite T11, Hm by auto; ring).
    replace ((nth i x 0 + nth i z0 0) + theta * (b - (nth i x 0 + nth i z0 0))) with (nth i x 0 + nth i z0' 0) by (rewrite Ni, Eb; ring).
    assert (Zc : forall u', In u' sub' -> nth i u' 0 = 0).
    { intros u' Hu. destruct (T14 u' Hu) as (u & Hu1 & k & _ & Hk). now rewrite Hk, Hm. }
    assert (Oc : st_og_s c = repeat NaN n \/ nth i (st_og_s c) NaN = Fin 0).
    { destruct T16 as [K|(s' & K1 & K2 & K3)]; [now left|right]. rewrite K1, h_nth by lia. now rewrite K3. }
    intros d [<-|Hd].
    - split; [|exact Oc]. rewrite T10, h_nth by rlen. now rewrite nth_radd by rlen.
    - eapply (frozen_stays i Hi l c z0'); eauto. intros sub1 E u Hu. assert (sub1 = sub') by (apply fm_inj; congruence). subst sub1. auto.
  Qed.
End Reflect.

Lemma truncated_x A (p : step ER) : st_x (tr_step_truncated A p) = vadd (a_x A) (trunc_s0 p (st_s0 p) (st_og_s p)). Proof. reflexivity. Qed.
Lemma truncated_sub A (p : step ER) : st_subspace (tr_step_truncated A p) = trunc_subspace (st_iminbr p) (st_subspace p). Proof. reflexivity. Qed.
Lemma reflected_s0 A (p : step ER) : st_s0 (tr_step_reflected A p) = vadd (vscale (pymin (st_minbr p) n1) (st_og_s p)) (st_s0 p). Proof. reflexivity. Qed.
Lemma calculate_keeps (O : StepOracles ER) r c : calculate O r = Ok c -> st_x c = st_x r /\ st_s0 c = st_s0 r /\ st_subspace c = st_subspace r.
Proof. intros Hc. apply calculate_fields in Hc as (sc & ss & s & _ & _ & _ & Hst & _). destruct Hst. auto. Qed.
Lemma gx_trunc_x : vadd (fv [0; 0]) (mapi (fun i a => if mem i [0%nat] then a + Fin (/ 2) * nth i [Fin (/ 4); PInf] nnan * nth i (fv [-1; 0]) nnan else a)%num (fv [0; 0])) = fv [- / 8; 0].
Proof. cbn -[Rinv IZR Rplus Rmult Ropp]. unfold fv. cbn [map]. f_equal; [f_equal; lra|]. f_equal. f_equal. lra. Qed.
Lemma gx_refl_s0 : vadd (vscale (pymin (Fin (/ 4)) n1) (fv [-1; 0])) (fv [0; 0]) = fv [- / 4; 0].
Proof.
  unfold pymin. cbn [nltb ERNum n1 nofZ er_ltb]. destruct (Rltb_spec 1 (/ 4)); [lra|]. rewrite h_vscale, h_vadd. f_equal.
  unfold radd, rscale. simpl. f_equal; [lra|]. f_equal. lra.
Qed.
Lemma gx_trunc_sub : trunc_subspace [0%nat] (fm [[-1; 0]]) = [].
Proof.
  unfold trunc_subspace, fm, fv, mapi. cbn [map mapi_from mem existsb Nat.eqb orb]. unfold vall_zero. cbn -[Reqb IZR]. rdec; reflexivity.
Qed.
Lemma truncate_once O A p c : calculate O (tr_step_truncated A p) = Ok c -> st_subspace c = [] -> so_trfuel O <> 0%nat -> @stepback_truncate ER _ O A p = Ok [c].
Proof. intros Hc Hs Hf. unfold stepback_truncate. rewrite Hc. destruct (so_trfuel O); [contradiction|]. cbn [truncate_loop]. now rewrite Hs. Qed.
Lemma reflect_first O A p c l : calculate O (tr_step_reflected A p) = Ok c -> @stepback_reflect ER _ O A p = Ok l -> In c l.
Proof. intros Hc Hl. unfold stepback_reflect in Hl. rewrite Hc in Hl. destruct (reflect_loop _ O A c); [|discriminate]. apply Ok_inj in Hl. subst l. now left. Qed.

(** in the two-variable problem of GradEx the main step goes from (0,0) in direction (-1,0) and meets the bound -1/4 after a quarter of it:
    the reflected candidate starts at (-1/4,0) and goes in direction (1,0), the truncated candidate starts at (-1/8,0) *)
Example C58_ex : problem 2 [0; 0] [1; 0] (reye 2) [1; 1] [0; 0] 10 (/ 2) gx_lb gx_ub
  /\ finite_eig (so_sub gx_la) /\ finite_2d gx_la 2
  /\ exists main rf tl, main_step gx_la gx_A "2D" = Ok main /\ (st_alpha main =? n1)%num = false
       /\ main_assumptions gx_la 2 [1; 0] 10 "2D" main
       /\ stepback_reflect gx_la gx_A main = Ok rf /\ (exists c, In c rf /\ st_s0 c = fv [- / 4; 0])
       /\ stepback_truncate gx_la gx_A main = Ok tl /\ exists c, In c tl /\ st_x c = fv [- / 8; 0].
Proof.
  assert (F1 : finite_eig (so_sub gx_la)) by (intros b ev vecs E; discriminate).
  assert (F2 : finite_2d gx_la 2).
  { split.
    - intros m v l E. injection E as <-. exists [1; 0]. split; reflexivity.
    - intros m re ab v E. injection E as <- <- <-. exists [[1; 0]; [0; 1]]. repeat split. repeat constructor. }
  split; [apply gx_problem|]. split; [exact F1|]. split; [exact F2|].
  destruct gx_main as (main & Hm & Ha & Hoss & Hsub & _ & Hos & Hbr & Hmb & Him & Hth & Hss0 & Hs0).
  destruct (calculate_small gx_la (tr_step_reflected gx_A main)) as (r & Hr); [simpl; lia|].
  destruct (reflections_found gx_la gx_A main) as (rf & Hrf).
  assert (Es : st_subspace (tr_step_truncated gx_A main) = []) by (rewrite truncated_sub, Hsub, Him; apply gx_trunc_sub).
  destruct (calculate_small gx_la (tr_step_truncated gx_A main)) as (tt' & Htt); [rewrite Es; simpl; lia|].
  destruct (calculate_keeps _ _ _ Htt) as (X1 & _ & X2). rewrite Es in X2.
  assert (X3 : st_x tt' = fv [- / 8; 0]).
  { rewrite X1, truncated_x. unfold trunc_s0. rewrite Him, Hs0, Hth, Hbr, Hos. exact gx_trunc_x. }
  destruct (calculate_keeps _ _ _ Hr) as (_ & Y1 & _).
  assert (Y3 : st_s0 r = fv [- / 4; 0]) by (rewrite Y1, reflected_s0, Hmb, Hs0, Hos; exact gx_refl_s0).
  pose proof (truncate_once gx_la gx_A main tt' Htt X2 ltac:(discriminate)) as Hst.
  exists main, rf, [tt']. split; [exact Hm|]. split.
  { rewrite Ha. cbn -[Reqb Rinv IZR]. destruct (Reqb_spec (/ 8) 1); [lra|reflexivity]. }
  split.
  { split; [|split; intros; discriminate]. intros _. split; [lia|]. split; [exact F2|].
    intros Hl. rewrite Hsub in Hl. simpl in Hl. lia. }
  split; [exact Hrf|]. split; [exists r; split; [eapply reflect_first; eauto|exact Y3]|].
  split; [exact Hst|]. exists tt'. split; [now left|exact X3].
Qed.
