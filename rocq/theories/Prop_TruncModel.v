(** C76: what a truncated candidate minimises (exact arithmetic; the refutation is a run in double precision) *)
From Coq Require Import String ZArith List Bool Reals Lra Lia Psatz.
From Flocq Require Import BinarySingleNaN.
From Verif Require Import Num Constants Subproblem HessApprox Steps TrustRegion Minimize
  ER F64 NumFacts Spec Run Witness RVec Ortho SubNd Prop_Secular Prop_SubNd RShess Argmin Cand StepFacts Prop_Sub1d Prop_Pred Prop_Box Prop_Cand
  TRErr RealStep Prop_Grad GradEx Region Prop_Trunc Prop_CG Prop_Stepback Prop_TwoD Prop_Region UnboundedFull Prop_Reflect Prop_TruncRegion.
Import ListNotations.
Local Open Scope R_scope.
Local Open Scope list_scope.

(** the external routines solve the candidate's reduced problem, whose matrix is positive definite: the radius is what the
    fixed part [st_ss0] of the candidate's scaled step leaves of the trust region radius *)
Definition solved_convex (O : StepOracles ER) (delta : R) (c : step ER) : Prop :=
  exists k Bc gc vals vecs z r m, st_ss0 c = fv z /\ 0 < r /\ rdot z z + r * r = delta * delta
    /\ st_chess c = fm Bc /\ st_cg c = fv gc /\ smallest k vals m /\ 0 < m
    /\ nd_problem k Bc gc r vals vecs (so_sub O) /\ roots_found (so_sub O) gc r vals vecs.

Section TruncModel.
  Variables (O : StepOracles ER) (n : nat) (x g : rvec) (H : rmat) (D dv : rvec) (delta theta : R) (lb ub : list ER).
  Hypothesis P : problem n x g H D dv delta theta lb ub.
  Hypothesis Hnd : finite_eig (so_sub O).
  Local Notation A := (rA x g H D dv delta theta lb ub).
  Local Notation B := (rB n g H D dv).
  Local Notation sg := (rsg g D).
  Local Notation reg := (regular n x g H D dv delta theta lb ub).

  (** every truncated candidate is computed in the space of some columns, from some fixed part *)
  Definition truncation (c : step ER) : Prop := exists y sub z0 z idx,
    calculate O (new_step "trt" A y (fm sub) (fv z0) (fv z) [] idx None None) = Ok c
    /\ Forall (fun u => length u = n) sub /\ length z0 = n /\ length z = n.

  Lemma from_truncation lv sub p c : reg lv sub p -> (st_alpha p =? n1)%num = false ->
    calculate O (tr_step_truncated A p) = Ok c -> truncation c.
  Proof using P.
    intros Hp Ha Hc. pose proof P as P'. destruct P'.
    destruct Hp as [Hb Hsub Hlen (z0 & E0 & L0) (z & Ez & Lz) Hog].
    destruct Hog as [[E _]|(os & ow & Eos & Los & Eow & Low & Hlive)].
    { exfalso. rewrite E in Ha. cbn [neqb ERNum n1 nofZ er_eqb] in Ha. destruct (Reqb_spec 1 1); [discriminate|lra]. }
    assert (Ex : st_x p = fv (radd x z0)) by (rewrite (bx_x _ _ _ Hb), E0; change (a_x A) with (fv x); apply h_vadd).
    assert (Ly : length (radd x z0) = n) by rlen.
    destruct (back_real n theta lb ub pb_n pb_theta pb_lb pb_ub (radd x z0) os (st_br p)) as [Lb (a & Ea & _ & Hm & _) _]; auto.
    { apply nan_box; auto. rewrite <- Ex. apply (bx_in _ _ _ Hb). }
    { rewrite (bx_br _ _ _ Hb), Ex, Eos. reflexivity. }
    rewrite <- (bx_minbr _ _ _ Hb), <- (bx_alpha _ _ _ Hb) in Ea. rewrite <- (bx_minbr _ _ _ Hb) in Hm.
    destruct Hm as [[_ E1]|(m & Em & _)].
    { exfalso. rewrite Ea, E1 in Ha. cbn [neqb ERNum n1 nofZ er_eqb] in Ha. destruct (Reqb_spec 1 1); [discriminate|lra]. }
    assert (Hfin : forall j, mem j (st_iminbr p) = true -> exists b, nth j (st_br p) NaN = Fin b).
    { intros j Hj. apply (mem_iminbr _ _ _ _ Hb) in Hj. rewrite Em in Hj. cbn [neqb ERNum] in Hj.
      destruct (nth j (st_br p) NaN) as [b| | |]; try discriminate. eauto. }
    unfold tr_step_truncated in Hc. rewrite E0, Ez, Eos, Eow, Hsub, h_trunc_subspace in Hc.
    destruct (trunc_fv n theta p z0 os) as (z0' & E0' & L0' & _); auto. { apply (bx_th _ _ _ Hb). }
    destruct (trunc_fv n theta p z ow) as (z' & Ez' & Lz' & _); auto. { apply (bx_th _ _ _ Hb). }
    rewrite E0', Ez' in Hc. eexists _, _, z0', z', _. split; [exact Hc|]. split; [now apply rtrunc_length|]. auto.
  Qed.
  Lemma loop_truncation : forall k p l sub c, reg true sub p -> truncate_loop k O A p = Ok l -> In c l -> truncation c.
  Proof using P Hnd.
    induction k; intros p l sub c Hp Hl Hc; cbn [truncate_loop] in Hl; [discriminate|].
    destruct (st_subspace p) eqn:Esb; [apply Ok_inj in Hl; subst l; contradiction|].
    destruct (st_alpha p =? n1)%num eqn:Ea; [apply Ok_inj in Hl; subst l; contradiction|].
    destruct (calculate O (tr_step_truncated A p)) as [r|] eqn:Er; [|discriminate].
    destruct (truncate_loop k O A r) as [l'|] eqn:El; [|discriminate]. apply Ok_inj in Hl. subst l.
    destruct Hc as [<-|Hc]; [eapply from_truncation; eauto|].
    destruct (truncated_regular O n x g H D dv delta theta lb ub P Hnd true sub p r Hp Ea Er) as [Hr _]. eapply IHk; eauto.
  Qed.
  Lemma stepback_truncation sd main l c : (1 < n)%nat -> finite_2d O n -> (sd = "scg"%string -> nonzero g /\ (n <= so_cgfuel O)%nat) ->
    main_step O A sd = Ok main -> (st_alpha main =? n1)%num = false -> stepback_truncate O A main = Ok l -> In c l -> truncation c.
  Proof using P Hnd.
    intros Hn H2 Hs Em Ha Hl Hc. destruct (main_regular O n x g H D dv delta theta lb ub P sd main Hn Hnd H2 Hs Em) as (lv & sub & Hr).
    unfold stepback_truncate in Hl. destruct (calculate O (tr_step_truncated A main)) as [r|] eqn:Er; [|discriminate].
    destruct (truncate_loop _ O A r) as [l'|] eqn:El; [|discriminate]. apply Ok_inj in Hl. subst l.
    destruct Hc as [<-|Hc]; [eapply from_truncation; eauto|].
    destruct (truncated_regular O n x g H D dv delta theta lb ub P Hnd lv sub main r Hr Ha Er) as [Hr' _]. eapply loop_truncation; eauto.
  Qed.

  (** the candidate [c] explores the directions [sub] from the fixed part [z] of the scaled step, and moves by [w] along them *)
  Definition explores (c : step ER) (sub : list rvec) (z w : rvec) : Prop :=
    st_subspace c = fm sub /\ Forall (fun u => length u = n) sub /\ st_ss0 c = fv z /\ length z = n
    /\ st_og_ss c = fv w /\ length w = n /\ exists t, length t = length sub /\ w = rlincomb n t sub.

  Lemma lin_len : forall sc sub, Forall (fun v => length v = n) sub -> length (rlincomb n sc sub) = n.
  Proof using. intros sc sub Hs. pose proof (lincomb_len n (fv sc) sub Hs) as K. rewrite h_lincomb, fv_length in K. exact K. Qed.

  (** one direction: the model is minimised along the line through the fixed part *)
  Lemma one_direction c : truncation c -> length (st_subspace c) = 1%nat ->
    Forall (fun v => v = NaN) (st_og_ss c)
    \/ exists u z w, explores c [u] z w
       /\ forall t, rnorm (radd z (rscale t u)) <= delta -> qmodel B sg (radd z w) <= qmodel B sg (radd z (rscale t u)).
  Proof using P.
    intros (y & sub & z0 & z & idx & Hc & Hlen & L0 & Lz) Hl. pose proof P as P'. destruct P'.
    apply calculate_fields in Hc as (sc & ss & s & Hsol & Ess & _ & Hst & _). destruct Hst.
    rewrite sb_subspace in Hl. cbn [new_step st_subspace] in Hl, sb_subspace. rewrite fm_length in Hl. destruct sub as [|u [|]]; try discriminate Hl. clear Hl.
    assert (Lu : length u = n) by now inversion Hlen.
    cbn [new_step st_s0 st_subspace fm map] in Ess. rewrite fv_length, L0 in Ess. change [fv u] with (fm [u]) in Ess.
    unfold solved in Hsol. cbn [new_step st_subspace fm map st_shess st_sg st_delta st_ss0] in Hsol.
    rewrite (rA_shess n x g H D dv delta theta lb ub P), rA_sg in Hsol. change (a_delta A) with (Fin delta) in Hsol.
    assert (Hz : forall t, (forall i, nth i u 0 = 0) -> radd z (rscale t u) = z).
    { intros t Hu. apply rvec_ext; [rlen|]. intros i. rewrite nth_radd, nth_rscale, Hu by rlen. ring. }
    assert (R : sc = [NaN] \/ exists tau, sc = fv [tau]
      /\ forall t, rnorm (radd z (rscale t u)) <= delta -> qmodel B sg (radd z (rscale tau u)) <= qmodel B sg (radd z (rscale t u))).
    { destruct (nonzero_dec u) as [Hnz|Hnz].
      - destruct (C25_any_start n B sg u z delta) as [E|(tau & E & _ & Hm)]; auto.
        + apply rB_mat.
        + apply (rB_sym n x g H D dv delta theta lb ub P).
        + apply (rsg_length n x g H D dv delta theta lb ub P).
        + left. now rewrite Hsol, E.
        + right. exists tau. split; [now rewrite Hsol, E|exact Hm].
      - right. exists 0. rewrite Hsol. rewrite C25_degenerate by (right; intros (i & Hi); now apply Hi).
        split; [reflexivity|]. intros t _. rewrite !Hz by exact Hnz. lra. }
    destruct R as [->|(tau & -> & Hm)].
    - left. rewrite lincomb_nan in Ess by auto. rewrite sb_og_ss, Ess. apply Forall_forall. intros v Hv. now apply repeat_spec in Hv.
    - right. rewrite h_lincomb in Ess.
      assert (E1 : rlincomb n [tau] [u] = rscale tau u).
      { cbn [rlincomb]. apply rvec_ext; [rlen|]. intros i. rewrite nth_radd, nth_rzeros by rlen. ring. }
      exists u, z, (rscale tau u). split; [|exact Hm].
      split; [exact sb_subspace|]. split; [exact Hlen|]. split; [exact sb_ss0|]. split; [exact Lz|].
      split; [rewrite sb_og_ss, Ess, E1; reflexivity|]. split; [rlen|]. exists [tau]. auto.
  Qed.

  (** several directions: the moving part minimises the model as if nothing had been fixed *)
  Lemma moving_part c : truncation c -> (2 <= length (st_subspace c))%nat -> solved_convex O delta c ->
    exists sub z w, explores c sub z w
      /\ forall t, length t = length sub -> rdot z z + rdot t t <= delta * delta -> qmodel B sg w <= qmodel B sg (rlincomb n t sub).
  Proof using P.
    intros (y & sub & z0 & z & idx & Hc & Hlen & L0 & Lz) Hl (k & Bc & gc & vals & vecs & zz & r & m & Ezz & Hr & Epy & Eb & Eg & Hm & Hm0 & HP & HN).
    pose proof P as P'. destruct P'.
    apply calculate_fields in Hc as (sc & ss & s & Hsol & Ess & _ & Hst & _ & Ech & Ecg). destruct Hst.
    rewrite sb_subspace in Hl. cbn [new_step st_subspace st_ss0] in Hl, sb_subspace, sb_ss0. rewrite fm_length in Hl.
    assert (zz = z) by (apply fv_inj; congruence). subst zz.
    cbn [new_step st_s0 st_subspace] in Ess. rewrite fv_length, L0 in Ess.
    assert (Lsg : length sg = n) by apply (rsg_length n x g H D dv delta theta lb ub P).
    assert (MB : is_mat n n B) by apply rB_mat.
    assert (SB : symmetric B) by apply (rB_sym n x g H D dv delta theta lb ub P).
    assert (EBc : Bc = redB B sub).
    { apply fm_inj. rewrite <- Eb, Ech, <- h_redB. unfold subspace_hess. cbn [new_step st_subspace st_shess].
      rewrite (rA_shess n x g H D dv delta theta lb ub P). reflexivity. }
    assert (Egc : gc = rmv sub sg).
    { apply fv_inj. rewrite <- Eg, Ecg. cbn [new_step st_subspace st_sg]. rewrite rA_sg. apply h_tmatvec. }
    assert (Lk : k = length sub).
    { destruct HP as ([Lb _] & _). rewrite <- Lb, EBc. apply (redB_mat B sub). }
    rewrite Ech in Eb. rewrite Ecg in Eg. unfold solved in Hsol. rewrite Eb, Eg in Hsol.
    cbn [new_step st_subspace st_delta st_ss0] in Hsol. change (a_delta A) with (Fin delta) in Hsol.
    assert (Ed : nsqrt (pymax (nsq (Fin delta) - nsq (norm (fv z)))%num n0) = Fin r).
    { rewrite h_norm. unfold nsq, pymax. cbn [nsub nmul nltb nsqrt ERNum er_sub er_add er_opp er_mul er_ltb n0 nofZ].
      assert (Q : delta * delta + - (rnorm z * rnorm z) = r * r) by (rewrite rnorm_sq; lra). rewrite Q.
      destruct (Rltb_spec (r * r) 0); [nra|]. cbn [er_sqrt].
      destruct (Rltb_spec (r * r) 0); [nra|]. f_equal. apply sqrt_square. lra. }
    rewrite Ed in Hsol.
    destruct (C28_solves k Bc gc r vals vecs (so_sub O) m HP Hm HN (or_introl Hm0)) as (q & lab & Eq & _ & Hmin & _).
    pose proof (C27_with_newton k Bc gc r vals vecs (so_sub O) (fv q) lab HP HN Eq) as (q' & Eq' & Lq & _). apply fv_inj in Eq'. subst q'.
    destruct sub as [|u1 [|u2 sub]]; try (simpl in Hl; lia). cbn [fm map] in Hsol. destruct Hsol as (lab' & Hsol).
    rewrite Eq in Hsol. apply Ok_inj in Hsol. apply pair_equal_spec in Hsol as [<- _].
    rewrite h_lincomb in Ess. set (S0 := u1 :: u2 :: sub) in *.
    exists S0, z, (rlincomb n q S0). split.
    - split; [exact sb_subspace|]. split; [exact Hlen|]. split; [exact sb_ss0|]. split; [exact Lz|].
      split; [now rewrite sb_og_ss|]. split; [now apply lin_len|]. exists q. split; [congruence|reflexivity].
    - intros t Lt Ht. subst Bc gc. rewrite <- !(red_qmodel n B sg S0) by (auto; congruence). apply Hmin; [congruence|].
      apply rnorm_le; [lra|]. lra.
  Qed.

  Lemma qmodel_split z w : length z = n -> length w = n -> qmodel B sg (radd z w) = qmodel B sg z + qmodel B sg w + rform B z w.
  Proof using P.
    intros Lz Lw. assert (MB : is_mat n n B) by apply rB_mat.
    assert (SB : symmetric B) by apply (rB_sym n x g H D dv delta theta lb ub P).
    assert (Lsg : length sg = n) by apply (rsg_length n x g H D dv delta theta lb ub P).
    unfold qmodel. rewrite rform_radd_l, !rform_radd_r, rdot_radd_r by congruence. rewrite (rform_sym n B w z) by auto. lra.
  Qed.
  Lemma rform_apart z sub t : length z = n -> Forall (fun u => length u = n) sub -> length t = length sub ->
    (forall u, In u sub -> rform B z u = 0) -> rform B z (rlincomb n t sub) = 0.
  Proof using P.
    intros Lz Hs Lt Hu. assert (MB : is_mat n n B) by apply rB_mat.
    assert (SB : symmetric B) by apply (rB_sym n x g H D dv delta theta lb ub P).
    rewrite (rform_sym n) by (auto using lin_len). unfold rform. rewrite <- (rdot_lin n) by auto.
    replace (rmv sub (rmv B z)) with (rzeros (length sub)); [rewrite rdot_comm; apply rdot_zeros_l|].
    apply rvec_ext; [rewrite rmv_length; apply repeat_length|]. intros i. rewrite nth_rzeros, nth_rmv.
    destruct (Nat.lt_ge_cases i (length sub)) as [Hi|Hi]; [|now rewrite nth_overflow by auto].
    rewrite Forall_forall in Hs. symmetry. change (rform B (nth i sub []) z = 0). rewrite (rform_sym n) by (auto; apply Hs, nth_In; auto). apply Hu, nth_In, Hi.
  Qed.

  Section OfRun.
  (** the truncated candidates [l] obtained from the main step *)
  Variables (sd : string) (main : step ER) (l : list (step ER)).
  Hypothesis Hn : (1 < n)%nat.
  Hypothesis H2d : finite_2d O n.
  Hypothesis Hcg : sd = "scg"%string -> nonzero g /\ (n <= so_cgfuel O)%nat.
  Hypothesis Hm : main_step O A sd = Ok main.
  Hypothesis Ha : (st_alpha main =? n1)%num = false.
  Hypothesis Hl : stepback_truncate O A main = Ok l.

  (** with one direction left, the candidate (before it is stepped back) is the best point of its line in the trust region *)
  Theorem C76_one_direction : forall c, In c l -> length (st_subspace c) = 1%nat ->
    Forall (fun v => v = NaN) (st_og_ss c)
    \/ exists u z w, explores c [u] z w
       /\ forall t, rnorm (radd z (rscale t u)) <= delta -> qmodel B sg (radd z w) <= qmodel B sg (radd z (rscale t u)).
  Proof using All. intros c Hc. apply one_direction. eapply stepback_truncation; eauto. Qed.

  (** with several directions left, its moving part is the minimiser of the model as if nothing had been fixed *)
  Theorem C76_moving_part : forall c, In c l -> (2 <= length (st_subspace c))%nat -> solved_convex O delta c ->
    exists sub z w, explores c sub z w
      /\ forall t, length t = length sub -> rdot z z + rdot t t <= delta * delta -> qmodel B sg w <= qmodel B sg (rlincomb n t sub).
  Proof using All. intros c Hc. apply moving_part. eapply stepback_truncation; eauto. Qed.

  (** which is the best step along these directions if the model does not couple them to the fixed part *)
  Theorem C76_decoupled : forall c, In c l -> (2 <= length (st_subspace c))%nat -> solved_convex O delta c ->
    exists sub z w, explores c sub z w
      /\ ((forall u, In u sub -> rform B z u = 0) ->
          forall t, length t = length sub -> rdot z z + rdot t t <= delta * delta ->
            qmodel B sg (radd z w) <= qmodel B sg (radd z (rlincomb n t sub))).
  Proof using All.
    intros c Hc H2 Hs. destruct (C76_moving_part c Hc H2 Hs) as (sub & z & w & He & Hw). exists sub, z, w. split; [exact He|].
    intros Hz t Lt Ht. destruct He as (_ & Hlen & _ & Lz & _ & Lw & q & Lq & Ew).
    rewrite !qmodel_split by (auto using lin_len). rewrite (rform_apart z sub t) by auto. rewrite Ew, (rform_apart z sub q), <- Ew by auto.
    specialize (Hw t Lt Ht). lra.
  Qed.
  End OfRun.
End TruncModel.

(** *** Otherwise it is not: with the default solver 2D and the strategy "mixed" the first step that minimize tries is a truncated
    candidate inside the trust region, and another step with the same first component, also inside the trust region and within the
    bounds, has a model value lower by more than 1/100 *)
Section Refuted.
Local Open Scope num_scope.
(** 12.5 x1^2 - 15 x1 x2 + 5 x2^2 - 0.1 x1 - 5 x2, strictly convex *)
Definition valley5 : nat -> list F64 -> retval F64 := quad (- nfrac 1 10) (fz (-5)) (fz 25) (fz (-15)) (fz 10).
(** the same first component, and the second one that minimises the model given the first *)
Definition rival (sp : step F64) : list F64 :=
  let a := nth 0 (vadd (st_ss sp) (st_ss0 sp)) nnan in
  [a; - (nth 1 (st_sg sp) nnan + nth 0 (nth 1 (st_shess sp) []) nnan * a) / nth 1 (nth 1 (st_shess sp) []) nnan].
Theorem C76_best_step_refuted : exists f s sp r,
  loop_head (plane valley5) (fst mixed_below) 1 (fzs [0; 0]%Z) None H0None (snd mixed_below) f s
  /\ proposes (plane valley5) (fst mixed_below) s sp
  /\ op_subspace_dim (c_opts (fst mixed_below)) = "2D"%string
  /\ st_type sp = "trt"%string /\ (o_delta s =? n1) = true
  /\ (norm (vadd (st_ss sp) (st_ss0 sp)) <? n1) = true
  /\ (nth 0 r nnan =? nth 0 (vadd (st_ss sp) (st_ss0 sp)) nnan) = true
  /\ (norm r <? n1) = true
  /\ (nth 0 (st_scaling sp) nnan * nth 0 r nnan <=? nfrac 1 10) = true
  /\ (quadratic_form (st_shess sp) (st_sg sp) r <? st_qpval sp - nfrac 1 100) = true.
Proof.
  assert (H : proposal_of (plane valley5) mixed_below (fzs [0; 0]%Z) (fun s sp =>
    String.eqb (op_subspace_dim (c_opts (fst mixed_below))) "2D" && (String.eqb (st_type sp) "trt" && ((o_delta s =? n1)
    && ((norm (vadd (st_ss sp) (st_ss0 sp)) <? n1)
    && ((nth 0 (rival sp) nnan =? nth 0 (vadd (st_ss sp) (st_ss0 sp)) nnan)
    && ((norm (rival sp) <? n1)
    && ((nth 0 (st_scaling sp) nnan * nth 0 (rival sp) nnan <=? nfrac 1 10)
    && (quadratic_form (st_shess sp) (st_sg sp) (rival sp) <? st_qpval sp - nfrac 1 100)))))))) = true) by (vm_compute; reflexivity).
  apply proposal_of_ok in H as (f & s & sp & H1 & H2 & H3). exists f, s, sp, (rival sp). split; [assumption|]. split; [assumption|].
  rewrite !andb_true_iff, !String.eqb_eq in H3. repeat split; try tauto.
Qed.
End Refuted.
