(** C06 in exact arithmetic: with the two inner loops included, no run of minimize diverges.
    C06_no_divergence (Prop_Run.v) covers the configurations without inner [while] loops in any number system; here
    every subspace solver and step-back strategy is covered, for symmetric model Hessians. *)
From Coq Require Import String ZArith List Bool Reals Lra Lia Psatz.
From Verif Require Import Num Constants Subproblem HessApprox Steps TrustRegion Minimize
  ER NumFacts MonadFacts MinFacts Spec Run RunInv RVec SubNd RShess Argmin Cand StepFacts Prop_Sub1d Prop_Pred Prop_Box
  Prop_Cand TRErr RealStep Prop_Grad Region RunFrame Prop_Run Prop_Nudge Prop_BoxRun Prop_BoxRun2 HessRun HessDim Prop_Sym Prop_Trunc Prop_CG Prop_Stepback
  Prop_ConvergeBox Prop_ConvergeBox2 GradEx.
Import ListNotations.
Local Open Scope R_scope.
Local Open Scope list_scope.

Lemma vfinite_fv (v : list ER) : vfinite v = true -> exists r, v = fv r.
Proof.
  unfold vfinite. induction v as [|a v IH]; [exists []; reflexivity|]. cbn [forallb]. intros H. apply andb_true_iff in H as [H1 H2].
  destruct (IH H2) as (r & ->). destruct a; try discriminate. exists (r0 :: r). reflexivity.
Qed.
Lemma mfinite_fm (m : list (list ER)) : mfinite m = true -> exists r, m = fm r.
Proof.
  unfold mfinite. induction m as [|a v IH]; [exists []; reflexivity|]. cbn [forallb]. intros H. apply andb_true_iff in H as [H1 H2].
  destruct (IH H2) as (r & ->). destruct (vfinite_fv a H1) as (w & ->). exists (w :: r). reflexivity.
Qed.
Lemma sym_fm n B : sym n (fm B : list (list ER)) -> is_mat n n B /\ symmetric B.
Proof.
  intros [[S1 S2] S3]. rewrite fm_length in S1.
  assert (M : is_mat n n B).
  { split; [exact S1|]. rewrite Forall_forall in *. intros r Hr. specialize (S2 (fv r)). rewrite fv_length in S2. apply S2.
    unfold fm. now apply in_map. }
  split; [exact M|]. destruct M as [M1 M2].
  assert (R : forall i, (i < n)%nat -> length (nth i B []) = n).
  { intros i Hi. rewrite Forall_forall in M2. apply M2, nth_In. lia. }
  assert (X : forall i j, (i < n)%nat -> (j < n)%nat -> cell (fm B) i j = Fin (nth j (nth i B []) 0)).
  { intros i j Hi Hj. unfold cell, fm. rewrite (nth_indep _ _ (fv [])) by (rewrite map_length; lia). rewrite map_nth.
    unfold fv. rewrite (nth_indep _ _ (Fin 0)) by (rewrite map_length, R; lia). now rewrite map_nth. }
  intros i j. unfold entry. destruct (lt_dec i n) as [Hi|Hi], (lt_dec j n) as [Hj|Hj].
  - specialize (S3 i j Hi Hj). rewrite !X in S3 by auto. now injection S3.
  - rewrite (nth_overflow (nth i B [])) by (rewrite R; lia). rewrite (nth_overflow B) by lia. now destruct i, j.
  - rewrite (nth_overflow (nth j B [])) by (rewrite R; lia). rewrite (nth_overflow B) by lia. now destruct i, j.
  - rewrite (nth_overflow B) by lia. rewrite (nth_overflow B (n := j)) by lia. now destruct i, j.
Qed.

(** *** the conjugate-gradient solver at a zero gradient: one pass, a single candidate *)
Section CGZero.
  Variables (O : StepOracles ER) (n : nat) (x g : rvec) (H : rmat) (D dv : rvec) (delta theta : R) (lb ub : list ER).
  Hypothesis P : problem n x g H D dv delta theta lb ub.
  Local Notation A := (rA x g H D dv delta theta lb ub).
  Hypothesis Z : forall i, nth i g 0 = 0.

  Lemma zero_sg : rsg g D = rzeros n.
  Proof using P Z.
    destruct P. apply rvec_ext; [unfold rsg, rzeros; rewrite repeat_length; now apply rmul_length|]. intros i. unfold rzeros.
    rewrite nth_repeat. destruct (lt_dec i n) as [Hi|Hi]; [|apply nth_overflow; unfold rsg; rewrite (rmul_length _ _ n); auto; lia].
    unfold rsg. rewrite (nth_rmul D g n) by auto. rewrite Z. ring.
  Qed.
  Lemma nan_lincomb : lincomb n [NaN] [fv (rzeros n)] = repeat NaN n.
  Proof using.
    cbn [lincomb]. unfold vzeros, rzeros, fv, vadd, vscale. clear. induction n as [|k IH]; [reflexivity|].
    cbn [repeat map map2]. rewrite IH. reflexivity.
  Qed.

  (** whatever number the boundary solution is, it is not finite *)
  Lemma boundary_zero B : get_1d_trust_region_boundary_solution B (fv (rzeros n)) (fv (rzeros n)) (fv (rzeros n)) (Fin delta) = NaN
    \/ get_1d_trust_region_boundary_solution B (fv (rzeros n)) (fv (rzeros n)) (fv (rzeros n)) (Fin delta) = PInf.
  Proof using P.
    unfold get_1d_trust_region_boundary_solution. cbv zeta. rewrite h_dot, rdot_zeros_l.
    pose proof (pb_delta _ _ _ _ _ _ _ _ _ _ P) as Hd.
    set (b := (n2 * Fin 0)%num). assert (Eb : b = Fin 0) by (unfold b; cbn; f_equal; ring). rewrite Eb.
    set (q := nsqrt _). assert (Eq : q = Fin 0).
    { unfold q, nsq. cbn [nmul nsub ERNum er_mul er_sub er_opp er_add nofZ nsqrt er_sqrt]. match goal with |- context [Rltb ?u 0] => replace u with 0 by ring end.
      destruct (Rltb_spec 0 0); [lra|]. now rewrite sqrt_0. }
    rewrite Eq. set (aux := (Fin 0 + copysign (Fin 0) (Fin 0))%num).
    assert (Ea : aux = Fin 0).
    { unfold aux, copysign. match goal with |- context [if ?b then _ else _] => destruct b end; cbn [nabs nopp nadd ERNum er_abs er_opp er_add]; rewrite Rabs_R0; f_equal; ring. }
    rewrite Ea.
    match goal with |- nth (argmin ?l) ?ts _ = _ \/ _ => set (k := argmin l); set (t2 := ts) end.
    assert (Et : t2 = [NaN; PInf]).
    { unfold t2. f_equal.
      - cbn [nopp ndiv ERNum er_opp er_div]. destruct (Reqb_spec 0 0) as [_|K]; [|exfalso; now apply K].
        unfold er_infmul. destruct (Rltb_spec 0 (- 0)); [lra|]. destruct (Rltb_spec (- 0) 0); [lra|reflexivity].
      - f_equal. unfold n2, nsq. cbn [nmul nopp ndiv nsub ERNum er_mul er_opp er_div er_sub er_add nofZ]. destruct (Reqb_spec 0 0) as [_|K]; [|exfalso; now apply K].
        unfold er_infmul. match goal with |- context [Rltb 0 ?u] => destruct (Rltb_spec 0 u) as [_|K]; [reflexivity|exfalso; apply K; nra] end. }
    rewrite Et. destruct k as [|[|k]]; cbn; auto. destruct k; auto.
  Qed.

  Lemma nan_breaks : forall k (y l u : list ER), length y = k -> length l = k -> length u = k -> breakpoints y (repeat NaN k) l u = repeat PInf k.
  Proof using.
    clear. induction k as [|k IH]; intros [|a y] [|b l] [|c u] L1 L2 L3; try discriminate; [reflexivity|].
    cbn [repeat breakpoints]. rewrite IH by (cbn in *; lia). reflexivity.
  Qed.

  Lemma cg_zero : (1 <= so_cgfuel O)%nat -> exists c, cg_step O A = Ok c
      /\ st_s c = repeat NaN n /\ st_s0 c = fv (rzeros n) /\ st_alpha c = Fin 1 /\ st_qpval c = NaN /\ st_ss c = repeat NaN n.
  Proof using P Z.
    intros Hf. pose proof P as P'. destruct P'. pose proof zero_sg as Es.
    assert (N0 : rnorm (rzeros n) = 0) by (unfold rnorm; rewrite rdot_zeros_l; apply sqrt_0).
    assert (Esub : exists t, (t = NaN \/ t = PInf) /\ forall eps, cg_loop (so_cgfuel O) (fm (rB n g H D dv)) (fv (rzeros n)) (Fin delta) eps (fv (rzeros n)) (fv (rzeros n)) (vopp (fv (rzeros n)))
       = Ok ([fv (rzeros n)], [t], lincomb n [t] [fv (rzeros n)], fv (rzeros n))).
    { assert (Eo : vopp (fv (rzeros n)) = fv (rzeros n)).
      { rewrite h_vopp. f_equal. apply rvec_ext; [unfold rzeros; now rewrite rscale_length|]. intros i. rewrite nth_rscale. unfold rzeros. rewrite nth_repeat. ring. }
      rewrite Eo. destruct (boundary_zero (fm (rB n g H D dv))) as [K|K]; [exists NaN|exists PInf]; (split; [auto|]); intros eps.
      all: destruct (so_cgfuel O) as [|k]; [lia|]; cbn [cg_loop]; rewrite h_matvec, !h_dot, rdot_zeros_l; cbn [nleb ERNum er_leb n0 nofZ];
        (destruct (Rleb_spec 0 0); [|lra]); cbn [orb]; rewrite K, fv_length; replace (length (rzeros n)) with n by (unfold rzeros; now rewrite repeat_length).
      reflexivity.
      assert (E1 : (PInf * n1)%num = PInf) by (cbn [nmul ERNum er_mul n1 nofZ]; unfold er_infmul; destruct (Rltb_spec 0 1); [reflexivity|lra]). rewrite E1. reflexivity. }
    destruct Esub as (t & Ht & El0).
    assert (Hex : exists c, cg_step O A = Ok c).
    { unfold cg_step. cbv zeta. rewrite rA_sg, Es, h_norm, N0.
      match goal with |- context [if ?b then _ else _] => assert (Eb : b = false) end.
      { unfold pymin, nhalf. cbn [nsqrt ERNum er_sqrt]. destruct (Rltb_spec 0 0); [lra|]. rewrite sqrt_0.
        match goal with |- context [(if ?b then ?u else ?v)] => destruct b end.
        - cbn [nmul ERNum er_mul nltb er_ltb]. destruct (Rltb_spec 0 (0 * 0)); [lra|reflexivity].
        - unfold nfrac. cbn [ndiv ERNum nofZ er_div]. destruct (Reqb_spec 2 0); [lra|]. cbn [nmul ERNum er_mul nltb er_ltb]. match goal with |- Rltb 0 ?u = false => destruct (Rltb_spec 0 u); [lra|reflexivity] end. }
      rewrite Eb.
      change (st_shess (new_step "cgs" A (a_x A) [] (zeros_of A) (zeros_of A) [] [] None None)) with (shess_of (a_scaling A) (a_hess A) (a_gd A)).
      rewrite (rA_shess n x g H D dv delta theta lb ub P), (zeros_rA n x g H D dv delta theta lb ub P).
      change (a_delta A) with (Fin delta). rewrite El0. eexists. reflexivity. }
    destruct Hex as (c & Hc). exists c. split; [exact Hc|].
    apply cg_fields in Hc as (sub & sc & ss & ss0 & s & El & Ess & Hst & Hq).
    rewrite rA_sg, Es, (rA_shess n x g H D dv delta theta lb ub P), (zeros_rA n x g H D dv delta theta lb ub P) in El.
    change (a_delta A) with (Fin delta) in El. rewrite El0 in El. apply Ok_inj in El. apply pair_equal_spec in El as [El E4']. apply pair_equal_spec in El as [El E3'].
    apply pair_equal_spec in El as [E1' E2']. subst sub sc ss ss0.
    assert (Esc : lincomb n [t] [fv (rzeros n)] = repeat NaN n).
    { destruct Ht as [-> | ->]; [apply nan_lincomb|]. rewrite <- nan_lincomb. clear. cbn [lincomb]. f_equal. unfold vscale, fv, rzeros. induction n as [|k IH]; [reflexivity|].
      cbn [repeat map]. rewrite IH. f_equal. cbn [nmul ERNum er_mul]. unfold er_infmul. destruct (Rltb_spec 0 0); [lra|reflexivity]. }
    assert (Nadd : forall v : rvec, length v = n -> vadd (repeat NaN n) (fv v) = repeat NaN n).
    { clear. induction n as [|k IH]; intros [|a v] L; try discriminate; [reflexivity|]. cbn [repeat]. unfold vadd, fv in *. cbn [map map2]. rewrite IH by (cbn in L; lia). reflexivity. }
    assert (Nmul : forall v : rvec, length v = n -> vmul (fv v) (repeat NaN n) = repeat NaN n).
    { clear. induction n as [|k IH]; intros [|a v] L; try discriminate; [reflexivity|]. cbn [repeat]. unfold vmul, fv in *. cbn [map map2]. rewrite IH by (cbn in L; lia). reflexivity. }
    assert (Lz : length (rzeros n) = n) by apply repeat_length.
    rewrite Esc, Nadd in Ess by auto. change (a_scaling A) with (fv D) in Ess. rewrite Nmul in Ess by auto. subst s.
    rewrite Esc in Hst.
    assert (Emin : st_minbr c = PInf).
    { rewrite (sb_minbr _ _ _ _ _ Hst), (sb_br _ _ _ _ _ Hst). cbn [new_step st_x st_lb st_ub]. rewrite nan_breaks by (cbn [rA tr_args a_x a_lb a_ub]; rewrite ?fv_length; auto).
      destruct n as [|k]; [lia|]. cbn [repeat npmin]. clear. induction k as [|k IH]; [reflexivity|]. cbn [repeat fold_left]. exact IH. }
    assert (Eal : st_alpha c = Fin 1).
    { rewrite (sb_alpha _ _ _ _ _ Hst), Emin. cbn [new_step st_theta rA tr_args a_theta npmin fold_left n1 nofZ nmul ERNum er_mul]. unfold er_infmul.
      destruct (Rltb_spec 0 theta); [|lra]. reflexivity. }
    assert (Sc : forall a, vscaler (repeat NaN n) a = repeat NaN n).
    { clear. intros a. unfold vscaler. induction n as [|k IH]; [reflexivity|]. cbn [repeat map]. rewrite IH. reflexivity. }
    assert (E1 : st_s c = repeat NaN n) by (rewrite (sb_s _ _ _ _ _ Hst); apply Sc).
    assert (E2 : st_ss c = repeat NaN n) by (rewrite (sb_ss _ _ _ _ _ Hst); apply Sc).
    split; [exact E1|]. split.
    { rewrite (sb_s0 _ _ _ _ _ Hst). exact (zeros_rA n x g H D dv delta theta lb ub P). }
    split; [exact Eal|]. split; [|exact E2].
    rewrite Hq, E2, (sb_ss0 _ _ _ _ _ Hst). cbn [new_step st_ss0]. rewrite Nadd by auto.
    rewrite (sb_sg _ _ _ _ _ Hst). cbn [new_step st_sg]. rewrite rA_sg, Es. unfold quadratic_form.
    assert (Ed : dot (fv (rzeros n)) (repeat NaN n) = NaN).
    { destruct n as [|k]; [lia|]. unfold dot, vmul, rzeros, fv. cbn [repeat map map2]. unfold vsum. cbn [fold_right nmul ERNum er_mul nadd er_add]. reflexivity. }
    rewrite Ed. cbn [nadd ERNum]. match goal with |- er_add ?a NaN = NaN => destruct a; reflexivity end.
  Qed.

  Lemma cg_zero_candidates strat : (1 <= so_cgfuel O)%nat -> exists c, candidates O A "scg" strat = Ok [c]
      /\ st_s c = repeat NaN n /\ st_s0 c = fv (rzeros n) /\ st_qpval c = NaN /\ st_ss c = repeat NaN n.
  Proof using P Z.
    intros Hf. destruct (cg_zero Hf) as (c & Hc & E1 & E2 & E3 & E4 & E5). exists c. split; [|auto].
    unfold candidates, main_step. cbn [String.eqb Ascii.eqb Bool.eqb]. rewrite Hc. cbn [rbind]. rewrite E3.
    cbn [nltb ERNum er_ltb n1 nofZ]. destruct (Rltb_spec 1 1); [lra|reflexivity].
  Qed.
End CGZero.

(** *** the invariants of the head of the main loop *)
Section Heads.
  Variables (E : env ER) (C : cfg ER) (ndim : nat) (x0 : rvec) (sid : option string) (h0 : hess0_arg ER) (st : opt ER).
  Local Notation O := (c_opts C).
  Local Notation n := (length x0).
  Hypothesis Hbox : in_box (c_lb C) (c_ub C) (fv x0).
  Hypothesis Hwide : forall i, (i < n)%nat -> er_leb (Fin (2 * margin)) (er_sub (nth i (c_ub C) NaN) (nth i (c_lb C) NaN)) = true.
  Variables (D0 g1 g2 tm : R).
  Hypothesis Htm : op_theta_max O = Fin tm.
  Hypothesis Htm1 : 0 < tm <= 1.
  Hypothesis HD0 : op_delta_init O = Fin D0.
  Hypothesis Hg1 : op_gamma1 O = Fin g1.
  Hypothesis Hg2 : op_gamma2 O = Fin g2.

  Definition strict_pt (x : rvec) : Prop := length x = n /\ forall i, (i < n)%nat -> strictly_inside (nth i (c_lb C) NaN) (nth i x 0) (nth i (c_ub C) NaN).

  Lemma nudged_strict p : in_box (c_lb C) (c_ub C) (fv p) -> length p = n -> exists x, nudge C (fv p) = fv x /\ strict_pt x.
  Proof using Hwide.
    intros Hp Lp. destruct (C13_moved_inside C p Hp) as (y & Ey & By & K). exists y. split; [exact Ey|].
    assert (Ly : length y = n) by (destruct By as (B1 & _), Hp as (B2 & _); rewrite fv_length in *; congruence).
    split; [exact Ly|]. intros i Hi. destruct (K i) as (_ & _ & K3); [lia|]. exact (K3 (Hwide i Hi)).
  Qed.

  Lemma norm_notneg (v : list ER) : norm v <> NInf.
  Proof using. unfold norm. cbn [nsqrt ERNum]. destruct (dot v v) as [r| | |]; cbn [er_sqrt]; try discriminate. destruct (Rltb r 0); discriminate. Qed.

  Lemma radius_finite d r sp v : exists d', radius_rule C (Fin d) r sp v = Fin d'.
  Proof using Hg1 Hg2.
    unfold radius_rule. rewrite Hg1, Hg2. destruct (_ && _); [cbn [nmul ERNum er_mul]; eauto|]. destruct (_ || _); [|eauto].
    unfold scaled_length, nanmin2. cbn [nmul ERNum er_mul].
    match goal with |- context [norm ?w] => pose proof (norm_notneg w) as Hn; destruct (norm w) as [q| | |] end; try congruence; cbn [ndiv ERNum er_div nofZ].
    - destruct (Reqb_spec 4 0); [lra|]. cbn [nisnan ERNum er_isnan nltb er_ltb]. destruct (Rltb _ _); eauto.
    - destruct (Rltb_spec 4 0); [lra|]. cbn [nisnan ERNum er_isnan nltb er_ltb]. eauto.
    - cbn [nisnan ERNum er_isnan]. eauto.
  Qed.

  Lemma head_strict f s : loop_head E C ndim (fv x0) sid h0 st f s ->
    (exists x, deref s (o_x s) = fv x /\ strict_pt x) /\ exists d, o_delta s = Fin d.
  Proof using Hbox Hwide HD0 Hg1 Hg2 Htm Htm1.
    induction 1 as [f s H|f s s1 f' s' HL IH Hc Hi].
    - split.
      + destruct (nudged_strict x0 Hbox eq_refl) as (x & Ex & Sx). exists x. split; [|exact Sx].
        assert (Q : deref s (o_x s) = nudge C (fv x0)).
        { apply prepare_inv in H. inversion H as [| | | | | |pf hess h' f1 D1 D2 D3 D4 D5 D6 D7 Ef Es0]. subst f1. clear H. subst s.
          unfold pr_s4. destruct better; unfold deref, pr_s3, pr_s2, pr_s1, pr_s0; destruct pr_id; cbn [o_heap o_x set_o_conv]; apply nth_middle. }
        congruence.
      + exists D0. rewrite (prepare_delta E C _ _ _ _ _ _ _ H). exact HD0.
    - destruct IH as [(x & Ex & Sx) (d & Ed)].
      split.
      + destruct (C15_pass E C ndim (fv x0) sid h0 st f s s1 f' s' HL Hc Hi) as (sp & r & v & g & P1 & P2 & P3 & P4 & P5 & P6).
        destruct (accepts C s sp v g) eqn:Ea.
        * destruct P6 as (_ & _ & Q & _). rewrite Q.
          destruct (C11_accepted_in_box E C ndim (fv x0) sid h0 st tm Htm ltac:(lra) f s sp v g HL P1 Ea) as [B1 B2].
          destruct (vfinite_fv _ B2) as (p & Ep). rewrite Ep in *. apply nudged_strict; [exact B1|].
          destruct B1 as (B1 & _), Hbox as (B0 & _). rewrite fv_length in *. congruence.
        * destruct P6 as (_ & _ & _ & _ & _ & Q & _). exists x. split; [congruence|exact Sx].
      + destruct (C14_radius_rule E C ndim (fv x0) sid h0 st f s s1 f' s' HL Hc Hi) as (sp & r & v & g & P1 & P2 & P3 & P4 & P5 & P6).
        rewrite P6, Ed. apply radius_finite.
  Qed.

  (** a pass that ends without a result because a loop does not stop has a finite state and fails in trust_region *)
  Lemma pass_diverges f s s' : iteration E C f s = (Err EDiverge, s') ->
    all_finite (o_fval s) (o_grad s) (Some (o_hess s)) = true /\ it_tr E C s = Err EDiverge.
  Proof using.
    intros Ei. split.
    - destruct (all_finite (o_fval s) (o_grad s) (Some (o_hess s))) eqn:Ef; [reflexivity|exfalso].
      unfold iteration in Ei.
      apply bind_inv in Ei as [(a & s1 & H1 & H)|(e & H1 & He)]; [|discriminate H1]. injection H1 as <- <-.
      apply bind_inv in H as [(a & s1 & H1 & H)|(e & H1 & He)]; [|discriminate H1]. injection H1 as <- <-.
      apply bind_inv in H as [(a & s1 & H1 & H)|(e & H1 & He)]; [|discriminate H1]. injection H1 as <- <-.
      change (set_o_delta_iter (o_delta (set_o_iter (o_iter s + 1)%Z s)) (set_o_iter (o_iter s + 1)%Z s)) with (it_s1 s) in H.
      unfold check_finite_self in H.
      apply bind_inv in H as [(a & s1 & H1 & H)|(e & H1 & He)].
      + unfold bind, get in H1. rewrite check_finite_run in H1.
        match type of H1 with context [all_finite ?u ?v ?w] => assert (K : all_finite u v w = false) by exact Ef; rewrite K in H1 end. discriminate H1.
      + unfold bind, get in H1. rewrite check_finite_run in H1.
        match type of H1 with context [all_finite ?u ?v ?w] => assert (K : all_finite u v w = false) by exact Ef; rewrite K in H1 end. injection He as <-. apply pair_equal_spec in H1 as [H1 _]. discriminate H1.
    - apply iteration_inv in Ei.
      inversion Ei as [|e' Ht|sp e' Ht He|sp pf e' Ht He Hy|sp pf f0 Ht He Hy A1 A2|sp f0 e' st0 Hev Ha Hu|sp f0 st0 Hev Hu Hh|]; subst.
      + exact Ht.
      + apply fun_evaluate_err in He as [He|He]; discriminate.
      + apply typed_fout_err in Hy. discriminate.
      + rewrite update_run in Hu. destruct new_hess as [[? ?]|e1] eqn:En.
        * destruct in_bounds; [discriminate Hu|]. apply pair_equal_spec in Hu as [Hu _]. discriminate.
        * apply pair_equal_spec in Hu as [Hu _]. injection Hu as ->. apply new_hess_err in En as [En|[En|En]]; discriminate.
  Qed.

  Hypothesis Hn : (1 <= n)%nat.
  Hypothesis Hsym : forall f s, loop_head E C ndim (fv x0) sid h0 st f s -> sym n (o_hess s).
  Hypothesis Heig : finite_eig (so_sub (e_la E)).
  Hypothesis H2d : finite_2d (e_la E) n.
  Hypothesis Hroot : roots_raise (so_sub (e_la E)) (fun e => e <> EDiverge).
  Hypothesis Htr : (n + 1 <= so_trfuel (e_la E))%nat.
  Hypothesis Hcg : (n <= so_cgfuel (e_la E))%nat.

  Lemma pass_stops f s s1 f' : loop_head E C ndim (fv x0) sid h0 st f s -> check_continue E C s = (Ok true, s1) ->
    forall s', iteration E C f' s1 <> (Err EDiverge, s').
  Proof using Hbox Hwide HD0 Hg1 Hg2 Htm Htm1 Hn Hsym Heig H2d Hroot Htr Hcg.
    intros HL Hc s' Hi. apply pass_diverges in Hi as [Hf Ht].
    destruct (head_strict f s HL) as [(x & Ex & Lx & Sx) (d & Ed)].
    pose proof (loop_head_Inv E C _ _ _ _ _ _ _ HL) as I. destruct (head_dims E C _ _ _ _ _ _ _ HL) as [_ Lg]. rewrite fv_length in Lg.
    pose proof (Hsym f s HL) as Sy.
    apply check_continue_true in Hc as (-> & _ & _ & Hd).
    change (all_finite (o_fval s) (o_grad s) (Some (o_hess s)) = true) in Hf.
    unfold all_finite in Hf. apply andb_true_iff in Hf as [Hf Fh]. apply andb_true_iff in Hf as [_ Fg].
    destruct (vfinite_fv _ Fg) as (g & Eg). destruct (mfinite_fm _ Fh) as (B & EB).
    rewrite EB in Sy. apply sym_fm in Sy as [MB SB].
    assert (Lgr : length g = n) by (rewrite <- (fv_length g), <- Eg; exact Lg).
    destruct (iv_dims _ _ _ _ _ _ _ I) as [D1 D2]. rewrite fv_length in D1, D2.
    destruct (affine_real x g (c_lb C) (c_ub C)) as (D & dv & E1 & E2 & LD & Lv & K); try congruence.
    { rewrite Lx. exact Sx. }
    destruct (affine_fst x g (c_lb C) (c_ub C)) as (v & Ev & Lvv); try congruence.
    destruct (theta_real tm v g) as (t & Et & Ht1); try congruence; try lra; try lia.
    assert (Hdp : 0 < d).
    { rewrite Ed in Hd. unfold spacing1 in Hd. assert (Hw : 0 < / IZR (2 ^ 52)) by (apply Rinv_0_lt_compat, IZR_lt; reflexivity).
      rewrite (frac_fin 1 (2 ^ 52)) in Hd by lia. cbn [nltb ERNum er_ltb] in Hd. destruct (Rltb_spec d (1 / IZR (2 ^ 52))); [discriminate|]. unfold Rdiv in *. lra. }
    assert (P : problem n x g B D dv d t (c_lb C) (c_ub C)).
    { specialize (Ht1 (proj2 Htm1)). constructor; auto; try congruence; try lia.
      - apply Forall_forall. intros q Hq. apply (In_nth _ _ 0) in Hq as (i & Hi & <-). apply K. lia.
      - intros i Hi. apply strictly_inside_inside, Sx, Hi. }
    unfold it_tr in Ht.
    change (deref (set_o_clk (S (o_clk s)) s) (o_x (set_o_clk (S (o_clk s)) s))) with (deref s (o_x s)) in Ht.
    assert (Etr : trust_region (e_la E) (fv x) (fv g) (fm B) (fv D) (Fin d) (fv dv) (Fin t) (c_lb C) (c_ub C) (op_subspace_dim O) (op_stepback O) <> Err EDiverge).
    { unfold trust_region. change (tr_args (fv x) (fv g) (fm B) (fv D) (Fin d) (fv dv) (Fin t) (c_lb C) (c_ub C)) with (rA x g B D dv d t (c_lb C) (c_ub C)).
      destruct (nonzero_dec g) as [Hnz|Hz].
      - pose proof (C36_candidate_set (e_la E) n x g B D dv d t (c_lb C) (c_ub C) P (op_subspace_dim O) (op_stepback O) Heig H2d Hroot Htr (fun _ => conj Hnz Hcg)) as Hcs.
        destruct candidates as [l|e]; cbn [rbind]; [|intros He; injection He as ->; now apply Hcs].
        destruct nth_error; discriminate.
      - destruct (String.eqb_spec (op_subspace_dim O) "scg") as [Escg|Nscg].
        + rewrite Escg. destruct (cg_zero_candidates (e_la E) n x g B D dv d t (c_lb C) (c_ub C) P) with (strat := op_stepback O) as (c & Hcc & _); [exact Hz|lia|].
          rewrite Hcc. cbn [rbind]. destruct nth_error; discriminate.
        + pose proof (C36_candidate_set (e_la E) n x g B D dv d t (c_lb C) (c_ub C) P (op_subspace_dim O) (op_stepback O) Heig H2d Hroot Htr (fun Q => False_ind _ (Nscg Q))) as Hcs.
          destruct candidates as [l|e]; cbn [rbind]; [|intros He; injection He as ->; now apply Hcs].
          destruct nth_error; discriminate. }
    rewrite Ex in Ht. change (o_grad (set_o_clk (S (o_clk s)) s)) with (o_grad s) in Ht. change (o_hess (set_o_clk (S (o_clk s)) s)) with (o_hess s) in Ht.
    change (o_delta (set_o_clk (S (o_clk s)) s)) with (o_delta s) in Ht.
    unfold it_theta, it_dv, it_vdv in Ht.
    change (deref (set_o_clk (S (o_clk s)) s) (o_x (set_o_clk (S (o_clk s)) s))) with (deref s (o_x s)) in Ht.
    change (o_grad (set_o_clk (S (o_clk s)) s)) with (o_grad s) in Ht.
    rewrite Ex, Eg, EB, Ed, map_map, E1, E2, Ev, Htm, Et in Ht.
    destruct trust_region as [sp|e] in Ht, Etr; cbn [rbind] in Ht.
    - unfold check_shape in Ht. destruct (_ && _) in Ht; discriminate.
    - injection Ht as ->. now apply Etr.
  Qed.
End Heads.

(** For every objective whose Hessians are symmetric (or that supplies none), every update scheme except Broyden's good
    method, every subspace solver and step-back strategy: a run from a point of the box ends, i.e. neither the main loop
    nor the inner loops (conjugate gradients, recursive reflection, recursive truncation) go on for ever.
    Hypotheses: finite options as the validated defaults have; a box at least two margins wide; eigen-decompositions
    and least-squares solutions are finite (real) arrays of the right shape; the root finders return or raise. *)
Theorem C06_no_divergence_exact : forall (E : env ER) (C : cfg ER) fuel ndim (x0 : rvec) sid h0 (st : opt ER) D0 g1 g2 tm,
  (1 <= length x0)%nat -> in_box (c_lb C) (c_ub C) (fv x0) ->
  (forall i, (i < length x0)%nat -> er_leb (Fin (2 * margin)) (er_sub (nth i (c_ub C) NaN) (nth i (c_lb C) NaN)) = true) ->
  op_delta_init (c_opts C) = Fin D0 -> op_gamma1 (c_opts C) = Fin g1 -> op_gamma2 (c_opts C) = Fin g2 ->
  op_theta_max (c_opts C) = Fin tm -> 0 < tm <= 1 ->
  symmetric_objective E (length x0) -> (forall m, h0 = H0Mat m -> sym (length x0) m) -> (forall h, o_happ st = Some h -> h_uses_BG h = false) ->
  finite_eig (so_sub (e_la E)) -> finite_2d (e_la E) (length x0) -> roots_raise (so_sub (e_la E)) (fun e => e <> EDiverge) ->
  (Z.to_nat (op_maxiter (c_opts C)) < fuel)%nat -> (length x0 + 1 <= so_trfuel (e_la E))%nat -> (length x0 <= so_cgfuel (e_la E))%nat ->
  forall st', minimize E C fuel ndim (fv x0) sid h0 st <> (Err EDiverge, st').
Proof.
  intros E C fuel ndim x0 sid h0 st D0 g1 g2 tm Hn Hb Hw HD Hg1 Hg2 Ht Ht1 Hso Hh0 Hbg He H2 Hr Hf Hft Hfc st' H.
  assert (Hsym : forall f s, loop_head E C ndim (fv x0) sid h0 st f s -> sym (length x0) (o_hess s)).
  { intros f s HL. pose proof (C41_model_hessian_symmetric E C ndim (fv x0) sid h0 st f s) as K. rewrite fv_length in K. auto. }
  pose proof (pass_stops E C ndim x0 sid h0 st Hb Hw D0 g1 g2 tm Ht Ht1 HD Hg1 Hg2 Hn Hsym He H2 Hr Hft Hfc) as PS.
  assert (Hdiv : forall k f s s', loop_head E C ndim (fv x0) sid h0 st f s -> (Z.to_nat (op_maxiter (c_opts C) - o_iter s) < k)%nat ->
     loop E C k f s <> (Err EDiverge, s')).
  { induction k as [|k IH]; intros f s s' HL Hk Hl; [lia|].
    cbn [loop] in Hl. unfold bind in Hl. destruct (check_continue E C s) as [[[]|e] s1] eqn:Ec.
    - destruct (iteration E C f s1) as [[f'|e] s2] eqn:Ei.
      + apply IH in Hl; auto.
        * eapply lh_next; eauto.
        * apply check_continue_true in Ec as (-> & _ & Hlt & _). apply iteration_frame in Ei as [_ Hi]. rewrite Hi.
          change (o_iter (set_o_clk (S (o_clk s)) s)) with (o_iter s). lia.
      + apply pair_equal_spec in Hl as [Hl _]. injection Hl as ->. exact (PS f s s1 f HL Ec s2 Ei).
    - discriminate Hl.
    - rewrite check_continue_run in Ec. destruct o_conv; [discriminate|]. destruct (_ <=? _)%Z; [discriminate|].
      cbv zeta in Ec. destruct out_of_time; [discriminate|]. destruct (_ <? _)%num; discriminate. }
  unfold minimize in H.
  apply bind_inv in H as [(f & s1 & H3 & H)|(e & H3 & He3)].
  - apply bind_inv in H as [([] & s2 & H4 & H)|(e & H4 & He4)].
    + apply bind_inv in H as [([] & s3 & H5 & H)|(e & H5 & He5)].
      * rewrite (bind_ok get _ s3 s3 s3 eq_refl) in H. discriminate H.
      * injection He5 as <-. apply write_history_inv in H5 as [(H5 & _)|[(file & _ & H5 & _)|(file & _ & H5 & _)]]; discriminate.
    + injection He4 as <-. apply Hdiv in H4; auto; [now apply lh_start|].
      apply prepare_frame in H3 as [_ Hi]. rewrite Hi. now rewrite Z.sub_0_r.
  - injection He3 as <-. apply prepare_inv in H3.
    inversion H3 as [| |e A1 A2 A3|pf e A1 A2 A3 A4|pf hess h' e A1 A2 A3 A4 A5| |]; subst.
    + apply fun_evaluate_err in A3 as [A3|A3]; discriminate.
    + apply pr_hess_err in A4 as [A4|A4]; discriminate.
    + destruct A5 as [A5|A5].
      * apply checkdims_err in A5 as [A5|A5]; discriminate.
      * apply typed_fout_err in A5. discriminate.
Qed.

(** the hypotheses are met: the sum of squares in a bounded box, each subspace solver and each step-back strategy *)
Definition te_E : env ER :=
  mkEnv (fun _ x => match x with
                    | [Fin a; Fin b] => RTuple [PScal (Fin (a * a + b * b)); PVec [Fin (2 * a); Fin (2 * b)]; PMat 2 (fm (rmscale 2 (reye 2)))]
                    | _ => RRaise end)
    (fun k => Fin (INR k)) (fun _ => "id"%string) gx_la (fun _ => None) (fun _ => None).
Definition te_C (sd strat : string) : cfg ER :=
  mkCfg (mkOpts 1000 PInf (Fin 0) (Fin 0) (Fin 0) (Fin 0) (Fin 0) sd strat (Fin (/ 2)) (Fin 1) (Fin (/ 4)) (Fin (3 / 4)) (Fin (/ 4)) (Fin 2) None)
    [Fin (-10); Fin (-10)] [Fin 10; Fin 10] 3 false.
Example C06_exact_ex : forall sd strat ndim sid st st', o_happ st = None ->
  minimize te_E (te_C sd strat) 1001 ndim (fv [1; 3]) sid H0None st <> (Err EDiverge, st').
Proof.
  intros sd strat ndim sid st st' Hh.
  destruct C36_ex as (F1 & F2 & F3 & _). pose proof margin_1 as Hm.
  assert (B1 : in_box (c_lb (te_C sd strat)) (c_ub (te_C sd strat)) (fv [1; 3])).
  { split; [reflexivity|]. split; [reflexivity|]. intros [|[|i]] Hi; [| |cbn in Hi; lia]; split; cbn [te_C c_lb c_ub fv map nth nleb ERNum er_leb];
      match goal with |- Rleb ?a ?b = true => destruct (Rleb_spec a b); [reflexivity|lra] end. }
  assert (B2 : forall i, (i < length [1; 3])%nat -> er_leb (Fin (2 * margin)) (er_sub (nth i (c_ub (te_C sd strat)) NaN) (nth i (c_lb (te_C sd strat)) NaN)) = true).
  { intros [|[|i]] Hi; [| |cbn in Hi; lia]; cbn [te_C c_lb c_ub nth er_sub er_opp er_add er_leb];
      match goal with |- Rleb ?a ?b = true => destruct (Rleb_spec a b); [reflexivity|lra] end. }
  assert (B3 : symmetric_objective te_E (length [1; 3])).
  { intros k x f g nc m He Hs. cbn [te_E e_obj] in He.
    destruct x as [|[a| | |] [|[b| | |] [|? ?]]]; try discriminate He. injection He as <- <- <- <-.
    split; [exact Hs|]. intros [|[|i]] [|[|j]] Hi Hj; try reflexivity; cbn in Hi, Hj; lia. }
  apply (C06_no_divergence_exact te_E (te_C sd strat) 1001 ndim [1; 3] sid H0None st 1 (/ 4) 2 (/ 2)); try reflexivity; try exact B1; try exact B2; try exact B3; try exact F1; try exact F2; try exact F3.
  - cbn. lia.
  - lra.
  - discriminate.
  - intros h Hk. congruence.
  - apply Nat.ltb_lt. reflexivity.
  - cbn. lia.
  - cbn. lia.
Qed.
