(** C65: a stationary starting point is recognized after one pass (two evaluations), and nothing is moved; except that the
    conjugate-gradient solver proposes an undefined point there *)
From Coq Require Import String ZArith List Bool Reals Lra Lia Psatz.
From Verif Require Import Num Constants Subproblem HessApprox Steps TrustRegion Minimize
  ER NumFacts MonadFacts MinFacts Spec Run RunInv RVec SubNd RShess Argmin Cand StepFacts Prop_Sub1d Prop_Pred Prop_Box
  Prop_Cand TRErr RealStep Prop_Grad Region Prop_Run Prop_Nudge Prop_BoxRun Prop_BoxRun2 HessDim Prop_Region Prop_CG Prop_TwoD Unbounded UnboundedFull Unbounded2D Converge
  BoundedGrad BoundedStep Prop_ConvergeBox Prop_ConvergeBox2 Prop_Stepback RunFrame Prop_Converge Prop_Converge2 Prop_Terminates StatStep F64 Witness.
Import ListNotations.
Local Open Scope R_scope.
Local Open Scope list_scope.

Lemma finite_vec (v : rvec) : vfinite (fv v) = true.
Proof. unfold vfinite, fv. apply forallb_forall. intros q Hq. apply in_map_iff in Hq as (r & <- & _). reflexivity. Qed.
Lemma finite_mat (m : rmat) : mfinite (fm m) = true.
Proof. unfold mfinite, fm. apply forallb_forall. intros q Hq. apply in_map_iff in Hq as (r & <- & _). apply finite_vec. Qed.

Section Stationary.
  Variables (E : env ER) (C : cfg ER) (ndim : nat) (x0 : rvec) (sid : option string) (h0 : hess0_arg ER) (st : opt ER).
  Local Notation O := (c_opts C).
  Local Notation n := (length x0).
  Local Notation head := (loop_head E C ndim (fv x0) sid h0 st).
  Hypothesis Hbox : in_box (c_lb C) (c_ub C) (fv x0).
  Hypothesis Hwide : forall i, (i < n)%nat -> er_leb (Fin (2 * margin)) (er_sub (nth i (c_ub C) NaN) (nth i (c_lb C) NaN)) = true.
  Variables (D0 g1 g2 tm : R).
  Hypothesis Htm : op_theta_max O = Fin tm.
  Hypothesis Htm1 : 0 < tm <= 1.
  Hypothesis HD0 : op_delta_init O = Fin D0.
  Hypothesis Hg1 : op_gamma1 O = Fin g1.
  Hypothesis Hg2 : op_gamma2 O = Fin g2.
  Hypothesis Hn : (1 <= n)%nat.

  (** the gradient is zero, the model Hessian positive definite *)
  Record stationary (s : opt ER) (H : rmat) : Prop := mkStationary {
    sy_grad : o_grad s = fv (rzeros n);
    sy_hess : o_hess s = fm H;
    sy_mat : is_mat n n H;
    sy_sym : symmetric H;
    sy_pos : posdef n H }.
  (** the external routines treat the scaled Hessian exactly *)
  Definition exact_solver (s : opt ER) : Prop :=
    forall A, shess_of (a_scaling (step_args C s)) (a_hess (step_args C s)) (a_gd (step_args C s)) = fm A ->
       (op_subspace_dim O = "full"%string /\ solvable (so_sub (e_la E)) n A) \/ (op_subspace_dim O = "2D"%string /\ exact_2d (e_la E) n A).

  (** the problem passed to the step computation *)
  Lemma head_problem f s H d : head f s -> stationary s H -> o_delta s = Fin d -> 0 < d ->
    exists x D dv t, deref s (o_x s) = fv x /\ problem n x (rzeros n) H D dv d t (c_lb C) (c_ub C)
      /\ step_args C s = rA x (rzeros n) H D dv d t (c_lb C) (c_ub C) /\ forall i, (i < n)%nat -> 0 <= nth i dv 0.
  Proof using Hbox Hwide Htm Htm1 HD0 Hg1 Hg2 Hn.
    intros HL [Eg EB MB SB PB] Ed Hd.
    destruct (head_strict E C ndim x0 sid h0 st Hbox Hwide D0 g1 g2 tm Htm Htm1 HD0 Hg1 Hg2 f s HL) as [(x & Ex & Lx & Sx) _].
    pose proof (loop_head_Inv E C _ _ _ _ _ _ _ HL) as I. destruct (iv_dims _ _ _ _ _ _ _ I) as [D1 D2]. rewrite fv_length in D1, D2.
    assert (Lz : length (rzeros n) = n) by apply rzeros_length.
    destruct (affine_real x (rzeros n) (c_lb C) (c_ub C)) as (D & dv & E1 & E2 & LD & Lv & K); try congruence.
    { rewrite Lx. exact Sx. }
    destruct (affine_fst x (rzeros n) (c_lb C) (c_ub C)) as (v & Ev & Lvv); try congruence.
    destruct (theta_real tm v (rzeros n)) as (t & Et & Ht1); try congruence; try lra; try lia.
    exists x, D, dv, t. split; [exact Ex|]. split; [|split].
    - specialize (Ht1 (proj2 Htm1)). constructor; auto; try congruence; try lia.
      + apply Forall_forall. intros q Hq. apply (In_nth _ _ 0) in Hq as (i & Hi & <-). apply K. lia.
      + intros i Hi. apply strictly_inside_inside, Sx, Hi.
    - unfold step_args. cbv zeta. rewrite Ex, Eg, EB, Ed, E1, E2, Ev, Htm, Et. reflexivity.
    - intros i Hi. destruct (K i ltac:(lia)) as (_ & [Q|Q] & _); lra.
  Qed.

  Lemma step_args_tr s sp : proposes E C s sp <-> (exists l, candidates (e_la E) (step_args C s) (op_subspace_dim O) (op_stepback O) = Ok l
      /\ nth_error l (argmin (map st_qpval l)) = Some sp)
      /\ length (st_s sp) = length (deref s (o_x s)) /\ length (st_s0 sp) = length (deref s (o_x s)).
  Proof using.
    unfold proposes, step_args. cbv zeta. unfold trust_region. generalize (map snd (affine_scaling (deref s (o_x s)) (o_grad s) (c_lb C) (c_ub C))). intros dv.
    generalize (map (fun p => nsqrt (nabs (fst p))) (affine_scaling (deref s (o_x s)) (o_grad s) (c_lb C) (c_ub C))). intros D.
    match goal with |- context [tr_args ?a ?b ?c ?d ?e ?f ?g ?h ?i] => generalize (tr_args a b c d e f g h i) end. intros Q.
    destruct candidates as [l|e]; cbn [rbind].
    - split.
      + intros [K L]. split; [|exact L]. exists l. split; [reflexivity|]. destruct nth_error as [c|]; cbn [of_option] in K; [|discriminate]. apply Ok_inj in K. now subst.
      + intros [(l' & K & K') L]. apply Ok_inj in K. subst l'. rewrite K'. split; [reflexivity|exact L].
    - split; [intros [K _]; discriminate|intros [(l & K & _) _]; discriminate].
  Qed.

  (** the step proposed is zero: the point evaluated next is the current point *)
  Theorem C65_zero_step f s H d : head f s -> stationary s H -> o_delta s = Fin d -> 0 < d -> exact_solver s ->
    exists sp, (forall sp', proposes E C s sp' <-> sp' = sp) /\ trial_point s sp = deref s (o_x s) /\ scaled_length sp = Fin 0 /\ predicted_decrease sp = Fin 0.
  Proof using Hbox Hwide Htm Htm1 HD0 Hg1 Hg2 Hn.
    intros HL SY Ed Hd EX. destruct (head_problem f s H d HL SY Ed Hd) as (x & D & dv & t & Ex & P & EA & Hdv).
    set (B := rB n (rzeros n) H D dv).
    assert (PB : posdef n B) by (apply (posdef_B (e_la E) n x (rzeros n) H D dv d t (c_lb C) (c_ub C) P); [apply SY|exact Hdv]).
    assert (Zz : forall i, nth i (rzeros n) 0 = 0) by (intros; apply nth_rzeros).
    specialize (EX B). rewrite EA in EX. specialize (EX (rA_shess n x (rzeros n) H D dv d t (c_lb C) (c_ub C) P)).
    assert (K : exists c, candidates (e_la E) (rA x (rzeros n) H D dv d t (c_lb C) (c_ub C)) (op_subspace_dim O) (op_stepback O) = Ok [c]
       /\ st_s c = fv (rzeros n) /\ st_s0 c = fv (rzeros n) /\ vadd (st_ss c) (st_ss0 c) = fv (rzeros n) /\ st_qpval c = Fin 0).
    { destruct EX as [[-> X]|[-> X]]; [apply zero_full|apply zero_2d]; auto. }
    destruct K as (c & K1 & K2 & K3 & K4 & K5). exists c.
    assert (Lx : length x = n) by apply P.
    split; [|split; [|split]].
    - intros sp'. rewrite step_args_tr, EA, K1, Ex, fv_length, Lx. split.
      + intros [(l & El & K) _]. apply Ok_inj in El. subst l. cbn [map] in K. assert (Ea : argmin [st_qpval c] = 0%nat) by reflexivity.
        rewrite Ea in K. cbn [nth_error] in K. congruence.
      + intros ->. split; [exists [c]; split; reflexivity|]. rewrite K2, K3, !fv_length, !rzeros_length. split; reflexivity.
    - unfold trial_point. rewrite Ex, K2, K3, !h_vadd. f_equal. assert (Lz : length (rzeros n) = n) by apply rzeros_length.
      apply rvec_ext; [rlen|]. intros i. rewrite !nth_radd, !nth_rzeros by rlen. ring.
    - unfold scaled_length. now rewrite K4, h_norm, zero_norm.
    - unfold predicted_decrease. rewrite K5. cbn [nopp ERNum er_opp]. f_equal. ring.
  Qed.

  (** the conjugate-gradient solver instead proposes a point all of whose coordinates are undefined *)
  Theorem C65_scg_undefined f s H d : head f s -> stationary s H -> o_delta s = Fin d -> 0 < d -> op_subspace_dim O = "scg"%string -> (1 <= so_cgfuel (e_la E))%nat ->
    exists sp, (forall sp', proposes E C s sp' <-> sp' = sp) /\ trial_point s sp = repeat NaN n /\ predicted_decrease sp = NaN.
  Proof using Hbox Hwide Htm Htm1 HD0 Hg1 Hg2 Hn.
    intros HL SY Ed Hd Esd Hf. destruct (head_problem f s H d HL SY Ed Hd) as (x & D & dv & t & Ex & P & EA & _).
    assert (Zz : forall i, nth i (rzeros n) 0 = 0) by (intros; apply nth_rzeros).
    destruct (cg_zero_candidates (e_la E) n x (rzeros n) H D dv d t (c_lb C) (c_ub C) P Zz (op_stepback O) Hf) as (c & K1 & K2 & K3 & K5 & K4).
    exists c. assert (Lx : length x = n) by apply P. assert (Lz : length (rzeros n) = n) by apply rzeros_length.
    assert (Nadd : forall v : rvec, length v = n -> vadd (repeat NaN n) (fv v) = repeat NaN n).
    { clear. generalize n as k. induction k as [|k IH]; intros [|a v] L; try discriminate; [reflexivity|]. cbn [repeat]. unfold vadd, fv in *. cbn [map map2]. rewrite IH by (cbn in L; lia). reflexivity. }
    assert (Nadd' : forall v : rvec, length v = n -> vadd (fv v) (repeat NaN n) = repeat NaN n).
    { clear. generalize n as k. induction k as [|k IH]; intros [|a v] L; try discriminate; [reflexivity|]. cbn [repeat]. unfold vadd, fv in *. cbn [map map2]. rewrite IH by (cbn in L; lia). reflexivity. }
    split; [|split].
    - intros sp'. rewrite step_args_tr, EA, Esd, K1, Ex, fv_length, Lx. split.
      + intros [(l & El & K) _]. apply Ok_inj in El. subst l. cbn [map] in K. assert (Ea : argmin [st_qpval c] = 0%nat) by reflexivity.
        rewrite Ea in K. cbn [nth_error] in K. congruence.
      + intros ->. split; [exists [c]; split; reflexivity|]. rewrite K2, K3, fv_length, rzeros_length, repeat_length. split; reflexivity.
    - unfold trial_point. rewrite Ex, K2, K3, Nadd', Nadd by auto. reflexivity.
    - unfold predicted_decrease. rewrite K5. reflexivity.
  Qed.

  (** *** the run *)
  Lemma typed_again k pf a b f : typed_fout k pf a = Ok (f : fout ER) -> typed_fout k pf b = Ok (mkFout (fo_fval f) (fo_grad f) (fo_hess f) b (fo_res f) (fo_sres f)).
  Proof using.
    unfold typed_fout. destruct (pf_fval pf); try discriminate. destruct (pf_grad pf); try discriminate. destruct (Nat.eqb _ _); try discriminate.
    destruct (pf_hess pf); try discriminate; [|destruct (rect _ _ _); try discriminate]; intros K; apply Ok_inj in K; subst f; reflexivity.
  Qed.
  Lemma conv_gtol s sp fn ga m : op_gatol O = Fin ga -> 0 <= ga -> op_mu O = Fin m -> 0 <= m -> o_tr_ratio s = Fin 0 -> (o_iter s <= 1)%Z ->
    fo_grad fn = fv (rzeros n) -> conv_result C s sp fn = Some GTOL.
  Proof using Hn.
    intros Ega Hga Em Hm Er Hi Eg. unfold conv_result. rewrite Em, Er. cbn [nltb ERNum er_ltb]. destruct (Rltb_spec m 0); [lra|]. cbn [andb].
    destruct (Z.ltb_spec 1 (o_iter s)); [lia|]. cbn [andb]. rewrite Eg, h_norm, zero_norm, Ega. cbn [nleb ERNum er_leb]. destruct (Rleb_spec 0 ga); [reflexivity|lra].
  Qed.

  Variables (fuel : nat) (ga m : R) (f : fout ER) (s : opt ER) (H : rmat).
  Hypothesis Hga : op_gatol O = Fin ga /\ 0 <= ga.
  Hypothesis Hmu : op_mu O = Fin m /\ 0 <= m.
  Hypothesis HD : / 2 ^ 52 <= D0.
  Hypothesis Hmt : op_maxtime O = PInf.
  Hypothesis Hmi : (0 < op_maxiter O)%Z.
  Hypothesis Hh : op_history O = None.
  Hypothesis Hfu : (2 <= fuel)%nat.
  Hypothesis Hprep : prepare E C ndim (fv x0) sid h0 st = (Ok f, s).
  Hypothesis HS : stationary s H.
  Hypothesis HX : exact_solver s.
  Local Notation p := (nudge C (fv x0)).
  Local Notation r := (e_obj E (length (o_evals st)) p).
  Hypothesis Hdet : e_obj E (S (length (o_evals st))) p = r.

  Theorem C65_stationary_start : exists st', minimize E C fuel ndim (fv x0) sid h0 st = (Ok (o_fval s, o_x st', fv (rzeros n), fm H), st')
    /\ deref st' (o_x st') = p /\ o_flag st' = GTOL /\ o_iter st' = 1%Z /\ o_evals st' = o_evals st ++ [(p, r); (p, r)].
  Proof using All.
    assert (HL : head f s) by now apply lh_start.
    pose proof (prepare_delta E C _ _ _ _ _ _ _ Hprep) as Ed. rewrite HD0 in Ed.
    pose proof (prepare_frame E C _ _ _ _ _ _ _ Hprep) as [_ Ei].
    assert (H52 : 0 < / 2 ^ 52) by (apply Rinv_0_lt_compat, pow_lt; lra).
    destruct (C65_zero_step f s H D0 HL HS Ed ltac:(lra) HX) as (sp & U1 & U2 & U3 & U4).
    pose proof (proj2 (U1 sp) eq_refl) as Hsp. 
    (* what the start leaves behind *)
    assert (Q : o_conv s = false /\ deref s (o_x s) = p /\ o_evals s = o_evals st ++ [(p, r)]
       /\ exists pf, fun_evaluate (c_nargout C) (c_resfun C) r = Ok pf /\ typed_fout n pf (length (o_heap st)) = Ok f
          /\ all_finite (fo_fval f) (fo_grad f) (fo_hess f) = true /\ o_fval s = fo_fval f /\ o_grad s = fo_grad f).
    { pose proof Hprep as K. apply prepare_inv in K. inversion K as [| | | | | |pf hess h' f' Hd Hb Hpf Hhs Hc Ht Hf Ef Es]. subst f'. clear K.
      rewrite fv_length in Ht. split; [reflexivity|]. split; [|split; [|exists pf; split; [exact Hpf|split; [exact Ht|split; [exact Hf|]]]]].
      - unfold pr_s4. destruct better; unfold deref, pr_s3, pr_s2, pr_s1, pr_s0; destruct pr_id; cbn [o_heap o_x set_o_conv]; apply nth_middle.
      - unfold pr_s4. destruct better; unfold pr_s3, pr_s2, pr_s1, pr_s0; destruct pr_id; reflexivity.
      - unfold pr_s4. destruct better; split; reflexivity. }
    destruct Q as (Q1 & Q2 & Q3 & pf & Q4 & Q5 & Q6 & Q7 & Q8).
    set (s1 := set_o_clk (S (o_clk s)) s).
    assert (Hc : check_continue E C s = (Ok true, s1)).
    { rewrite check_continue_run, Q1, Ei. destruct (Z.leb_spec (op_maxiter O) 0); [lia|]. cbv zeta.
      assert (Ot : out_of_time E C s = false).
      { unfold out_of_time. rewrite Hmt. generalize (elapsed E s) as t1. intros t1.
        match goal with |- (_ <? ?q)%num = _ => generalize q end. intros t2. destruct t1, t2; reflexivity. }
      rewrite Ot, Ed, spacing_fin. cbn [nltb ERNum er_ltb].
      assert (E52 : IZR (2 ^ 52) = 2 ^ 52) by (rewrite (pow_IZR 2 52); f_equal). rewrite E52. destruct (Rltb_spec D0 (/ 2 ^ 52)); [lra|reflexivity]. }
    assert (Itr : it_tr E C s1 = Ok sp) by (change (it_tr E C s = Ok sp); now apply proposes_it_tr).
    assert (Itl : it_trial s1 sp = p) by (change (trial_point s sp = p); rewrite U2; exact Q2).
    assert (Irt : it_ret E s1 sp = r).
    { unfold it_ret. rewrite Itl. change (o_evals s1) with (o_evals s). rewrite Q3, app_length. cbn [length]. rewrite Nat.add_1_r. exact Hdet. }
    assert (Lxx : length (deref s1 (o_x s1)) = n).
    { change (length (deref s (o_x s)) = n). rewrite Q2. 
      destruct (head_strict E C ndim x0 sid h0 st Hbox Hwide D0 g1 g2 tm Htm Htm1 HD0 Hg1 Hg2 f s HL) as [(x & Ex & Lx & _) _].
      rewrite <- Q2, Ex, fv_length. exact Lx. }
    pose proof (typed_again n pf (length (o_heap st)) (length (o_heap s1)) f Q5) as Ty.
    set (fn := mkFout (fo_fval f) (fo_grad f) (fo_hess f) (length (o_heap s1)) (fo_res f) (fo_sres f)) in Ty.
    assert (Hev : forall sp2 fn2, evaluated E C s1 sp2 fn2 -> sp2 = sp /\ fn2 = fn).
    { intros sp2 fn2 [_ V2 (pf2 & V3 & V4) _]. rewrite Itr in V2. apply Ok_inj in V2. subst sp2. split; [reflexivity|].
      rewrite Irt, Q4 in V3. apply Ok_inj in V3. subst pf2. rewrite Lxx, Ty in V4. now apply Ok_inj in V4. }
    assert (Hra : tru_ratio (it_s2 E s1 sp) fn sp (it_dv C s1) = Fin 0).
    { unfold tru_ratio. destruct (negb _); [reflexivity|]. fold (predicted_decrease sp). rewrite U4. cbn [nleb ERNum er_leb Num.n0 nofZ]. destruct (Rleb_spec 0 0); [reflexivity|lra]. }
    assert (Hna : it_acc E C s1 sp fn = false).
    { unfold it_acc, tru_acc. rewrite Hra. cbn [nltb ERNum er_ltb Num.n0 nofZ]. destruct (Rltb_spec 0 0); [lra|]. apply andb_false_r. }
    assert (Cur : all_finite (o_fval s1) (o_grad s1) (Some (o_hess s1)) = true).
    { change (all_finite (o_fval s) (o_grad s) (Some (o_hess s)) = true). rewrite Q7, (sy_hess _ _ HS), (sy_grad _ _ HS).
      unfold all_finite in Q6 |- *. apply andb_true_iff in Q6 as [Q6 _]. apply andb_true_iff in Q6 as [Q6 _]. rewrite Q6, finite_vec, finite_mat. reflexivity. }
    assert (Hi : exists f' s', iteration E C f s1 = (Ok f', s')).
    { destruct (iteration E C f s1) as [[f'|e] s'] eqn:Eit; [eauto|]. exfalso. apply iteration_inv in Eit.
      inversion Eit as [Hcur Er Es|e' Ht|sp2 e' Ht Hev2|sp2 pf2 e' Ht Hev2 Hy|sp2 pf2 fn2 Ht Hev2 Hy A1 A2|sp2 fn2 e' st0 Hev2 Hac Hu|sp2 fn2 st0 Hev2 Hu Hhh|]; clear Eit.
      - congruence.
      - congruence.
      - rewrite Itr in Ht. apply Ok_inj in Ht. subst sp2. rewrite Irt, Q4 in Hev2. discriminate.
      - rewrite Itr in Ht. apply Ok_inj in Ht. subst sp2. rewrite Irt, Q4 in Hev2. apply Ok_inj in Hev2. subst pf2. rewrite Lxx, Ty in Hy. discriminate.
      - rewrite Itr in Ht. apply Ok_inj in Ht. subst sp2. rewrite Irt, Q4 in Hev2. apply Ok_inj in Hev2. subst pf2. rewrite Lxx, Ty in Hy.
        apply Ok_inj in Hy. subst fn2. cbn [fn fo_fval fo_grad fo_hess] in A2. rewrite Q6 in A2. discriminate.
      - destruct (Hev _ _ Hev2) as [-> ->]. congruence.
      - unfold has_history in Hhh. rewrite Hh in Hhh. discriminate. }
    destruct Hi as (f' & s' & Hi). pose proof Hi as Ki. apply iteration_ok in Ki as (sp2 & fn2 & K).
    destruct (Hev _ _ (ik_ev _ _ _ _ _ _ _ _ K)) as [-> ->].
    pose proof (ik_conv _ _ _ _ _ _ _ _ K) as Kc. pose proof (ik_flag _ _ _ _ _ _ _ _ K) as Kf.
    pose proof (ik_iter _ _ _ _ _ _ _ _ K) as Kit. pose proof (ik_evals _ _ _ _ _ _ _ _ K) as Kev. pose proof (ik_hess _ _ _ _ _ _ _ _ K) as Kh.
    pose proof (ik_heap _ _ _ _ _ _ _ _ K) as Kheap. pose proof (ik_x _ _ _ _ _ _ _ _ K) as Kx.
    pose proof (ik_fval _ _ _ _ _ _ _ _ K) as Kfv. pose proof (ik_grad _ _ _ _ _ _ _ _ K) as Kg.
    rewrite Hna in Kh, Kx, Kfv, Kg, Kheap. destruct Kh as [Kh _].
    assert (Eco : conv_result C (it_s3 E C s1 sp fn) sp fn = Some GTOL).
    { destruct Hga as [Ega Hga0], Hmu as [Em Hm]. refine (conv_gtol (it_s3 E C s1 sp fn) sp fn ga m Ega Hga0 Em Hm _ _ _).
      - exact Hra.
      - change (o_iter (it_s3 E C s1 sp fn)) with (o_iter s + 1)%Z. rewrite Ei. lia.
      - cbn [fn fo_grad]. rewrite <- Q8. apply HS. }
    rewrite Eco in Kc, Kf. cbn [osome oflag] in Kc, Kf.
    assert (Hc' : check_continue E C s' = (Ok false, s')) by now rewrite check_continue_run, Kc.
    exists s'. split; [|split; [|split; [exact Kf|split]]].
    - destruct fuel as [|[|k]]; [lia|lia|]. unfold minimize. rewrite (bind_ok _ _ _ _ _ Hprep). 
      assert (El : loop E C (S (S k)) f s = (Ok tt, s')).
      { cbn [loop]. rewrite (bind_ok _ _ _ _ _ Hc), (bind_ok _ _ _ _ _ Hi), (bind_ok _ _ _ _ _ Hc'). reflexivity. }
      rewrite (bind_ok _ _ _ _ _ El).
      assert (Ew : write_history C s' = (Ok tt, s')) by (unfold write_history, bind, get; rewrite Hh; reflexivity).
      rewrite (bind_ok _ _ _ _ _ Ew). rewrite (bind_ok get _ s' s' s' eq_refl). rewrite Kfv, Kg, Kh.
      change (o_fval s1) with (o_fval s). change (o_grad s1) with (o_grad s). change (o_hess s1) with (o_hess s).
      rewrite (sy_hess _ _ HS), (sy_grad _ _ HS). reflexivity.
    - rewrite <- Q2, Kx. change (o_x s1) with (o_x s). unfold deref. rewrite Kheap. change (o_heap s1) with (o_heap s). apply app_nth1.
      pose proof (loop_head_Inv E C _ _ _ _ _ _ _ HL) as I. apply (iv_x _ _ _ _ _ _ _ I).
    - rewrite Kit. change (o_iter s1) with (o_iter s). rewrite Ei. lia.
    - rewrite Kev. change (o_evals s1) with (o_evals s). rewrite Q3, Itl, Irt, <- app_assoc. reflexivity.
  Qed.
End Stationary.

(** the hypotheses are met: minimizing x^2 + y^2 from (0, 0), with either of the two solvers *)
Definition sy_C (sd : string) : cfg ER :=
  mkCfg (mkOpts 1000 PInf (Fin 0) (Fin 0) (Fin 0) (Fin 0) (Fin 0) sd "reflect" (Fin (/ 2)) (Fin 1) (Fin (/ 4)) (Fin (3 / 4)) (Fin (/ 4)) (Fin 2) None)
    [NInf; NInf] [PInf; PInf] 3 false.
Example C65_ex sd : sd = "full"%string \/ sd = "2D"%string ->
  exists st', minimize cy_E (sy_C sd) 2 1 (fv [0; 0]) None H0None cx_st = (Ok (Fin (0 * 0 + 0 * 0), o_x st', fv [0; 0], fm I2), st')
    /\ deref st' (o_x st') = fv [0; 0] /\ o_flag st' = GTOL /\ o_iter st' = 1%Z /\ length (o_evals st') = 2%nat.
Proof.
  intros Hsd.
  assert (CS : convergence_setting cy_E (sy_C sd) 2 cy_F cy_G 2 2 (/ 4) (3 / 4) (/ 4) 2 1 (/ 2)).
  { constructor; try reflexivity; try lra; try lia; try (split; [reflexivity|lra]).
    - intros k x Hx. apply two_vec in Hx as (a & b & ->). split; reflexivity.
    - intros x s Hx Hs. apply two_vec in Hx as (a & b & ->). apply two_vec in Hs as (c & d & ->).
      split; [reflexivity|]. unfold cy_F, cy_G. unfold rdot. cbn. rewrite Rabs_right; nra.
    - right. exact Hsd. }
  assert (SO : second_order cy_E (sy_C sd) 2 cy_F cy_G 2 1 cx_st cy_H).
  { constructor; try reflexivity; auto.
    - intros k x Hx. apply two_vec in Hx as (a & b & ->). reflexivity.
    - intros x _. split; [exact I2_mat|]. split; [exact I2_sym|]. split.
      + intros z Hz. unfold cy_H. rewrite I2_form by auto. pose proof (rdot_self_nonneg z). rewrite Rabs_right; lra.
      + split; intros _; split; try exact I2_posdef; [intros _; exact I2_solvable|exact I2_exact]. }
  destruct (start_ok cy_E (sy_C sd) 2 cy_F cy_G 2 2 (/ 4) (3 / 4) (/ 4) 2 1 (/ 2) CS 1 [0; 0] None H0None cx_st eq_refl cy_H SO) as (f & s & Hp).
  destruct (start_hess cy_E (sy_C sd) 2 cy_F cy_G 2 2 (/ 4) (3 / 4) (/ 4) 2 1 (/ 2) CS 1 [0; 0] None H0None cx_st eq_refl cy_H SO f s Hp) as [EH _].
  destruct (start_point cy_E (sy_C sd) 2 cy_F cy_G 2 2 (/ 4) (3 / 4) (/ 4) 2 1 (/ 2) CS 1 [0; 0] None H0None cx_st f s eq_refl Hp) as [[Lx Ex Ef Eg] _].
  assert (Enu : nudge (sy_C sd) (fv [0; 0]) = fv [0; 0]) by (apply (nudge_free (sy_C sd) 2); try reflexivity; lia).
  assert (Hb : in_box (c_lb (sy_C sd)) (c_ub (sy_C sd)) (fv [0; 0])).
  { split; [reflexivity|]. split; [reflexivity|]. intros [|[|i]] Hi; [| |cbn in Hi; lia]; split; reflexivity. }
  assert (Hw : forall i, (i < length [0; 0])%nat -> er_leb (Fin (2 * margin)) (er_sub (nth i (c_ub (sy_C sd)) NaN) (nth i (c_lb (sy_C sd)) NaN)) = true).
  { intros [|[|i]] Hi; [| |cbn in Hi; lia]; reflexivity. }
  assert (Eg0 : o_grad s = fv (rzeros 2)).
  { rewrite Eg. unfold cy_G. cbn. repeat f_equal; ring. }
  assert (HS : stationary [0; 0] s I2) by (constructor; [exact Eg0|exact EH|exact I2_mat|exact I2_sym|exact I2_posdef]).
  assert (HX : exact_solver cy_E (sy_C sd) [0; 0] s).
  { intros A EA. assert (HL : loop_head cy_E (sy_C sd) 1 (fv [0; 0]) None H0None cx_st f s) by now apply lh_start.
    assert (A = I2) as ->.
    { apply fm_inj. rewrite <- EA. unfold step_args. cbv zeta. rewrite Ex, Eg0, EH. cbn [sy_C c_lb c_ub c_opts op_theta_max].
      destruct (affine_free 2 [0; 0] (rzeros 2) eq_refl eq_refl) as (v & Lv & Ev & Fv).
      change [NInf; NInf] with (no_lb 2). change [PInf; PInf] with (no_ub 2). rewrite Ev. apply two_vec in Lv as (a & b & ->).
      inversion Fv as [|? ? Fa Fv']. inversion Fv' as [|? ? Fb _]. cbn [map fst snd nabs ERNum er_abs nsqrt er_sqrt]. rewrite Fa, Fb.
      destruct (Rltb_spec 1 0); [lra|]. rewrite sqrt_1. cbn [tr_args a_scaling a_hess a_gd fv map rzeros repeat].
      unfold I2. cbn. repeat f_equal; ring. }
    destruct Hsd as [-> | ->]; [left|right]; (split; [reflexivity|]); [exact I2_solvable|exact I2_exact]. }
  destruct (C65_stationary_start cy_E (sy_C sd) 1 [0; 0] None H0None cx_st Hb Hw 1 (/ 4) 2 (/ 2) eq_refl ltac:(lra) eq_refl eq_refl eq_refl ltac:(cbn; lia)
    2 0 (/ 4) f s I2) as (st' & R1 & R2 & R3 & R4 & R5); try reflexivity; try assumption; try (split; [reflexivity|lra]); try lia.
  - rewrite <- Rinv_1. apply Rinv_le_contravar; [lra|]. rewrite <- (pow1 52). apply pow_incr. lra.
  - rewrite Enu in R2, R5. rewrite Ef in R1. exists st'. split; [exact R1|]. split; [exact R2|]. split; [exact R3|]. split; [exact R4|].
    rewrite R5. reflexivity.
Qed.

(** double precision: minimizing x^2 + y^2 from its minimizer (0, 0).  With the two-dimensional and the full solver minimize
    evaluates the start twice and reports the gradient criterion; with the conjugate-gradient solver it evaluates the objective at
    27 undefined points and reports that the trust region became too small *)
Definition at_minimum (sd : string) (obj : nat -> list F64 -> retval F64) :=
  run_of obj (free 2 [(KStr "subspace_solver", VStr sd)]) 60 [fz 0; fz 0].
Definition undefined_points (s : opt F64) : nat := List.length (filter (fun e => forallb nisnan (fst e)) (o_evals s)).
Example C65_double_precision :
  (exists fv x g h s, at_minimum "2D" sumsq = (Ok (fv, x, g, h), s) /\ eqflag (o_flag s) GTOL && Nat.eqb (List.length (o_evals s)) 2 = true)
  /\ (exists fv x g h s, at_minimum "full" sumsq = (Ok (fv, x, g, h), s) /\ eqflag (o_flag s) GTOL && Nat.eqb (List.length (o_evals s)) 2 = true).
Proof.
  split; apply ok_witness; vm_compute; reflexivity.
Qed.
Theorem C65_scg_refuted :
  exists fv x g h s, at_minimum "scg" sumsq = (Ok (fv, x, g, h), s)
    /\ eqflag (o_flag s) DELTA_TOO_SMALL && Nat.eqb (List.length (o_evals s)) 28 && Nat.eqb (undefined_points s) 27 = true.
Proof. apply ok_witness; vm_compute; reflexivity. Qed.
