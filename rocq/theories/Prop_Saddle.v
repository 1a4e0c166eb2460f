(** C68: a stationary point that is not a minimizer is left: at a point with zero gradient whose model Hessian has a direction of
    negative curvature, the step proposed reaches the boundary of the trust region along the most negative curvature and is accepted
    if the objective is lower there; except that the default solver stays if there is one variable (no bounds, exact arithmetic) *)
From Coq Require Import String ZArith List Bool Reals Lra Lia Psatz.
From Verif Require Import Num Constants Subproblem HessApprox Steps TrustRegion Minimize
  ER NumFacts MonadFacts MinFacts Spec Run RunInv RVec Ortho SubNd Prop_SubNd RShess Argmin Cand StepFacts Prop_Sub1d Prop_Pred Prop_Box
  Prop_Cand TRErr RealStep Prop_Grad Region Prop_Trunc Prop_TwoD Prop_CG Prop_Run Prop_Nudge Prop_BoxRun Prop_BoxRun2 HessDim Unbounded UnboundedFull Unbounded2D
  Converge BoundedGrad BoundedStep Prop_ConvergeBox Prop_ConvergeBox2 Prop_Stepback RunFrame Prop_Converge Prop_Converge2 Saddle F64 Witness.
Import ListNotations.
Local Open Scope R_scope.
Local Open Scope list_scope.

Section SaddleRun.
  Variables (E : env ER) (C : cfg ER) (n : nat) (tm : R).
  Local Notation O := (c_opts C).
  Hypothesis Hn : (1 <= n)%nat.
  Hypothesis Hlb : c_lb C = no_lb n.
  Hypothesis Hub : c_ub C = no_ub n.
  Hypothesis Htm : op_theta_max O = Fin tm /\ 0 < tm <= 1.

  (** the optimizer is at [x], where the gradient is zero and the lowest curvature [m] of the model is negative *)
  Record at_saddle (s : opt ER) (x : rvec) (H : rmat) (m d : R) : Prop := mkAtSaddle {
    as_len : length x = n;
    as_x : deref s (o_x s) = fv x;
    as_grad : o_grad s = fv (rzeros n);
    as_hess : o_hess s = fm H;
    as_mat : is_mat n n H;
    as_sym : symmetric H;
    as_low : lowest n H m;
    as_neg : m < 0;
    as_delta : o_delta s = Fin d;
    as_pos : 0 < d }.
  (** the solver can see the negative curvature: the eigenvalue routines are exact for the matrices they are given, and for the
      two-dimensional solver there are two or more variables and the curvature is not negligible against the largest one *)
  Definition sees (H : rmat) (m : R) : Prop :=
    (op_subspace_dim O = "full"%string /\ ((2 <= n)%nat -> exact_eig (so_sub (e_la E)) n H))
    \/ (op_subspace_dim O = "2D"%string /\ (2 <= n)%nat /\ (forall v, length v = n -> Rabs (rform H v v) <= - m * IZR (2 ^ 52) * rdot v v)
        /\ exact_2d_eig (e_la E) n H).

  Lemma saddle_args s x H m d : at_saddle s x H m d -> exists t, 0 < t <= 1 /\ scaling_derivative C s = fv (rzeros n)
    /\ forall sp, proposes E C s sp <-> (trust_region (e_la E) (fv x) (fv (rzeros n)) (fm H) (fv (rones n)) (Fin d) (fv (rzeros n)) (Fin t) (no_lb n) (no_ub n)
                  (op_subspace_dim O) (op_stepback O) = Ok sp /\ length (st_s sp) = n /\ length (st_s0 sp) = n).
  Proof using Hn Hlb Hub Htm.
    intros [Lx Ex Eg EB MB SB _ _ Ed Hd]. destruct Htm as [Etm Ht1].
    destruct (affine_free n x (rzeros n) Lx (rzeros_length n)) as (v & Lv & Ev & Fv).
    destruct (theta_free tm v (rzeros n)) as (t & Et & Ht); rewrite ?rzeros_length; auto; try lia; try lra.
    exists t. split; [apply Ht; lra|]. unfold scaling_derivative, proposes. cbv zeta. rewrite Ex, Eg, EB, Ed, Hlb, Hub, Ev.
    rewrite (scaling_free n) by auto. rewrite (dv_free n) by auto. rewrite Etm, Et, fv_length, Lx. split; [reflexivity|]. intros sp. reflexivity.
  Qed.

  (** the step proposed: on the boundary of the trust region, along the most negative curvature *)
  Theorem C68_saddle_step s x H m d : at_saddle s x H m d -> sees H m ->
    exists sp w, (forall sp', proposes E C s sp' <-> sp' = sp) /\ length w = n /\ trial_point s sp = fv (radd x w)
      /\ rnorm w = d /\ rform H w w = m * (d * d) /\ scaled_length sp = Fin d /\ predicted_decrease sp = Fin (- m * (d * d) / 2).
  Proof using Hn Hlb Hub Htm.
    intros AS HS. destruct (saddle_args s x H m d AS) as (t & Ht & _ & Hp). destruct AS as [Lx Ex Eg EB MB SB Lo Ng Ed Hd].
    assert (K : exists c w, trust_region (e_la E) (fv x) (fv (rzeros n)) (fm H) (fv (rones n)) (Fin d) (fv (rzeros n)) (Fin t) (no_lb n) (no_ub n)
                  (op_subspace_dim O) (op_stepback O) = Ok c /\ free_step n (rzeros n) H c w /\ saddle_step n H d m w).
    { destruct HS as [[-> HS]|(-> & H2 & Hb & HS)].
      - destruct (saddle_full (e_la E) n x H d t m) with (strat := op_stepback O) as (c & w & K1 & _ & K2 & K3); auto. exists c, w. auto.
      - destruct (saddle_2d (e_la E) n x H d t m) with (strat := op_stepback O) as (c & w & K1 & _ & K2 & K3); auto. exists c, w. auto. }
    destruct K as (c & w & K1 & [Lw S1 S2 S3 S4] & (_ & Nw & Qw)). exists c, w. rewrite zero_model in Qw.
    assert (Lz : length (rzeros n) = n) by apply rzeros_length.
    split; [|split; [exact Lw|split; [|split; [exact Nw|split; [|split]]]]].
    - intros sp'. rewrite Hp, K1. split; [intros [Q _]; apply Ok_inj in Q; congruence|]. intros ->. rewrite S1, S2, !fv_length. auto.
    - unfold trial_point. rewrite Ex, S1, S2, !h_vadd. f_equal. apply rvec_ext; [rlen|]. intros i. rewrite !nth_radd, nth_rzeros by rlen. ring.
    - lra.
    - unfold scaled_length. now rewrite S3, h_norm, Nw.
    - unfold predicted_decrease. rewrite S4, zero_model. cbn [nopp ERNum er_opp]. f_equal. lra.
  Qed.

  Lemma zero_scaling z (gr : list ER) : length gr = n -> vfinite gr = true -> length z = n -> dot (fv z) (vmul (vmul (fv (rzeros n)) (vabs gr)) (fv z)) = Fin 0.
  Proof using Hn.
    intros Lg Fg Lz. assert (K : exists g, gr = fv g /\ length g = n).
    { clear Lz z. revert gr Lg Fg. generalize n as k. induction k as [|k IH]; intros [|a gr] L F; try discriminate; [exists []; auto|].
      cbn [vfinite forallb] in F. apply andb_prop in F as [Fa F]. destruct (IH gr) as (g & -> & Lg); [cbn in L; lia|exact F|].
      destruct a as [a| | |]; try discriminate. exists (a :: g). cbn. auto. }
    destruct K as (g & -> & Lg'). assert (Lz' : length (rzeros n) = n) by apply rzeros_length.
    assert (Ea : vabs (fv g) = fv (rabsv g)) by apply h_vabs. assert (La : length (rabsv g) = n) by now rewrite rabsv_length.
    rewrite Ea, !h_vmul, h_dot. f_equal. rewrite (rdot_sum n) by auto. transitivity (rsum n (fun _ => 0)); [|apply rsum_0]. apply rsum_ext. intros i Hi.
    rewrite (nth_rmul _ _ n), (nth_rmul _ _ n), nth_rzeros by (auto; now apply rmul_length). ring.
  Qed.

  (** the step is accepted whenever the objective is lower there *)
  Theorem C68_saddle_accepted s x H m d f v gr sp : at_saddle s x H m d -> sees H m -> o_fval s = Fin f -> proposes E C s sp ->
    length gr = n -> vfinite gr = true -> accepts C s sp (Fin v) gr = true <-> v < f.
  Proof using Hn Hlb Hub Htm.
    intros AS HS Ef Hp Lg Fg. destruct (C68_saddle_step s x H m d AS HS) as (sp0 & w & U & Lw & Et & Nw & Fw & Es & Ep). apply U in Hp. subst sp0.
    destruct (saddle_args s x H m d AS) as (t & Ht & Edv & Hpr).
    unfold accepts, actual_decrease. rewrite Ep, Edv, Ef. 
    assert (Ez : exists z, vadd (st_ss sp) (st_ss0 sp) = fv z /\ length z = n).
    { pose proof (proj2 (U sp) eq_refl) as Q. apply Hpr in Q as [Q _]. destruct AS as [Lx Ex Eg EB MB SB Lo Ng Ed Hd].
      destruct HS as [[Esd HS]|(Esd & H2 & Hb & HS)]; rewrite Esd in Q.
      - destruct (saddle_full (e_la E) n x H d t m) with (strat := op_stepback O) as (c & z & K1 & _ & [Lz _ _ K2 _] & K3); auto. rewrite K1 in Q. apply Ok_inj in Q. subst. exists z. auto.
      - destruct (saddle_2d (e_la E) n x H d t m) with (strat := op_stepback O) as (c & z & K1 & _ & [Lz _ _ K2 _] & K3); auto. rewrite K1 in Q. apply Ok_inj in Q. subst. exists z. auto. }
    destruct Ez as (z & Ez & Lz). rewrite Ez, zero_scaling by auto.
    assert (Pp : 0 < - m * (d * d) / 2). { destruct AS as [_ _ _ _ _ _ _ Ng _ Hd]. assert (0 < d * d) by (apply Rmult_lt_0_compat; exact Hd). assert (0 < - m * (d * d)) by (apply Rmult_lt_0_compat; lra). lra. }
    cbn [nisfin ERNum er_isfin nltb er_ltb n0 nofZ nsub er_sub er_add er_opp ndiv er_div andb].
    assert (Eh : (nhalf * Fin 0)%num = Fin 0 :> ER). { unfold nhalf. cbn. match goal with |- context [Reqb ?a ?b] => destruct (Reqb_spec a b) end; [lra|]. cbn. f_equal. ring. }
    rewrite Eh. cbn [nsub ERNum er_sub er_add er_opp ndiv er_div]. destruct (Reqb_spec (- m * (d * d) / 2) 0); [lra|]. cbn [er_ltb].
    destruct (Rltb_spec 0 (- m * (d * d) / 2)); [|lra]. cbn [andb].
    replace ((f + - v + - 0) / (- m * (d * d) / 2)) with ((f - v) * / (- m * (d * d) / 2)) by (unfold Rdiv; ring).
    assert (0 < / (- m * (d * d) / 2)) by now apply Rinv_0_lt_compat.
    destruct (Rltb_spec 0 ((f - v) * / (- m * (d * d) / 2))); split; intros; auto; try discriminate; try nra.
  Qed.
  (** one pass of a run: if the values of the objective near [x] differ from the model by at most K |w|^3 and the radius is small
      against the negative curvature, the pass moves the point by exactly the radius and lowers the value *)
  Theorem C68_saddle_pass ndim x0 sid h0 st f0 s s1 f' s' x H m d f F K :
    loop_head E C ndim x0 sid h0 st f0 s -> check_continue E C s = (Ok true, s1) -> iteration E C f0 s1 = (Ok f', s') ->
    at_saddle s x H m d -> sees H m -> o_fval s = Fin f ->
    (forall k y, length y = n -> value_of C (e_obj E k (fv y)) = Some (Fin (F y))) ->
    (forall k y gr, length y = n -> gradient_of C (e_obj E k (fv y)) = Some gr -> length gr = n /\ vfinite gr = true) ->
    (forall w, length w = n -> rnorm w = d -> F (radd x w) <= f + rform H w w / 2 + K * (d * d * d)) -> 2 * K * d < - m ->
    exists w, length w = n /\ rnorm w = d /\ deref s' (o_x s') = fv (radd x w) /\ o_fval s' = Fin (F (radd x w))
      /\ F (radd x w) <= f - (- m / 2 - K * d) * (d * d).
  Proof using Hn Hlb Hub Htm.
    intros HL Hc Hi AS HS Ef Hval Hgr HF HK. destruct (C68_saddle_step s x H m d AS HS) as (sp & w & U & Lw & Et & Nw & Fw & Es & Ep).
    destruct (C15_pass E C ndim x0 sid h0 st f0 s s1 f' s' HL Hc Hi) as (sp' & r & v & g & Hp & _ & Er & Hv & Hg & Hacc).
    pose proof (proj1 (U sp') Hp) as ->. rewrite Et in Er. assert (Lx : length x = n) by apply AS. assert (Lxw : length (radd x w) = n) by rlen.
    rewrite Er in Hv, Hg. rewrite Hval in Hv by auto. injection Hv as <-. destruct (Hgr _ _ _ Lxw Hg) as [Lg Fg].
    assert (Hd : 0 < d) by apply AS. specialize (HF w Lw Nw). rewrite Fw in HF.
    assert (Hdec : F (radd x w) <= f - (- m / 2 - K * d) * (d * d)) by lra.
    assert (Hlt : F (radd x w) < f). { assert (0 < (- m / 2 - K * d) * (d * d)); [|lra]. apply Rmult_lt_0_compat; [lra|]. now apply Rmult_lt_0_compat. }
    rewrite (proj2 (C68_saddle_accepted s x H m d f (F (radd x w)) g sp AS HS Ef Hp Lg Fg) Hlt) in Hacc.
    destruct Hacc as (A1 & _ & A3 & _). exists w. split; [exact Lw|]. split; [exact Nw|]. split; [|split; [exact A1|exact Hdec]].
    rewrite A3, Et. apply (nudge_free C n); auto.
  Qed.

  (** one variable and the two-dimensional solver (the default): the step proposed is zero, whatever the curvature *)
  Theorem C68_one_variable_stays s x0 h d : n = 1%nat -> op_subspace_dim O = "2D"%string -> deref s (o_x s) = fv [x0] -> o_grad s = fv [0] -> o_hess s = fm [[h]] ->
    h <> 0 -> o_delta s = Fin d -> 0 < d ->
    (exists l, so_lstsq (e_la E) (fm [[h]]) (fv [0]) = Some l) -> (exists e ea v, so_eig (e_la E) (fm [[h]]) = Some (e, ea, v)) ->
    exists sp, (forall sp', proposes E C s sp' <-> sp' = sp) /\ trial_point s sp = deref s (o_x s) /\ predicted_decrease sp = Fin 0.
  Proof using Hn Hlb Hub Htm.
    intros E1 Esd Ex Eg EB Hh Ed Hd Hl He. destruct Htm as [Etm Ht1].
    destruct (affine_free 1 [x0] [0] eq_refl eq_refl) as (v & Lv & Ev & Fv).
    destruct (theta_free tm v [0]) as (t & Et & Ht); auto; try lra. specialize (Ht (proj2 Ht1)).
    destruct (saddle_stuck (e_la E) x0 h d t (op_stepback O) Hd Ht Hh Hl He) as (c & K1 & [Lw S1 S2 S3 S4]). exists c.
    split; [|split].
    - intros sp'. unfold proposes. cbv zeta. rewrite Ex, Eg, EB, Ed, Hlb, Hub, E1, Ev.
      rewrite (scaling_free 1) by auto. rewrite (dv_free 1) by auto. rewrite Etm, Et, Esd, K1. split; [intros [Q _]; apply Ok_inj in Q; congruence|].
      intros ->. rewrite S1, S2. auto.
    - unfold trial_point. rewrite Ex, S1, S2. cbn. f_equal. f_equal. ring.
    - unfold predicted_decrease. rewrite S4. unfold qmodel, rform, rdot. cbn. f_equal. lra.
  Qed.
End SaddleRun.

(** double precision, one variable, f(x) = -x^2 from its maximum x = 0: the default solver reports convergence there after two evaluations,
    the full solver leaves it *)
Definition concave (_ : nat) (x : list F64) : retval F64 :=
  RTuple [PScal (- dot x x)%num; PVec (vscale (- n2)%num x); PMat (List.length x) (map (vscale (- n2)%num) (eye (List.length x)))].
Definition at_maximum (n : nat) (sd : string) := run_of concave (free n [(KStr "subspace_solver", VStr sd); (KStr "maxiter", VInt 3)]) 10 (repeat (fz 0) n).
Theorem C68_one_variable_refuted :
  exists fv x g h s, at_maximum 1 "2D" = (Ok (fv, x, g, h), s) /\ eqflag (o_flag s) GTOL && Nat.eqb (List.length (o_evals s)) 2 && (fv =? fz 0)%num = true.
Proof. apply ok_witness; vm_compute; reflexivity. Qed.
Example C68_double_precision :
  (exists fv x g h s, at_maximum 1 "full" = (Ok (fv, x, g, h), s) /\ (fv <? fz 0)%num = true)
  /\ (exists fv x g h s, at_maximum 2 "full" = (Ok (fv, x, g, h), s) /\ (fv <? fz 0)%num = true)
  /\ (exists fv x g h s, at_maximum 2 "2D" = (Ok (fv, x, g, h), s) /\ (fv <? fz 0)%num = true).
Proof. repeat split; apply ok_witness; vm_compute; reflexivity. Qed.

(** the hypotheses are met: -x^2 - y^2 at (0, 0), radius 1, for both solvers *)
Definition J2 : rmat := [[-2; 0]; [0; -2]].
Definition sd_sub : SubOracles ER := mkSubOracles ER (fun _ => Some (fv [-2; -2], fm (reye 2))) interpolate (fun _ _ _ _ => NoConv).
Definition sd_E : env ER :=
  mkEnv (fun _ x => match x with
                    | [Fin a; Fin b] => RTuple [PScal (Fin (- (a * a + b * b))); PVec [Fin (-2 * a); Fin (-2 * b)]; PMat 2 (fm J2)]
                    | _ => RRaise end)
    (fun k => Fin (INR k)) (fun _ => "id"%string)
    (mkStepOracles ER sd_sub (fun _ => Some (fv [-2; -2], fv [2; 2], fm (reye 2))) (fun _ g => Some g) (fun _ _ _ _ _ _ _ => None) 10 10)
    (fun _ => None) (fun _ => None).
Definition sd_st : opt ER :=
  mkOpt [fv [0; 0]] 0 (Fin 0) (fv [0; 0]) (fm J2) 0 (Fin 0) (fv [0; 0]) (Fin 1) (Fin 1) (Fin 0) None 0 0 (Fin 0) 0 false DID_NOT_RUN [] "" [] 0 0 [].
Lemma J2_mat : is_mat 2 2 J2. Proof. split; [reflexivity|repeat constructor]. Qed.
Lemma J2_sym : symmetric J2. Proof. intros i j. destruct i as [|[|[|i]]], j as [|[|[|j]]]; reflexivity. Qed.
Lemma J2_form x y : length x = 2%nat -> length y = 2%nat -> rform J2 x y = -2 * rdot x y.
Proof. intros Hx Hy. apply two_vec in Hx as (a & b & ->). apply two_vec in Hy as (c & d & ->). unfold rform, rmv, rdot, J2. cbn. ring. Qed.
Lemma J2_eig : eig_decomposition 2 J2 [-2; -2] (reye 2).
Proof.
  split; [reflexivity|]. split; [apply is_mat_eye|]. split; [apply orthonormal_eye|].
  intros [|[|i]] Hi; [| |lia]; unfold rmv, rscale, rdot, J2; cbn; (f_equal; [ring|f_equal; ring]).
Qed.
Lemma J2_low : lowest 2 J2 (-2).
Proof.
  split.
  - exists [1; 0]. split; [reflexivity|]. rewrite J2_form by reflexivity. unfold rdot. cbn. split; ring.
  - intros v Lv. rewrite J2_form by auto. lra.
Qed.
Lemma sd_saddle : at_saddle 2 sd_st [0; 0] J2 (-2) 1.
Proof. constructor; try reflexivity; try lra; auto using J2_mat, J2_sym, J2_low. Qed.
Lemma sd_sees sd : sd = "full"%string \/ sd = "2D"%string -> sees sd_E (cy_C sd) 2 J2 (-2).
Proof.
  assert (Hs : exact_eig sd_sub 2 J2) by (exists [-2; -2], (reye 2); split; [exact J2_eig|reflexivity]).
  intros [-> | ->]; [left; split; [reflexivity|intros _; exact Hs]|right].
  split; [reflexivity|]. split; [lia|]. split; [|split; [|split]].
  - intros v Lv. rewrite J2_form by auto. pose proof (rdot_self_nonneg v). rewrite Rabs_left1 by lra.
    assert (1 <= IZR (2 ^ 52)) by (apply IZR_le; discriminate). nra.
  - exists (fv (rzeros 2)). reflexivity.
  - exists [-2; -2], (reye 2). split; [exact J2_eig|]. cbn. rewrite !Rabs_left by lra. replace (- (-2)) with 2 by lra. reflexivity.
  - intros u v Lu Lv Ho. assert (E : redB J2 [u; v] = J2); [|rewrite E; exact Hs].
    unfold redB. cbn [map]. rewrite !J2_form by auto.
    pose proof (Ho 0%nat 0%nat ltac:(cbn; lia) ltac:(cbn; lia)) as H1. pose proof (Ho 0%nat 1%nat ltac:(cbn; lia) ltac:(cbn; lia)) as H2.
    pose proof (Ho 1%nat 0%nat ltac:(cbn; lia) ltac:(cbn; lia)) as H3. pose proof (Ho 1%nat 1%nat ltac:(cbn; lia) ltac:(cbn; lia)) as H4.
    cbn [nth Nat.eqb] in H1, H2, H3, H4. rewrite H1, H2, H3, H4. unfold J2. rewrite Rmult_1_r, Rmult_0_r. reflexivity.
Qed.
Example C68_ex sd : sd = "full"%string \/ sd = "2D"%string ->
  exists sp w, (forall sp', proposes sd_E (cy_C sd) sd_st sp' <-> sp' = sp) /\ length w = 2%nat /\ trial_point sd_st sp = fv (radd [0; 0] w)
    /\ rnorm w = 1 /\ predicted_decrease sp = Fin 1 /\ accepts (cy_C sd) sd_st sp (Fin (-1)) (fv [0; 0]) = true.
Proof.
  intros Hsd. assert (Ht : op_theta_max (c_opts (cy_C sd)) = Fin (/ 2) /\ 0 < / 2 <= 1) by (split; [reflexivity|lra]).
  destruct (C68_saddle_step sd_E (cy_C sd) 2 (/ 2) ltac:(lia) eq_refl eq_refl Ht sd_st [0; 0] J2 (-2) 1 sd_saddle (sd_sees sd Hsd)) as (sp & w & U & Lw & Et & Nw & Fw & Es & Ep).
  exists sp, w. split; [exact U|]. split; [exact Lw|]. split; [exact Et|]. split; [exact Nw|]. split; [rewrite Ep; f_equal; lra|].
  apply (C68_saddle_accepted sd_E (cy_C sd) 2 (/ 2) ltac:(lia) eq_refl eq_refl Ht sd_st [0; 0] J2 (-2) 1 0 (-1) (fv [0; 0]) sp sd_saddle (sd_sees sd Hsd)); try reflexivity; [now apply U|lra].
Qed.
