(** C73 for quadratics: every update of a scheme that holds the exact Hessian is zero *)
From Coq Require Import String ZArith List Bool Reals Lra Lia Psatz.
From Verif Require Import Num Constants Subproblem HessApprox Steps TrustRegion Minimize
  ER NumFacts MonadFacts MinFacts Spec Run RunInv HessRun RVec Quasi Prop_Quasi Prop_Sym Prop_Run Prop_Run2 Prop_QuasiRun Unbounded Prop_LogTable Prop_SR1 Prop_ExactStart.
Import ListNotations.
Local Open Scope R_scope.
Local Open Scope list_scope.

Section Exact.
  Variables (n : nat) (A : rmat).
  Hypothesis MA : is_mat n n A.
  Lemma madd_zero B : is_mat n n B -> rmadd B (rmscale 0 B) = B.
  Proof using. intros MB. apply (rmat_ext n n); auto; [apply is_mat_madd; auto; now apply is_mat_mscale|]. intros i j _ _. rewrite (entry_madd n n), entry_mscale; auto; [ring|now apply is_mat_mscale]. Qed.

  (** the scheme changes nothing when the difference of gradients is the one the matrix predicts *)
  Lemma broyden_exact phi w : length w = n ->
    madd (fm A) (broyden_class_update (fv (rmv A w)) (fv w) (fm A) (Fin phi) true) = fm A.
  Proof using MA.
    intros Lw. assert (Lu : length (rmv A w) = n) by (rewrite rmv_length; apply MA).
    destruct (Rlt_dec 0 (rdot (rmv A w) w)) as [Hp|Hp].
    - rewrite (h_broyden n) by (auto; lra). rewrite h_madd. f_equal.
      apply (rmat_ext n n); auto; [apply is_mat_new; auto|]. intros i j Hi Hj.
      assert (Hb : is_mat n n (rbroyden (rmv A w) w A phi)) by (apply is_mat_rbroyden; auto).
      rewrite (entry_madd n n) by auto.
      assert (Ez : entry (rbroyden (rmv A w) w A phi) i j = 0).
      { destruct (mats n A (rmv A w) w phi MA Lu) as (M1 & M2 & M3). unfold rbroyden. cbv zeta.
        rewrite (entry_madd n n), (entry_msub n n), !entry_mscale, !entry_outer by (auto using is_mat_msub). rewrite !nth_rsub, !nth_rscale by rlen. ring. }
      rewrite Ez. ring.
    - rewrite h_broyden_guard by lra. rewrite h_madd. f_equal. now apply madd_zero.
  Qed.
  Lemma bg_exact w : length w = n -> 0 < rdot w w -> madd (fm A) (bg_diff (fm A) (fv w) (fv (rmv A w))) = fm A.
  Proof using MA.
    intros Lw Hw. assert (Lu : length (rmv A w) = n) by (rewrite rmv_length; apply MA).
    unfold bg_diff. cbv zeta. rewrite h_matvec, h_vsub, h_dot, h_outer, h_mdivs by lra. rewrite h_madd. f_equal.
    apply (rmat_ext n n); auto.
    { apply is_mat_madd; auto. apply is_mat_mscale. replace n with (length (rsub (rmv A w) (rmv A w))) at 1 by rlen. rewrite <- Lw. apply is_mat_outer. }
    intros i j Hi Hj. rewrite (entry_madd n n), entry_mscale, entry_outer, nth_rsub by (auto; apply is_mat_mscale; replace n with (length (rsub (rmv A w) (rmv A w))) at 1 by rlen; rewrite <- Lw; apply is_mat_outer). ring.
  Qed.
End Exact.

(** the value the objective gives to a point does not depend on the number of the call *)
Definition same_every_time (E : env ER) (C : cfg ER) : Prop :=
  forall k k' p, value_of C (e_obj E k p) = value_of C (e_obj E k' p).
(** Broyden's class (BFGS, DFP and every finite phi) with the curvature condition, Broyden's bad method, and, for objectives that
    give every point one value, Broyden's good method *)
Definition keeps_exact (E : env ER) (C : cfg ER) (i : ihapp ER) : Prop :=
  (exists phi, ih_kind i = IBroyden (Fin phi) true) \/ ih_kind i = IBB \/ (ih_kind i = IBG /\ same_every_time E C).

Section Runs.
  Variables (E : env ER) (C : cfg ER) (n : nat) (A : rmat) (b : rvec).
  Variables (ndim : nat) (x0 : list ER) (sid : option string) (st : opt ER) (i0 : ihapp ER).
  Hypothesis Hn : (1 <= n)%nat.
  Hypothesis MA : is_mat n n A.
  Hypothesis Lb : length b = n.
  Hypothesis Hg : linear_gradient E C n A b.
  Hypothesis Elb : c_lb C = no_lb n.
  Hypothesis Eub : c_ub C = no_ub n.
  Hypothesis Lx0 : length x0 = n.
  Hypothesis Hh : o_happ st = Some (HIter i0).
  Hypothesis Hk : keeps_exact E C i0.
  Local Notation head := (loop_head E C ndim x0 sid (H0Mat (fm A)) st).

  Definition exact_at (s : opt ER) (x : rvec) : Prop :=
    length x = n /\ deref s (o_x s) = fv x /\ o_grad s = fv (radd (rmv A x) b)
    /\ (exists j, o_happ s = Some (HIter j) /\ ih_kind j = ih_kind i0 /\ ih_mat j = fm A) /\ o_hess s = fm A
    /\ (exists k, value_of C (e_obj E k (fv x)) = Some (o_fval s)) /\ nisfin (o_fval s) = true.

  Lemma exact_start f s : prepare E C ndim x0 sid (H0Mat (fm A)) st = (Ok f, s) -> exists x, exact_at s x.
  Proof using Hn Hg Lx0 Hh Elb Eub.
    intros H. pose proof (loop_head_Inv E C _ _ _ _ _ _ _ (lh_start E C ndim x0 sid (H0Mat (fm A)) st f s H)) as I.
    apply prepare_inv in H. inversion H as [| | | | | |pf hess h' f1 D1 D2 D3 D4 D5 D6 D7 Ef Es0]. subst f1.
    destruct (value_typed C _ _ _ _ _ D3 D6) as [Hv Hgr]. unfold pr_ret in Hv, Hgr.
    set (p := nudge C x0) in *.
    assert (Ex : deref s (o_x s) = p).
    { rewrite <- Es0. unfold deref, pr_s4. destruct better; unfold pr_s3, pr_s2, pr_s1, pr_s0; destruct pr_id; apply nth_middle. }
    assert (Eg : o_grad s = fo_grad f) by (rewrite <- Es0; unfold pr_s4; destruct better; reflexivity).
    assert (Ef2 : o_fval s = fo_fval f) by (rewrite <- Es0; unfold pr_s4; destruct better; reflexivity).
    assert (Lp : length p = n) by (rewrite <- Ex, (iv_len _ _ _ _ _ _ _ I); exact Lx0).
    destruct (iv_fin _ _ _ _ _ _ _ I) as [Ff Fg]. apply vfinite_inv in Fg as [g Eg2]. rewrite <- Eg, Eg2 in Hgr.
    destruct (Hg _ _ _ Lp Hgr) as (x & Epx & ->). rewrite Es0. exists x.
    assert (E1 : o_hess s = hess) by (rewrite <- Es0; unfold pr_s4; destruct better; reflexivity).
    assert (E2 : o_happ s = h') by (rewrite <- Es0; unfold pr_s4; destruct better; reflexivity).
    split; [rewrite <- (fv_length x), <- Epx; exact Lp|]. split; [congruence|]. split; [exact Eg2|].
    rewrite E1, E2. unfold pr_hess in D4. rewrite Hh in D4. rewrite Lx0 in D4. cbn [pr_hess0] in D4. cbn [h_init] in D4. unfold ih_init, hb_init in D4.
    destruct (Nat.eqb _ _); [|discriminate]. injection D4 as <- <-.
    split; [eexists; split; [reflexivity|]; split; reflexivity|]. split; [reflexivity|]. split; [|exact Ff].
    rewrite <- Epx, Ef2. eexists. exact Hv.
  Qed.

  Lemma exact_pass f s s1 f' s' x : head f s -> check_continue E C s = (Ok true, s1) -> iteration E C f s1 = (Ok f', s') -> exact_at s x ->
    exists x', exact_at s' x'.
  Proof using Hn MA Lb Hg Elb Eub Lx0 Hh Hk.
    intros HL Hc Hi (Lx & Ex & Eg & (j & Ej & Kj & Mj) & EB & (k0 & Ek0) & Ff).
    pose proof (loop_head_Inv E C _ _ _ _ _ _ _ (lh_next E C ndim x0 sid (H0Mat (fm A)) st f s s1 f' s' HL Hc Hi)) as I'.
    destruct (C15_pass E C _ _ _ _ _ _ _ _ _ _ HL Hc Hi) as (sp & r & v & g & P1 & P2 & P3 & P4 & P5 & P6).
    destruct (C15_hessian_after_acceptance E C _ _ _ _ _ _ _ _ _ _ HL Hc Hi) as (sp2 & r2 & v2 & g2 & pf & R1 & R2 & R3 & R4 & R5 & R6).
    assert (sp2 = sp) by (destruct P1 as [P1 _], R1 as [R1 _]; congruence). subst sp2.
    assert (r2 = r) by (rewrite P2 in R2; apply app_inv_head in R2; congruence). subst r2.
    assert (v2 = v) by congruence. assert (g2 = g) by congruence. subst v2 g2.
    destruct (accepts C s sp v g) eqn:Ea.
    - destruct (accepted_decreases E C ndim x0 sid (H0Mat (fm A)) st _ _ _ _ _ _ _ _ _ HL Hc Hi P1 P2 P4 P5 Ea) as [Hdec _].
      destruct P6 as (Q1 & Q2 & Q3 & Q4). specialize (R6 eq_refl). rewrite Ej in R6. destruct R6 as (h' & fn & U1 & U2 & U3 & U4).
      unfold happ_update in U1. apply ok_inj in U1. subst h'. cbn [h_mat] in U4.
      destruct (value_typed C _ _ _ _ _ R3 U2) as [_ Tg].
      assert (Egn : fo_grad fn = g) by congruence. rewrite Egn in U3, U4. clear Tg Egn U2.
      destruct (iv_fin _ _ _ _ _ _ _ I') as [Ff' Fg]. rewrite Q2 in Fg. apply vfinite_inv in Fg as [gr Egr].
      assert (Ltp : length (trial_point s sp) = n).
      { destruct P1 as (_ & L1 & L2). rewrite Ex, fv_length in L1, L2. unfold trial_point. rewrite Ex. unfold vadd.
        rewrite !map2_len; rewrite ?map2_len; rewrite ?fv_length; congruence. }
      assert (P5' := P5). rewrite P3, Egr in P5. destruct (Hg _ _ _ Ltp P5) as (x' & Et & ->).
      assert (Lx' : length x' = n) by (rewrite <- (fv_length x'), <- Et; exact Ltp).
      assert (Est : exists w, vadd (st_s sp) (st_s0 sp) = fv w /\ length w = n /\ x' = radd x w).
      { destruct P1 as (_ & L1 & L2). rewrite Ex, fv_length in L1, L2. unfold trial_point in Et. rewrite Ex in Et.
        assert (F1 : vfinite (vadd (vadd (fv x) (st_s sp)) (st_s0 sp)) = true) by (rewrite Et; apply vfinite_fv).
        apply vadd_finite in F1 as [F1 F2]; [|unfold vadd; rewrite map2_len; rewrite ?fv_length; congruence].
        apply vadd_finite in F1 as [_ F1]; [|rewrite fv_length; congruence].
        apply vfinite_inv in F1 as [a Ea1], F2 as [c Ea2]. rewrite Ea1, Ea2 in *. rewrite fv_length in L1, L2.
        rewrite !h_vadd in Et. apply fv_inj in Et. exists (radd a c). rewrite h_vadd. split; [reflexivity|]. split; [rlen|].
        rewrite <- Et. apply rvec_ext; [rlen|]. intros k. rewrite !nth_radd by rlen. ring. }
      destruct Est as (w & Ew & Lw & Exw). rewrite Ew in U3, U4. rewrite Eg, Egr, h_vsub in U3, U4.
      assert (LA : length A = n) by apply MA.
      assert (Ey : rsub (radd (rmv A x') b) (radd (rmv A x) b) = rmv A w).
      { rewrite Exw, rmv_radd by congruence. apply rvec_ext; [rlen|]. intros k. rewrite nth_rsub, !nth_radd by rlen. ring. }
      rewrite Ey in U3, U4.
      assert (Step : ih_mat (ih_update j (fv w) (fv (rmv A w))) = fm A).
      { unfold ih_update. rewrite Kj, Mj. destruct Hk as [(phi & ->)|[->|(-> & Hsame)]].
        - cbn [ih_mat ih_base hb_hess]. now apply (broyden_exact n).
        - exact eq_refl.
        - cbn [ih_mat ih_base hb_hess]. apply (bg_exact n); auto. destruct (Rle_lt_or_eq_dec 0 (rdot w w) (rdot_self_nonneg w)) as [Hw|Hw]; [exact Hw|exfalso].
          assert (Ew0 : x' = x).
          { rewrite Exw. apply rvec_ext; [rlen|]. intros k. rewrite nth_radd by rlen. rewrite (rdot_self_0 w (eq_sym Hw) k). ring. }
          rewrite P3, Et, Ew0 in P4. rewrite (Hsame _ k0), Ek0 in P4. injection P4 as P4. rewrite Q1, <- P4 in Hdec.
          destruct (o_fval s); try discriminate Ff. cbn in Hdec. destruct (Rltb_spec r0 r0); [lra|discriminate]. }
      exists x'. split; [exact Lx'|]. split; [rewrite Q3, Et; now apply (nudge_free C n)|]. split; [congruence|]. split; [|split].
      + eexists. split; [exact U3|]. split; [now rewrite ih_update_kind|exact Step].
      + rewrite U4. exact Step.
      + split; [|rewrite Q1; rewrite Q1 in Ff'; exact Ff']. rewrite Q1, <- P4, P3, Et. eexists. reflexivity.
    - destruct P6 as (Q1 & Q2 & Q3 & Q4 & Q5 & Q6 & Q7). exists x. unfold exact_at. rewrite Q1, Q2, Q3, Q4, Q6.
      split; [exact Lx|]. split; [exact Ex|]. split; [exact Eg|]. split; [exists j; auto|]. split; [exact EB|]. split; [exists k0; exact Ek0|exact Ff].
  Qed.

  (** at every iteration of the run the Hessian the optimizer works with is the exact one *)
  Theorem C73_stays_exact f s : head f s -> o_hess s = fm A.
  Proof using Hn MA Lb Hg Elb Eub Lx0 Hh Hk.
    intros H. assert (K : exists x, exact_at s x).
    { induction H as [f s H|f s s1 f' s' Hl IH Hc Hi]; [exact (exact_start f s H)|]. destruct IH as (x & Hx). exact (exact_pass _ _ _ _ _ _ Hl Hc Hi Hx). }
    destruct K as (x & _ & _ & _ & _ & K & _). exact K.
  Qed.
End Runs.
