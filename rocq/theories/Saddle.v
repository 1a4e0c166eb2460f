(** Proof library for C68: the step proposed at a stationary point that is not a minimizer (no bounds, exact arithmetic) *)
From Coq Require Import String ZArith List Bool Reals Lra Lia Psatz.
From Verif Require Import Num Constants Subproblem HessApprox Steps TrustRegion Minimize
  ER NumFacts MonadFacts MinFacts Spec Run RunInv RVec Ortho SubNd Prop_SubNd RShess Argmin Cand StepFacts Prop_Sub1d Prop_Pred Prop_Box
  Prop_Cand TRErr RealStep Prop_Grad Region Prop_Trunc Prop_TwoD Prop_CG Prop_Run Prop_Nudge Prop_BoxRun Unbounded UnboundedFull Unbounded2D.
Import ListNotations.
Local Open Scope R_scope.
Local Open Scope list_scope.

(** [m] is the lowest curvature of [H] *)
Definition lowest (n : nat) (H : rmat) (m : R) : Prop :=
  (exists v, length v = n /\ rdot v v = 1 /\ rform H v v = m) /\ forall v, length v = n -> m * rdot v v <= rform H v v.
(** the eigenvalue routine used by the subproblem solver handles [B] exactly *)
Definition exact_eig (O : SubOracles ER) (n : nat) (B : rmat) : Prop :=
  exists vals vecs, eig_decomposition n B vals vecs /\ sp_eig O (fm B) = Some (fv vals, fm vecs).

Lemma rayleigh n B vals vecs v : (0 < n)%nat -> is_mat n n B -> symmetric B -> eig_decomposition n B vals vecs -> length v = n ->
  mineig vals * rdot v v <= rform B v v.
Proof.
  intros Hn MB SB HD Lv. set (g := rzeros n). assert (Lg : length g = n) by apply rzeros_length.
  rewrite (eig_form n B vals vecs v) by auto. pose proof HD as (HL & HV & HO & HE).
  rewrite (parseval n vecs v v) by auto. rewrite (rdot_sum n) by (rewrite rmv_length; apply HV).
  assert (K : forall k, (k <= n)%nat -> mineig vals * rsum k (fun i => nth i (rmv vecs v) 0 * nth i (rmv vecs v) 0)
     <= rsum k (fun i => nth i vals 0 * (rdot (nth i vecs []) v * rdot (nth i vecs []) v))).
  { induction k as [|k IH]; intros Hk; [cbn [rsum]; lra|]. cbn [rsum]. specialize (IH ltac:(lia)).
    pose proof (mineig_le n B g vals vecs Lg Hn HD k ltac:(lia)) as Q. unfold ev in Q. rewrite nth_rmv.
    pose proof (Rle_0_sqr (rdot (nth k vecs []) v)) as S. unfold Rsqr in S. nra. }
  apply K. lia.
Qed.
Lemma mineig_form n B vals vecs : (0 < n)%nat -> eig_decomposition n B vals vecs ->
  length (nth (jm vals) vecs []) = n /\ rdot (nth (jm vals) vecs []) (nth (jm vals) vecs []) = 1 /\ rform B (nth (jm vals) vecs []) (nth (jm vals) vecs []) = mineig vals.
Proof.
  intros Hn HD. assert (Lg : length (rzeros n) = n) by apply rzeros_length. pose proof (jm_lt n B (rzeros n) vals vecs Lg Hn HD) as Hj.
  destruct HD as (HL & HV & HO & HE). split; [eapply is_mat_row; eauto|].
  assert (U : rdot (nth (jm vals) vecs []) (nth (jm vals) vecs []) = 1). { rewrite HO by (destruct HV as [-> _]; auto). now rewrite Nat.eqb_refl. }
  split; [exact U|]. unfold rform. rewrite HE by auto. rewrite rdot_rscale_r, U. unfold mineig, ev. ring.
Qed.
Lemma lowest_mineig n B vals vecs m : (0 < n)%nat -> is_mat n n B -> symmetric B -> eig_decomposition n B vals vecs -> lowest n B m -> mineig vals = m.
Proof.
  intros Hn MB SB HD [(v & Lv & U & Em) Hm]. apply Rle_antisym.
  - pose proof (rayleigh n B vals vecs v Hn MB SB HD Lv) as K. rewrite U, Em in K. lra.
  - destruct (mineig_form n B vals vecs Hn HD) as (L & U' & E). specialize (Hm _ L). rewrite U', E in Hm. lra.
Qed.

Lemma rlincomb_rscale n a c : forall V, Forall (fun r => length r = n) V -> length c = length V -> rlincomb n (rscale a c) V = rscale a (rlincomb n c V).
Proof.
  induction c as [|b c IH]; intros [|v V] F L; try discriminate; cbn [rscale map rlincomb].
  - fold (rscale a (repeat 0 n)). apply rvec_ext; [now rewrite rscale_length|]. intros i. rewrite nth_rscale. change (repeat 0 n) with (rzeros n). rewrite nth_rzeros. ring.
  - inversion F; subst. fold (rscale a c). match goal with |- _ = map _ ?q => change (map _ q) with (rscale a q) end. rewrite IH by (auto; cbn in L; lia).
    assert (Lr : length (rlincomb (length v) c V) = length v) by now apply rlincomb_length.
    apply rvec_ext; [rlen|]. intros i. rewrite nth_rscale, !nth_radd, !nth_rscale by rlen. ring.
Qed.

  Lemma fold_max_le : forall l a b, a <= b -> Forall (fun q => q <= b) l -> exists r, fold_left npmax2 (fv l) (Fin a) = Fin r /\ r <= b.
  Proof.
    induction l as [|q l IH]; intros a b Ha Hl; [exists a; auto|]. inversion Hl; subst. cbn [fv map fold_left].
    unfold npmax2 at 2. cbn [nisnan ERNum er_isnan nltb er_ltb]. destruct (Rltb a q); apply IH; auto.
  Qed.

Section Saddle.
  Variables (O : StepOracles ER) (n : nat) (x : rvec) (H : rmat) (delta theta m : R).
  Hypothesis Hn : (1 <= n)%nat.
  Hypothesis Lx : length x = n.
  Hypothesis MH : is_mat n n H.
  Hypothesis SH : symmetric H.
  Hypothesis Hd : 0 < delta.
  Hypothesis Ht : 0 < theta <= 1.
  Hypothesis Hm : lowest n H m.
  Hypothesis Hneg : m < 0.
  Local Notation g := (rzeros n).
  Local Notation A := (rA x g H (rones n) (rzeros n) delta theta (no_lb n) (no_ub n)).
  Local Notation start := (start_in n x g H delta theta).
  Let Lg : length g = n := rzeros_length n.

  Lemma zero_model w : qmodel H g w = rform H w w / 2.
  Proof using. unfold qmodel. rewrite rdot_zeros_l. lra. Qed.

  (** what the step is worth when the space searched contains a direction of lowest curvature *)
  Definition saddle_step (w : rvec) : Prop := length w = n /\ rnorm w = delta /\ qmodel H g w = m * (delta * delta) / 2.
  Lemma saddle_of w e : length w = n -> rnorm w <= delta -> length e = n -> rdot e e = 1 -> rform H e e = m ->
    qmodel H g w <= qmodel H g (rscale delta e) -> saddle_step w.
  Proof using Hd Hm Hneg.
    intros Lw Nw Le Ue Ee Hq. rewrite !zero_model in Hq. rewrite rform_rscale_l, rform_rscale_r, Ee in Hq.
    destruct Hm as [_ Hl]. specialize (Hl w Lw). rewrite <- rnorm_sq in Hl. pose proof (rnorm_nonneg w) as Nn.
    assert (Q : m * (rnorm w * rnorm w) <= m * (delta * delta)) by lra.
    assert (E : rnorm w = delta).
    { apply Rle_antisym; [exact Nw|]. apply Rnot_lt_le. intros C. assert (rnorm w * rnorm w < delta * delta) by nra. nra. }
    split; [exact Lw|]. split; [exact E|]. rewrite zero_model. rewrite E in Hl. lra.
  Qed.

  Lemma saddle_one typ u pd nw : length u = n -> rdot u u = 1 -> rform H u u = m ->
    exists c w, calculate O (start typ [u] pd nw) = Ok c /\ st_alpha c = n1 /\ free_step n g H c w /\ saddle_step w.
  Proof using All.
    intros Lu Uu Eu. assert (Nu : nonzero u) by (apply nonzero_dot; lra).
    destruct (start_one O n x g H delta theta Hn Lx Lg MH SH Hd Ht typ u pd nw Lu Nu) as (c & t & C1 & C2 & C3 & C4 & C5).
    exists c, (rscale t u). split; [exact C1|]. split; [exact C2|]. split; [exact C3|].
    apply (saddle_of (rscale t u) u); auto; [rlen|]. apply C5. rewrite rnorm_rscale. unfold rnorm. rewrite Uu, sqrt_1, Rabs_right by lra. lra.
  Qed.

  Lemma saddle_many typ sub pd nw e : (2 <= length sub)%nat -> Forall (fun r => length r = n) sub -> orthonormal sub ->
    exact_eig (so_sub O) (length sub) (redB H sub) -> length e = length sub -> rdot e e = 1 -> rform H (rlincomb n e sub) (rlincomb n e sub) = m ->
    exists c w, calculate O (start typ sub pd nw) = Ok c /\ st_alpha c = n1 /\ free_step n g H c w /\ saddle_step w.
  Proof using All.
    intros Hk F Ho (vals & vecs & HD & HE) Le Ue Ee. set (k := length sub) in *.
    assert (Nm : forall c, length c = k -> rnorm (rlincomb n c sub) = rnorm c).
    { intros c Lc. unfold rnorm. f_equal. apply (dot_lincomb k); auto. split; auto. }
    pose proof (redB_mat H sub) as MB. pose proof (redB_sym n H sub MH SH F) as SB. fold k in MB.
    assert (Lc : length (rmv sub g) = k) by apply rmv_length.
    assert (Zc : rmv sub g = rzeros k).
    { apply rvec_ext; [now rewrite rzeros_length|]. intros i. rewrite nth_rmv, nth_rzeros. apply rdot_zeros_r. }
    assert (Hk0 : (0 < k)%nat) by lia. assert (Lz : length (rzeros k) = k) by apply rzeros_length.
    assert (Sm : smallest k vals (mineig vals)).
    { split; [exists (jm vals); split; [exact (jm_lt k _ _ vals vecs Lz Hk0 HD)|reflexivity]|]. intros i Hi. exact (mineig_le k _ _ vals vecs Lz Hk0 HD i Hi). }
    assert (Hneg' : mineig vals <= 0).
    { pose proof (rayleigh k _ vals vecs e Hk0 MB SB HD Le) as Q. rewrite (redB_form n), Ue, Ee in Q by auto. lra. }
    assert (HP : nd_problem k (redB H sub) (rmv sub g) delta vals vecs (so_sub O)).
    { split; [exact MB|]. split; [exact SB|]. split; [exact Lc|]. split; [lia|]. split; [exact Hd|]. auto. }
    destruct (C28_hard_global k (redB H sub) (rmv sub g) delta vals vecs (so_sub O) (mineig vals) (rzeros k) HP Sm Hneg') as (r & Es & N1 & N2); auto.
    { unfold rnorm. rewrite rdot_zeros_l, sqrt_0. lra. }
    { rewrite Zc. apply rvec_ext; [rewrite radd_length; rewrite ?rscale_length, ?rmv_length, ?Lz; destruct MB; congruence|].
      intros i. rewrite nth_radd by (rewrite rscale_length, rmv_length, Lz; destruct MB; congruence). rewrite !nth_rscale, nth_rmv, nth_rzeros, rdot_zeros_r. ring. }
    assert (Lr : length r = k).
    { destruct (C27_accepted_steps k _ _ _ _ _ _ _ _ HP Es) as (r' & Er & Lr' & _). apply fv_inj in Er. congruence. }
    assert (Hsol : forall sc', solved O (start typ sub pd nw) sc' -> sc' = fv r).
    { intros sc' Hs. unfold solved, subspace_hess in Hs. rewrite (start_shess O n x g H delta theta Hn Lx Lg MH SH Hd Ht), (start_sg O n x g H delta theta Hn Lx Lg MH SH Hd Ht), (start_ss0 O n x g H delta theta Hn Lx Lg MH SH Hd Ht) in Hs.
      change (st_subspace (start typ sub pd nw)) with (fm sub) in Hs. change (st_delta (start typ sub pd nw)) with (Fin delta) in Hs.
      rewrite h_redB, h_tmatvec, no_offset, Es in Hs by auto.
      destruct sub as [|u1 [|u2 sub']]; try (unfold k in Hk; simpl in Hk; exfalso; lia). cbn [fm map] in Hs. destruct Hs as (lab' & Hs). congruence. }
    assert (Hc : exists c, calculate O (start typ sub pd nw) = Ok c).
    { unfold calculate. assert (K : exists c, compute_step O (reduce_to_subspace (start typ sub pd nw)) = Ok c); [|destruct K as (c & ->); eexists; reflexivity].
      unfold compute_step. 
      change (st_chess (reduce_to_subspace (start typ sub pd nw))) with (subspace_hess (start typ sub pd nw)).
      change (st_cg (reduce_to_subspace (start typ sub pd nw))) with (tmatvec (fm sub) (st_sg (start typ sub pd nw))).
      change (st_ss0 (reduce_to_subspace (start typ sub pd nw))) with (st_ss0 (start typ sub pd nw)).
      change (st_delta (reduce_to_subspace (start typ sub pd nw))) with (Fin delta).
      change (st_subspace (reduce_to_subspace (start typ sub pd nw))) with (fm sub).
      unfold subspace_hess. rewrite (start_shess O n x g H delta theta Hn Lx Lg MH SH Hd Ht), (start_sg O n x g H delta theta Hn Lx Lg MH SH Hd Ht), (start_ss0 O n x g H delta theta Hn Lx Lg MH SH Hd Ht).
      change (st_subspace (start typ sub pd nw)) with (fm sub).
      rewrite h_redB, h_tmatvec, no_offset, Es by auto.
      destruct sub as [|u1 [|u2 sub']]; try (unfold k in Hk; simpl in Hk; exfalso; lia). cbn [fm map]. eexists. reflexivity. }
    destruct Hc as (c & Hc). destruct (start_step O n x g H delta theta Hn Lx Lg MH SH Hd Ht typ sub pd nw r c) as [S1 S2]; auto.
    { intros E0. unfold k in Hk. rewrite E0 in Hk. simpl in Hk. lia. }
    exists c, (rlincomb n r sub). split; [exact Hc|]. split; [exact S1|]. split; [exact S2|].
    apply (saddle_of _ (rlincomb n e sub)); auto.
    - now apply rlincomb_length.
    - rewrite Nm by auto. lra.
    - now apply rlincomb_length.
    - rewrite (dot_lincomb k n sub) by (auto; split; auto). exact Ue.
    - rewrite <- (red_qmodel n H g sub) by auto.
      assert (Ed : rscale delta (rlincomb n e sub) = rlincomb n (rscale delta e) sub) by (symmetry; apply rlincomb_rscale; auto).
      rewrite Ed, <- (red_qmodel n H g sub) by (auto; rlen). apply N2; [rlen|].
      rewrite rnorm_rscale. unfold rnorm. rewrite Ue, sqrt_1, Rabs_right by lra. lra.
  Qed.

  Lemma saddle_full strat : ((2 <= n)%nat -> exact_eig (so_sub O) n H) ->
    exists c w, trust_region O (fv x) (fv g) (fm H) (fv (rones n)) (Fin delta) (fv (rzeros n)) (Fin theta) (no_lb n) (no_ub n) "full" strat = Ok c
      /\ candidates O A "full" strat = Ok [c] /\ free_step n g H c w /\ saddle_step w.
  Proof using All.
    intros Hs.
    assert (K : exists c w, main_step O A "full" = Ok c /\ st_alpha c = n1 /\ free_step n g H c w /\ saddle_step w).
    { change (main_step O A "full") with (calculate O (tr_step_full A)).
      assert (E : tr_step_full A = start "nd" (reye n) None None).
      { unfold tr_step_full, start_in. change (a_hess A) with (fm H). rewrite fm_length, (proj1 MH). now rewrite h_eye. }
      rewrite E. pose proof (is_mat_eye n) as [Le Fe].
      assert (Lin : forall y, length y = n -> rlincomb n y (reye n) = y).
      { intros y Ly. rewrite (complete n (reye n) y) at 2 by (auto using is_mat_eye, orthonormal_eye). now rewrite rmv_eye. }
      pose proof Hm as [(v & Lv & Uv & Ev) _].
      destruct (Nat.eq_dec n 1) as [E1|E1].
      - assert (Ey : reye n = [[1]]) by (rewrite E1; reflexivity). rewrite Ey.
        assert (E2 : rdot v v = 1 /\ rform H v v = m) by auto. rewrite E1 in Lv. destruct v as [|v0 [|]]; try discriminate.
        assert (V0 : v0 * v0 = 1) by (unfold rdot in Uv; simpl in Uv; lra).
        apply saddle_one; [now rewrite E1|unfold rdot; simpl; lra|].
        replace [1] with (rscale v0 [v0]) by (unfold rscale; simpl; f_equal; lra). rewrite rform_rscale_l, rform_rscale_r, Ev. nra.
      - apply (saddle_many "nd" (reye n) None None v); auto using orthonormal_eye; rewrite ?Le; auto; [lia| |now rewrite Lin].
        replace (redB H (reye n)) with H; [apply Hs; lia|].
        apply (rmat_ext n n); [exact MH|rewrite <- Le at 1 2; apply redB_mat|]. intros i j Hi Hj. rewrite entry_redB by lia.
        unfold rform. rewrite (dot_unit n i) by (auto; rewrite rmv_length; apply MH). rewrite nth_rmv, rdot_comm, (dot_unit n j); auto.
        eapply is_mat_row; eauto. }
    destruct K as (c & w & K1 & K2 & K3 & K4).
    destruct (free_single O n x g H delta theta "full" strat c K1 K2) as [F1 F2]. exists c, w. auto.
  Qed.

  (** the routines used by the two-dimensional solver: least squares returns something, eigenvalues are exact *)
  Definition exact_2d_eig : Prop :=
    (exists l, so_lstsq O (fm H) (fv g) = Some l)
    /\ (exists vals V, eig_decomposition n H vals V /\ so_eig O (fm H) = Some (fv vals, fv (map Rabs vals), fm V))
    /\ (forall u v, length u = n -> length v = n -> orthonormal [u; v] -> exact_eig (so_sub O) 2 (redB H [u; v])).
  

  Lemma saddle_2d strat : (2 <= n)%nat -> (forall v, length v = n -> Rabs (rform H v v) <= - m * IZR (2 ^ 52) * rdot v v) -> exact_2d_eig ->
    exists c w, trust_region O (fv x) (fv g) (fm H) (fv (rones n)) (Fin delta) (fv (rzeros n)) (Fin theta) (no_lb n) (no_ub n) "2D" strat = Ok c
      /\ candidates O A "2D" strat = Ok [c] /\ free_step n g H c w /\ saddle_step w.
  Proof using All.
    intros Hn2 Hbd ((l & El) & (vals & V & HD & Ee) & Hs).
    pose proof (free_problem O n x g H delta theta Hn Lx Lg MH SH Hd Ht) as P.
    pose proof (lowest_mineig n H vals V m Hn MH SH HD Hm) as Em.
    destruct (mineig_form n H vals V Hn HD) as (Lu & Uu & Eu). rewrite Em in Eu.
    assert (He : 0 < / IZR (2 ^ 52)) by (apply Rinv_0_lt_compat, IZR_lt; reflexivity).
    assert (Hpd : (npmin (fv vals) >? (- spacing1) * npmax (fv (map Rabs vals)))%num = false).
    { rewrite (npmin_vals n H g vals V), Em by auto.
      assert (Fb : Forall (fun q => q <= - m * IZR (2 ^ 52)) (map Rabs vals)).
      { apply Forall_map, Forall_forall. intros q Hq. apply (In_nth _ _ 0) in Hq as (i & Hi & <-). destruct HD as (HL & HV & HO & HE'). rewrite HL in Hi.
        assert (Li : length (nth i V []) = n) by (eapply is_mat_row; eauto). specialize (Hbd _ Li). unfold rform in Hbd.
        rewrite HE', rdot_rscale_r, HO, Nat.eqb_refl in Hbd by (auto; destruct HV as [-> _]; auto). now rewrite !Rmult_1_r in Hbd. }
      destruct vals as [|v0 vals']; [destruct HD as [HD _]; simpl in HD; lia|]. cbn [map fv npmax] in *. pose proof (Forall_inv Fb) as F1. pose proof (Forall_inv_tail Fb) as F2. cbv beta in F1.
      destruct (fold_max_le (map Rabs vals') (Rabs v0) (- m * IZR (2 ^ 52)) F1 F2) as (b & Eb & Hb). unfold fv in Eb. rewrite Eb, spacing_fin.
      cbn [nopp ERNum er_opp nmul er_mul nltb er_ltb].
      destruct (Rltb_spec (- / IZR (2 ^ 52) * b) m) as [Hlt|]; [exfalso|reflexivity].
      assert (/ IZR (2 ^ 52) * b <= / IZR (2 ^ 52) * (- m * IZR (2 ^ 52))) by (apply Rmult_le_compat_l; lra).
      assert (E0 : / IZR (2 ^ 52) * (- m * IZR (2 ^ 52)) = - m). { field. apply IZR_neq. discriminate. } lra. }
    set (u := nth (jm vals) V []) in *. assert (Nu : nonzero u) by (apply nonzero_dot; lra).
    assert (Hnz : forall u, normalize (fv u) = fv (rnormalize u)) by (intros; apply h_normalize).
    assert (Enu : rnormalize u = u).
    { unfold rnormalize. assert (E1 : rnorm u = 1) by (unfold rnorm; rewrite Uu; apply sqrt_1). rewrite E1. destruct (Rltb 0 1); [|reflexivity].
      apply rvec_ext; [rlen|]. intros i. rewrite nth_rscale. field. }
    assert (Lo : length (rones n) = n) by apply repeat_length.
    assert (K : exists sub pd nw, tr_step_2d O A = Ok (start "2d" sub pd nw)
       /\ (sub = [u] \/ (sub = [u; rnormalize (rorth u (rones n))] /\ / IZR (2 ^ 52) < rnorm (rorth u (rones n))))).
    { unfold tr_step_2d. cbv zeta.
      rewrite (rA_shess n x g H (rones n) (rzeros n) delta theta (no_lb n) (no_ub n) P), rA_sg, free_B, free_sg, El, Ee, Hpd by auto.
      cbn [andb]. fold (jm vals). change (a_scaling A) with (fv (rones n)).
      assert (Es : map (fun q : ER => (npsign q + nofbool (q =? n0))%num) (fv g) = fv (rones n)).
      { unfold fv, rzeros, rones. clear. induction n as [|k IH]; [reflexivity|]. cbn [repeat map]. rewrite IH. f_equal.
        unfold npsign, nofbool. cbn. destruct (Rltb_spec 0 0); [lra|]. destruct (Reqb_spec 0 0); [|lra]. cbn. f_equal. lra. }
      rewrite Es, h_vmul, rmul_ones by auto.
      assert (Ev : nth (jm vals) (fm V) (@nil ER) = fv u) by (unfold u; change (@nil ER) with (fv []); unfold fm; apply map_nth).
      rewrite Ev, Hnz, Enu, h_dot, h_vscaler, h_vsub, Hnz. fold (rorth u (rones n)). rewrite h_norm, spacing_fin.
      destruct n as [|[|k]]; [lia|lia|]. cbn [rzeros repeat fv map].
      cbn [nltb ERNum er_ltb].
      destruct (Rltb_spec (/ IZR (2 ^ 52)) (rnorm (rorth u (rones (S (S k)))))) as [Hq|Hq].
      - exists [u; rnormalize (rorth u (rones (S (S k))))]. eexists _, _. split; [reflexivity|]. right. auto.
      - exists [u]. eexists _, _. split; [reflexivity|]. left. reflexivity. }
    destruct K as (sub & pd & nw & Er & Hsub).
    assert (K : exists c w, calculate O (start "2d" sub pd nw) = Ok c /\ st_alpha c = n1 /\ free_step n g H c w /\ saddle_step w).
    { destruct Hsub as [-> |[-> Ho]]; [now apply saddle_one|].
      assert (Lr : length (rorth u (rones n)) = n) by (unfold rorth; rlen).
      assert (No : nonzero (rorth u (rones n))) by (apply norm_nonzero; lra).
      pose proof (rnormalize_unit _ No) as U2.
      assert (Lv : length (rnormalize (rorth u (rones n))) = n) by now rewrite rnormalize_length.
      assert (O12 : rdot u (rnormalize (rorth u (rones n))) = 0) by (apply rnormalize_dot, (rorth_orth n); auto).
      set (v := rnormalize (rorth u (rones n))) in *.
      assert (Oo : orthonormal [u; v]).
      { intros [|[|i]] [|[|j]] Hi Hj; cbn [length nth Nat.eqb] in *; try lia; auto. now rewrite rdot_comm. }
      apply (saddle_many "2d" [u; v] pd nw [1; 0]); auto.
      - unfold rdot. simpl. lra.
      - assert (E1 : rlincomb n [1; 0] [u; v] = u); [|now rewrite E1].
        cbn [rlincomb]. change (repeat 0 n) with (rzeros n). assert (Lz : length (rzeros n) = n) by apply rzeros_length.
        apply rvec_ext; [rlen|]. intros i. rewrite !nth_radd, nth_rzeros, !nth_rscale by rlen. ring. }
    destruct K as (c & w & K1 & K2 & K3 & K4).
    assert (Km : main_step O A "2D" = Ok c).
    { unfold main_step. cbn [String.eqb Ascii.eqb Bool.eqb]. rewrite Er. exact K1. }
    destruct (free_single O n x g H delta theta "2D" strat c Km K2) as [F1 F2]. exists c, w. auto.
  Qed.
End Saddle.

(** one variable, two-dimensional solver: the space searched is the zero vector *)
Lemma saddle_stuck O (x0 h delta theta : R) strat : 0 < delta -> 0 < theta <= 1 -> h <> 0 ->
  (exists l, so_lstsq O (fm [[h]]) (fv [0]) = Some l) -> (exists e ea v, so_eig O (fm [[h]]) = Some (e, ea, v)) ->
  exists c, trust_region O (fv [x0]) (fv [0]) (fm [[h]]) (fv (rones 1)) (Fin delta) (fv (rzeros 1)) (Fin theta) (no_lb 1) (no_ub 1) "2D" strat = Ok c
    /\ free_step 1 [0] [[h]] c [0].
Proof.
  intros Hd Ht Hh (l & El) (e & ea & v & Ee).
  assert (MH : is_mat 1 1 [[h]]) by (split; [reflexivity|repeat constructor]).
  assert (SH : symmetric [[h]]) by (intros [|i] [|j]; unfold entry; cbn; try destruct i; try destruct j; reflexivity).
  pose proof (free_problem O 1 [x0] [0] [[h]] delta theta (le_n 1) eq_refl eq_refl MH SH Hd Ht) as P.
  set (A := rA [x0] [0] [[h]] (rones 1) (rzeros 1) delta theta (no_lb 1) (no_ub 1)).
  assert (Er : exists pd nw, tr_step_2d O A = Ok (start_in 1 [x0] [0] [[h]] delta theta "2d" [[0]] pd nw)).
  { unfold tr_step_2d. cbv zeta. unfold A.
    rewrite (rA_shess 1 [x0] [0] [[h]] (rones 1) (rzeros 1) delta theta (no_lb 1) (no_ub 1) P), rA_sg, free_B, free_sg, El, Ee by auto.
    cbn [fv fm map nth]. cbn [nopp ndiv ERNum er_opp er_div]. destruct (Reqb_spec h 0); [lra|]. replace (- 0 / h) with 0 by (field; lra).
    eexists _, _. reflexivity. }
  destruct Er as (pd & nw & Er).
  assert (Hc : exists c, calculate O (start_in 1 [x0] [0] [[h]] delta theta "2d" [[0]] pd nw) = Ok c) by (eexists; reflexivity).
  destruct Hc as (c & Hc).
  destruct (start_step O 1 [x0] [0] [[h]] delta theta (le_n 1) eq_refl eq_refl MH SH Hd Ht "2d" [[0]] pd nw [0] c) as [S1 S2]; auto; [discriminate| |].
  { intros sc' Hs. unfold solved in Hs. cbn [start_in new_step st_subspace fm fv map st_delta] in Hs. rewrite Hs. unfold solve_1d_trust_region_subproblem.
    change (a_delta A) with (Fin delta). cbn [rA tr_args a_delta neqb ERNum er_eqb Num.n0 nofZ vall_zero forallb andb].
    destruct (Reqb_spec delta 0); [lra|]. destruct (Reqb_spec 0 0); [reflexivity|lra]. }
  assert (Ew : rlincomb 1 [0] [[0]] = [0]) by (cbn; f_equal; ring). rewrite Ew in S2.
  assert (Km : main_step O A "2D" = Ok c).
  { unfold main_step. cbn [String.eqb Ascii.eqb Bool.eqb]. rewrite Er. exact Hc. }
  destruct (free_single O 1 [x0] [0] [[h]] delta theta "2D" strat c Km S1) as [F1 F2]. exists c. auto.
Qed.
