(** C31: the Steihaug conjugate-gradient solver (exact arithmetic) *)
From Coq Require Import String ZArith List Bool Reals Lra Lia Psatz.
From Verif Require Import Num Subproblem Steps TrustRegion ER NumFacts RVec Ortho SubNd RShess StepFacts Prop_Sub1d Prop_Grad Region.
Import ListNotations.
Local Open Scope R_scope.
Local Open Scope list_scope.

Section CG.
  Variables (n : nat) (B : rmat) (g : rvec) (delta eps : R).
  Hypothesis HB : is_mat n n B.
  Hypothesis HS : symmetric B.
  Hypothesis Hg : length g = n.
  Hypothesis Hd : 0 < delta.
  Hypothesis He : 0 < eps.
  Local Notation q := (qmodel B g).

  (** state before a pass: iterate z strictly inside, residual r = Bz+g, direction d, past residuals rs, past directions ds *)
  Record cginv (rs ds : list rvec) (z r d : rvec) : Prop := mkCgInv {
    ci_z : length z = n; ci_r : length r = n; ci_d : length d = n;
    ci_rs : Forall (fun v => length v = n) rs;
    ci_ds : Forall (fun v => length v = n) ds;
    ci_in : rnorm z < delta;
    ci_res : r = radd (rmv B z) g;
    ci_nz : 0 < rdot r r;
    ci_fam : orthogonal_family (r :: rs);
    ci_conj : forall p, In p ds -> rform B d p = 0;
    ci_span : forall e, length e = n -> (forall p, In p ds -> rform B e p = 0) -> rform B e r = - rform B e d;
    ci_spans : forall v, In v rs -> forall e, length e = n -> (forall p, In p ds -> rform B e p = 0) -> rform B e v = 0;
    ci_img : forall p, In p ds -> forall e, length e = n -> (forall v, In v (r :: rs) -> rdot e v = 0) -> rform B e p = 0;
    ci_desc : rdot r d = - rdot r r
  }.

  Lemma fam_cons r rs : 0 < rdot r r -> orthogonal_family rs -> (forall v, In v rs -> rdot r v = 0) -> orthogonal_family (r :: rs).
  Proof.
    intros Hr [H1 H2] Ho. split.
    - intros [|i] [|j] Hi Hj Hne; cbn [nth length] in *; [congruence| | |].
      + apply Ho, nth_In. lia.
      + rewrite rdot_comm. apply Ho, nth_In. lia.
      + apply H1; lia.
    - intros [|i] Hi; cbn [nth length] in *; [exact Hr|]. apply H2. lia.
  Qed.

  Section Pass.
    Variables (rs ds : list rvec) (z r d : rvec).
    Hypothesis Inv : cginv rs ds z r d.
    Let c := rform B d d.
    Let alpha := rdot r r / c.
    Let zp := radd z (rscale alpha d).
    Let rp := radd r (rscale alpha (rmv B d)).
    Let beta := rdot rp rp / rdot r r.
    Let dp := radd (rscale (-1) rp) (rscale beta d).

    Lemma mv_len v : length (rmv B v) = n. Proof. rewrite rmv_length. apply HB. Qed.
    Lemma zp_len : length zp = n. Proof. destruct Inv. unfold zp. rlen. Qed.
    Lemma rp_len : length rp = n. Proof. destruct Inv. pose proof (mv_len d) as E. unfold rp. rewrite radd_length; [exact ci_r0|]. rewrite rscale_length, E. exact ci_r0. Qed.
    Lemma dp_len : length dp = n. Proof. destruct Inv. pose proof rp_len. unfold dp. rlen. Qed.

    Lemma d_nonzero : nonzero d.
    Proof.
      destruct Inv. destruct (nonzero_dec d) as [|Hz]; auto. exfalso.
      assert (E : rdot r d = 0).
      { apply all0_zeros in Hz. rewrite Hz. apply rdot_zeros_r. }
      lra.
    Qed.
    Lemma slope : rdot d (radd (rmv B z) g) = - rdot r r.
    Proof. destruct Inv. rewrite <- ci_res0, rdot_comm. exact ci_desc0. Qed.

    Lemma line t : q (radd z (rscale t d)) = q z - t * rdot r r + t * t * (/ 2 * c).
    Proof. destruct Inv. rewrite (qmodel_line n) by auto. rewrite slope. unfold c. ring. Qed.

    (** some feasible point on the line is strictly better than z *)
    Lemma line_better : exists t, rnorm (radd z (rscale t d)) <= delta /\ q (radd z (rscale t d)) < q z.
    Proof.
      destruct Inv. pose proof (nonzero_norm _ d_nonzero) as Nd.
      set (t1 := (delta - rnorm z) / rnorm d). set (t2 := rdot r r / (Rabs c + 1)).
      pose proof (Rabs_pos c) as Ac.
      assert (P1 : 0 < t1) by (apply Rdiv_lt_0_compat; lra).
      assert (P2 : 0 < t2) by (apply Rdiv_lt_0_compat; lra).
      set (t := Rmin t1 t2). assert (Pt : 0 < t) by (apply Rmin_pos; auto).
      assert (T1 : t <= t1) by apply Rmin_l. assert (T2 : t <= t2) by apply Rmin_r. clearbody t.
      exists t. split.
      - eapply Rle_trans; [apply rnorm_triangle; rlen|].
        assert (E : rnorm (rscale t d) = t * rnorm d).
        { rewrite rnorm_rscale. rewrite Rabs_pos_eq by lra. reflexivity. }
        rewrite E. assert (t * rnorm d <= t1 * rnorm d) by (apply Rmult_le_compat_r; lra).
        unfold t1 in H. replace ((delta - rnorm z) / rnorm d * rnorm d) with (delta - rnorm z) in H by (field; lra). lra.
      - rewrite line. assert (t * (Rabs c + 1) <= rdot r r).
        { assert (t * (Rabs c + 1) <= t2 * (Rabs c + 1)) by (apply Rmult_le_compat_r; lra).
          unfold t2 in H. replace (rdot r r / (Rabs c + 1) * (Rabs c + 1)) with (rdot r r) in H by (field; lra). lra. }
        pose proof (Rle_abs c). assert (t * c <= rdot r r) by nra.
        assert (t * (t * c) <= t * rdot r r) by (apply Rmult_le_compat_l; lra). nra.
    Qed.

    (** the unconstrained minimizer on the line *)
    Lemma zp_line : 0 < c -> forall t, q zp <= q (radd z (rscale t d)).
    Proof.
      intros Hc t. unfold zp. rewrite !line.
      assert (E : - t * rdot r r + t * t * (/ 2 * c) - (- alpha * rdot r r + alpha * alpha * (/ 2 * c)) = / 2 * c * ((t - alpha) * (t - alpha))).
      { unfold alpha. field. lra. }
      assert (0 <= / 2 * c * ((t - alpha) * (t - alpha))) by (apply Rmult_le_pos; [lra|apply Rle_0_sqr]). lra.
    Qed.

    (** the boundary exit *)
    Lemma boundary_exit : c <= 0 \/ delta <= rnorm zp ->
      exists t, get_1d_trust_region_boundary_solution (fm B) (fv g) (fv d) (fv z) (Fin delta) = Fin t
        /\ rnorm (radd z (rscale t d)) = delta
        /\ forall t', rnorm (radd z (rscale t' d)) <= delta -> q (radd z (rscale t d)) <= q (radd z (rscale t' d)).
    Proof.
      intros Hx. pose proof Inv as Inv'. destruct Inv'. pose proof d_nonzero as Nd.
      assert (Hzz : rdot z z < delta * delta) by (apply rnorm_lt in ci_in0; lra).
      assert (Hdisc : 0 <= 2 * rdot z d * (2 * rdot z d) - 4 * rdot d d * (rdot z z - delta * delta)).
      { apply nonzero_dot in Nd. nra. }
      exists (tbest B g d z delta).
      assert (Hb : rnorm (radd z (rscale (tbest B g d z delta) d)) = delta).
      { unfold rnorm. replace (rdot _ _) with (delta * delta) by (symmetry; apply (tbest_feasible n); auto). apply sqrt_square. lra. }
      split; [apply (boundary_run n); auto|]. split; [exact Hb|].
      intros t' Ht'.
      pose proof (tau_optimal n B g d z delta HB HS Hg ci_d0 ci_z0 Hd Nd Hdisc (or_introl Hzz) t' Ht') as Ho.
      unfold tau in Ho. destruct (inner_test B g d z delta) eqn:Ei; [|exact Ho].
      unfold inner_test in Ei. apply andb_true_iff in Ei as [E1 E2].
      destruct (Rltb_spec 0 (qa B d)) as [Hq|]; [|discriminate]. unfold qa in Hq. fold c in Hq.
      assert (Em : minq B g d z = alpha).
      { unfold minq, qb, qa, alpha. rewrite slope. fold c. field. lra. }
      rewrite Em in *. rewrite (point_comm n) in E2 by auto. fold zp in E2.
      destruct (Rleb_spec (rnorm zp) delta) as [E3|]; [|discriminate].
      destruct Hx as [Hx|Hx]; [lra|].
      assert (Ez : rnorm zp = delta) by lra.
      eapply Rle_trans; [|exact Ho]. apply (tbest_root_min n B g d z delta); auto.
      fold zp. rewrite <- rnorm_sq, Ez. reflexivity.
    Qed.
    Hypothesis Hc : 0 < c.
    Lemma alpha_pos : 0 < alpha. Proof. destruct Inv. now apply Rdiv_lt_0_compat. Qed.
    Lemma form_rp e : length e = n -> rdot e rp = rdot e r + alpha * rform B e d.
    Proof. intros Le. destruct Inv. unfold rp. rewrite rdot_radd_r, rdot_rscale_r; [reflexivity|]. rewrite rscale_length, mv_len. auto. Qed.
    Lemma form_dp e : length e = n -> rform B e dp = - rform B e rp + beta * rform B e d.
    Proof. intros Le. pose proof rp_len. destruct Inv. unfold dp. rewrite rform_radd_r by rlen. rewrite !rform_rscale_r. ring. Qed.
    Lemma rp_orth v : In v (r :: rs) -> rdot rp v = 0.
    Proof.
      pose proof alpha_pos as Ap. pose proof Inv as Inv'. destruct Inv'. intros Hv.
      assert (Lv : length v = n). { destruct Hv as [<-|Hv]; auto. rewrite Forall_forall in ci_rs0. auto. }
      rewrite rdot_comm, form_rp by auto. destruct Hv as [<-|Hv].
      - rewrite (rform_sym n B r d) by auto. rewrite ci_span0 by auto. fold c. unfold alpha. field. lra.
      - rewrite (rform_sym n B v d) by auto. rewrite (ci_spans0 v Hv d) by auto.
        destruct ci_fam0 as [F _]. destruct (In_nth rs v [] Hv) as (i & Hi & <-).
        specialize (F (S i) 0%nat). cbn [nth length] in F. rewrite F by lia. ring.
    Qed.
    Lemma rp_d : rdot rp d = 0.
    Proof. destruct Inv. rewrite rdot_comm, form_rp by auto. fold c. rewrite rdot_comm, ci_desc0. unfold alpha. field. lra. Qed.
    Lemma dp_d : rform B dp d = 0.
    Proof.
      pose proof alpha_pos as Ap. pose proof rp_len as Lr. pose proof dp_len as Ld. pose proof Inv as Inv'. destruct Inv'.
      rewrite (rform_sym n B dp d), form_dp by auto. fold c.
      assert (E : rdot rp rp = alpha * rform B rp d).
      { rewrite (form_rp rp) by auto. rewrite (rp_orth r) by now left. ring. }
      rewrite (rform_sym n B d rp) by auto. replace (rform B rp d) with (rdot rp rp / alpha) by (rewrite E; field; lra).
      unfold beta, alpha. field. lra.
    Qed.

    Lemma next_inv : rnorm zp < delta -> 0 < rdot rp rp -> cginv (r :: rs) (d :: ds) zp rp dp.
    Proof.
      intros Hin Hrp. pose proof alpha_pos as Ap. pose proof rp_len as Lr. pose proof dp_len as Ld. pose proof zp_len as Lz.
      pose proof Inv as Inv'. destruct Inv'. constructor; auto.
      - unfold zp, rp. rewrite ci_res0, rmv_radd, rmv_rscale by rlen. pose proof (mv_len z) as L1. pose proof (mv_len d) as L2.
        apply rvec_ext; [rlen|]. intros i. rewrite !nth_radd by rlen. ring.
      - apply fam_cons; auto. intros v Hv. now apply rp_orth.
      - intros p [<-|Hp]; [apply dp_d|].
        assert (Lp : length p = n) by (rewrite Forall_forall in ci_ds0; auto).
        rewrite (rform_sym n B dp p), form_dp by auto. rewrite (rform_sym n B p rp), (rform_sym n B p d) by auto.
        rewrite (ci_conj0 p Hp), (ci_img0 p Hp rp Lr); [ring|]. intros v Hv. now apply rp_orth.
      - intros e Le He'. rewrite form_dp by auto. rewrite (He' d) by now left. ring.
      - intros v [<-|Hv] e Le He'.
        + rewrite ci_span0; auto. rewrite (He' d) by now left. ring. intros p Hp. apply He'. now right.
        + apply (ci_spans0 v Hv); auto. intros p Hp. apply He'. now right.
      - intros p [<-|Hp] e Le He'.
        + assert (E : rdot e rp = rdot e r + alpha * rform B e d) by now apply form_rp.
          rewrite (He' rp), (He' r) in E by (simpl; auto). apply Rmult_eq_reg_l with alpha; lra.
        + apply (ci_img0 p Hp e Le). intros v Hv. apply He'. now right.
      - unfold dp. rewrite rdot_radd_r by rlen. rewrite !rdot_rscale_r, rp_d. ring.
    Qed.
  End Pass.

  (** the loop from any such state: enough fuel for the remaining dimensions *)
  Lemma cg_loop_result : forall k rs ds z r d, cginv rs ds z r d -> (n <= length rs + k)%nat ->
    exists u t z', cg_loop k (fm B) (fv g) (Fin delta) (Fin eps) (fv z) (fv r) (fv d) = Ok (fm [u], fv [t], fv (rscale t u), fv z')
      /\ length u = n /\ length z' = n
      /\ rnorm z' <= delta /\ rnorm (radd z' (rscale t u)) <= delta
      /\ forall t', rnorm (radd z (rscale t' d)) <= delta -> q (radd z' (rscale t u)) <= q (radd z (rscale t' d)).
  Proof.
    induction k; intros rs ds z r d Inv Hk.
    - exfalso. pose proof Inv as Inv'. destruct Inv'.
      assert (S (length rs) <= n)%nat; [|lia]. apply (orthogonal_card (S (length rs)) n (r :: rs)); auto.
      split; [reflexivity|]. constructor; auto.
    - pose proof Inv as Inv'. destruct Inv'. cbn [cg_loop]. cbv zeta.
      rewrite h_matvec, !h_dot. fold (rform B d d). set (c := rform B d d).
      assert (Lin : forall t u, length u = n -> lincomb (length (fv g)) (fv [t]) (fm [u]) = fv (rscale t u)).
      { intros t u Lu. rewrite fv_length, Hg, h_lincomb. f_equal. cbn [rlincomb].
        apply rvec_ext; [assert (length (rzeros n) = n) by apply repeat_length; rlen|]. intros i.
        rewrite nth_radd, nth_rzeros by (rewrite rscale_length; unfold rzeros; now rewrite repeat_length). ring. }
      assert (Bd : c <= 0 \/ delta <= rnorm (radd z (rscale (rdot r r / c) d)) ->
        exists u t z', Ok ([fv d], [(get_1d_trust_region_boundary_solution (fm B) (fv g) (fv d) (fv z) (Fin delta) * n1)%num],
           lincomb (length (fv g)) [(get_1d_trust_region_boundary_solution (fm B) (fv g) (fv d) (fv z) (Fin delta) * n1)%num] [fv d], fv z)
           = Ok (fm [u], fv [t], fv (rscale t u), fv z')
        /\ length u = n /\ length z' = n /\ rnorm z' <= delta /\ rnorm (radd z' (rscale t u)) <= delta
        /\ forall t', rnorm (radd z (rscale t' d)) <= delta -> q (radd z' (rscale t u)) <= q (radd z (rscale t' d))).
      { intros Hx. destruct (boundary_exit rs ds z r d Inv Hx) as (t & Et & Hb & Ho). exists d, t, z. rewrite Et.
        assert (E1 : (Fin t * n1)%num = Fin t) by (cbn [nmul ERNum n1 nofZ er_mul]; f_equal; ring). rewrite E1.
        change [Fin t] with (fv [t]). change [fv d] with (fm [d]). rewrite Lin by auto. split; [reflexivity|]. repeat split; auto; lra. }
      cbn [nleb ERNum n0 nofZ er_leb]. destruct (Rleb_spec c 0) as [Hc|Hc]; cbn [orb]; [now apply Bd; left|].
      assert (Ea : (Fin (rdot r r) / Fin c)%num = Fin (rdot r r / c)).
      { cbn [ndiv ERNum er_div]. destruct (Reqb_spec c 0); [lra|reflexivity]. }
      rewrite !Ea, !h_vscale, !h_vadd, h_norm. cbn [er_leb].
      set (alpha := rdot r r / c) in *. set (zp := radd z (rscale alpha d)) in *.
      destruct (Rleb_spec delta (rnorm zp)) as [Hz|Hz]; [now apply Bd; right|]. clear Bd.
      assert (Hc' : 0 < rform B d d) by (fold c; lra). assert (Hz' : rnorm zp < delta) by lra.
      rewrite h_dot. set (rp := radd r (rscale alpha (rmv B d))).
      cbn [nsqrt ERNum er_sqrt]. pose proof (rdot_self_nonneg rp) as Nr. destruct (Rltb_spec (rdot rp rp) 0) as [|_]; [lra|].
      cbn [nltb ERNum er_ltb]. pose proof (zp_len rs ds z r d Inv) as Lzp. fold c alpha zp in Lzp.
      destruct (Rltb_spec (sqrt (rdot rp rp)) eps) as [Hs|Hs].
      + rewrite h_normalize, !h_dot.
        set (dn := if Rltb 0 (rnorm d) then rscale (/ rnorm d) d else d).
        assert (Ldn : length dn = n) by (unfold dn; destruct (Rltb 0 (rnorm d)); rlen).
        assert (E1 : (Fin (rdot zp dn) * n1)%num = Fin (rdot zp dn)) by (cbn [nmul ERNum n1 nofZ er_mul]; f_equal; ring). rewrite !E1.
        change [Fin (rdot zp dn)] with (fv [rdot zp dn]). change [fv dn] with (fm [dn]). rewrite Lin by auto. rewrite h_vsub.
        exists dn, (rdot zp dn), (rsub zp (rscale (rdot zp dn) dn)). split; [reflexivity|]. split; [auto|]. split; [rlen|].
        assert (Ep : radd (rsub zp (rscale (rdot zp dn) dn)) (rscale (rdot zp dn) dn) = zp).
        { apply rvec_ext; [rlen|]. intros i. rewrite nth_radd, nth_rsub by rlen. ring. }
        rewrite Ep. split; [|split; [lra|]].
        { eapply Rle_trans; [|apply Rlt_le, Hz']. pose proof (d_nonzero rs ds z r d Inv) as Nd. pose proof (nonzero_norm _ Nd) as Np.
          assert (Udn : rdot dn dn = 1).
          { unfold dn. destruct (Rltb_spec 0 (rnorm d)); [|lra]. rewrite rdot_rscale_l, rdot_rscale_r, <- rnorm_sq. field. lra. }
          apply rnorm_le; [apply rnorm_nonneg|]. rewrite rdot_rsub_l, !rdot_rsub_r by rlen. rewrite !rdot_rscale_l, !rdot_rscale_r, Udn, (rdot_comm dn zp).
          rewrite rnorm_sq. pose proof (Rle_0_sqr (rdot zp dn)) as Sq. unfold Rsqr in Sq. lra. }
        intros t' _. apply (zp_line rs ds z r d Inv Hc').
      + assert (Hrp : 0 < rdot rp rp).
        { destruct (Req_dec (rdot rp rp) 0) as [E0|]; [|lra]. exfalso. apply Hs. rewrite E0, sqrt_0. exact He. }
        assert (Eb : (Fin (rdot rp rp) / Fin (rdot r r))%num = Fin (rdot rp rp / rdot r r)).
        { cbn [ndiv ERNum er_div]. destruct (Reqb_spec (rdot r r) 0); [lra|reflexivity]. }
        rewrite Eb, h_vopp, h_vscale, h_vadd.
        pose proof (next_inv rs ds z r d Inv Hc' Hz' Hrp) as Inv2.
        destruct (IHk _ _ _ _ _ Inv2) as (u & t & z' & E & Lu & Lz' & Hzn & Hn & Ho).
        { simpl. lia. }
        exists u, t, z'. split; [exact E|]. repeat split; auto. intros t' Ht'.
        eapply Rle_trans; [|apply (zp_line rs ds z r d Inv Hc' t')]. fold c alpha zp.
        specialize (Ho 0).
        match type of Ho with context [radd ?a (rscale 0 ?b)] => assert (E0 : radd a (rscale 0 b) = a) end.
        { pose proof (dp_len rs ds z r d Inv) as Ldp.
          apply rvec_ext; [rlen|]. intros i. rewrite nth_radd, nth_rscale by rlen. ring. }
        rewrite E0 in Ho. apply Ho. fold c alpha zp. lra.
  Qed.
End CG.

(** The loop (steps.py:359-398) started at zero with a non-zero gradient: n passes suffice; the point found lies in the
    ball, is strictly better than zero, and at least as good as every point along the gradient (Cauchy point). *)
Theorem C31_conjugate_gradient : forall n B g delta eps fuel,
  is_mat n n B -> symmetric B -> length g = n -> nonzero g -> 0 < delta -> 0 < eps -> (n <= fuel)%nat ->
  exists u t z,
    cg_loop fuel (fm B) (fv g) (Fin delta) (Fin eps) (fv (rzeros n)) (fv g) (vopp (fv g)) = Ok (fm [u], fv [t], fv (rscale t u), fv z)
    /\ length u = n /\ length z = n
    /\ rnorm z <= delta /\ rnorm (radd z (rscale t u)) <= delta
    /\ qmodel B g (radd z (rscale t u)) < 0
    /\ forall a, rnorm (rscale a g) <= delta -> qmodel B g (radd z (rscale t u)) <= qmodel B g (rscale a g).
Proof.
  intros n B g delta eps fuel HB HS Hg Hnz Hd He Hf.
  pose proof (proj1 (nonzero_dot g) Hnz) as Hgg.
  assert (Z : length (rzeros n) = n) by apply repeat_length.
  assert (Zn : rnorm (rzeros n) = 0) by (unfold rnorm; rewrite rdot_zeros_l; apply sqrt_0).
  assert (Zv : rmv B (rzeros n) = rzeros n).
  { apply rvec_ext; [rewrite rmv_length, Z; apply HB|]. intros i. rewrite nth_rmv, rdot_zeros_r, nth_rzeros. reflexivity. }
  assert (Inv : cginv n B g delta [] [] (rzeros n) g (rscale (-1) g)).
  { constructor.
    - exact Z.
    - exact Hg.
    - rlen.
    - constructor.
    - constructor.
    - lra.
    - rewrite Zv. apply rvec_ext; [rlen|]. intros i. rewrite nth_radd, nth_rzeros by rlen. ring.
    - exact Hgg.
    - split; [intros [|i] [|j] Hi Hj; simpl in *; lia|]. intros [|i] Hi; simpl in *; [auto|lia].
    - intros ? [].
    - intros e Le _. rewrite rform_rscale_r. ring.
    - intros ? [].
    - intros ? [].
    - rewrite rdot_rscale_r. ring. }
  destruct (cg_loop_result n B g delta eps HB HS Hg Hd He fuel _ _ _ _ _ Inv) as (u & t & z & E & Lu & Lz & Hzn & Hn & Ho); [simpl; lia|].
  exists u, t, z. rewrite h_vopp. split; [exact E|]. repeat split; auto.
  - destruct (line_better n B g delta HB HS Hg _ _ _ _ _ Inv) as (t' & H1 & H2).
    apply Ho in H1. eapply Rle_lt_trans; [exact H1|]. eapply Rlt_le_trans; [exact H2|].
    unfold qmodel, rform. rewrite rdot_zeros_l, rdot_zeros_r. lra.
  - intros a Ha. assert (Ea : radd (rzeros n) (rscale (- a) (rscale (-1) g)) = rscale a g).
    { apply rvec_ext; [rlen|]. intros i. rewrite nth_radd, !nth_rscale, nth_rzeros by rlen. ring. }
    rewrite <- Ea in *. now apply Ho.
Qed.

Example C31_ex : exists u t z,
  cg_loop 2 (fm [[2; 1]; [1; 2]]) (fv [1; 0]) (Fin 3) (Fin (/ 2)) (fv (rzeros 2)) (fv [1; 0]) (vopp (fv [1; 0])) = Ok (fm [u], fv [t], fv (rscale t u), fv z)
  /\ rnorm (radd z (rscale t u)) <= 3 /\ qmodel [[2; 1]; [1; 2]] [1; 0] (radd z (rscale t u)) < 0.
Proof.
  destruct (C31_conjugate_gradient 2 [[2; 1]; [1; 2]] [1; 0] 3 (/ 2) 2) as (u & t & z & E & _ & _ & _ & H1 & H2 & _); try lra; auto.
  - split; [reflexivity|]. repeat constructor.
  - intros i j. unfold entry. destruct i as [|[|[|i]]], j as [|[|[|j]]]; reflexivity.
  - exists 0%nat. simpl. lra.
  - exists u, t, z. auto.
Qed.

Section CGStep.
  Variables (O : StepOracles ER) (n : nat) (x g : rvec) (H : rmat) (D dv : rvec) (delta theta : R) (lb ub : list ER).
  Hypothesis P : problem n x g H D dv delta theta lb ub.
  Local Notation A := (rA x g H D dv delta theta lb ub).
  Local Notation B := (rB n g H D dv).
  Local Notation sg := (rsg g D).

  Lemma cg_eps : nonzero g -> exists eps, 0 < eps < rnorm sg /\ (pymin nhalf (nsqrt (norm (a_sg A))) * norm (a_sg A))%num = Fin eps.
  Proof.
    intros Hnz. pose proof (nonzero_norm _ (rsg_nonzero n x g H D dv delta theta lb ub P Hnz)) as Np.
    rewrite rA_sg, h_norm, half_fin. cbn [nsqrt ERNum er_sqrt]. destruct (Rltb_spec (rnorm sg) 0); [lra|].
    unfold pymin. cbn [nltb ERNum er_ltb]. pose proof (sqrt_lt_R0 _ Np).
    destruct (Rltb_spec (sqrt (rnorm sg)) (/ 2)); eexists; (split; [|reflexivity]); nra.
  Qed.

  (** The whole scg step for a problem with non-zero gradient: it is found, before step-back it lies in the trust region
      and decreases the model at least as much as any point along the scaled gradient *)
  Theorem C31_step : nonzero g -> (n <= so_cgfuel O)%nat ->
    exists c u t z, cg_step O A = Ok c
      /\ stepped (new_step "cgs" A (fv x) (fm [u]) (zeros_of A) (fv z) [] [] None None)
           (fv (rmul D (radd (rscale t u) z))) (fv (rscale t u)) (fv [t]) c
      /\ length u = n /\ length z = n
      /\ rnorm z <= delta /\ rnorm (radd (rscale t u) z) <= delta
      /\ qmodel B sg (radd (rscale t u) z) < 0
      /\ (forall a, rnorm (rscale a sg) <= delta -> qmodel B sg (radd (rscale t u) z) <= qmodel B sg (rscale a sg)).
  Proof.
    intros Hnz Hf. destruct (cg_eps Hnz) as (eps & He & Ee). pose proof P as P'. destruct P'.
    pose proof (rsg_length n x g H D dv delta theta lb ub P) as Lsg.
    destruct (C31_conjugate_gradient n B sg delta eps (so_cgfuel O)) as (u & t & z & E & Lu & Lz & Hzn & Hn & Hq & Ho); auto; try lra.
    { apply rB_mat. } { apply (rB_sym n x g H D dv delta theta lb ub P). }
    { apply (rsg_nonzero n x g H D dv delta theta lb ub P Hnz). }
    assert (Ep : radd z (rscale t u) = radd (rscale t u) z).
    { apply rvec_ext; [rlen|]. intros i. rewrite !nth_radd by rlen. ring. }
    rewrite Ep in *.
    assert (Hex : exists c, cg_step O A = Ok c).
    { unfold cg_step. cbv zeta. rewrite Ee. rewrite rA_sg, h_norm. cbn [nltb ERNum er_ltb].
      destruct (Rltb_spec (rnorm sg) eps); [lra|].
      change (st_shess (new_step "cgs" A (a_x A) [] (zeros_of A) (zeros_of A) [] [] None None)) with (shess_of (a_scaling A) (a_hess A) (a_gd A)).
      rewrite (rA_shess n x g H D dv delta theta lb ub P), (zeros_rA n x g H D dv delta theta lb ub P).
      change (a_delta A) with (Fin delta). rewrite E. eexists. reflexivity. }
    destruct Hex as (c & Hc). exists c, u, t, z. split; [exact Hc|].
    apply cg_fields in Hc as (sub & sc & ss & ss0 & s & El & Es & Hst & _).
    rewrite Ee, rA_sg, (rA_shess n x g H D dv delta theta lb ub P), (zeros_rA n x g H D dv delta theta lb ub P) in El.
    change (a_delta A) with (Fin delta) in El. rewrite E in El. injection El as <- <- <- <-.
    rewrite h_vadd in Es. change (a_scaling A) with (fv D) in Es. rewrite h_vmul in Es. subst s.
    split; [exact Hst|]. auto 8.
  Qed.
End CGStep.
