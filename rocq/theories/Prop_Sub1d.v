(** C25, C26: the one-dimensional trust-region subproblem *)
From Coq Require Import ZArith List Bool Reals Lra Lia Psatz.
From Verif Require Import Num Constants Subproblem ER NumFacts RVec.
Import ListNotations.
Local Open Scope R_scope.

Lemma h_quadratic n B g x : is_mat n n B -> length x = n ->
  quadratic_form (fm B) (fv g) (fv x) = Fin (qmodel B g x).
Proof.
  intros [LB FB] Hx. unfold quadratic_form. rewrite half_fin, fv_length, h_vecmat, !h_dot.
  cbn [nmul nadd ERNum er_mul er_add]. unfold qmodel. f_equal. f_equal. f_equal.
  rewrite rdot_comm, (rdot_rlincomb (length x)) by (rewrite Hx; exact FB). reflexivity.
Qed.

(** the model along a line *)
Lemma qmodel_line n B g s s0 t : is_mat n n B -> symmetric B -> length s = n -> length s0 = n -> length g = n ->
  qmodel B g (radd s0 (rscale t s))
  = qmodel B g s0 + t * rdot s (radd (rmv B s0) g) + t * t * (/ 2 * rform B s s).
Proof.
  intros HB HS Hs H0 Hg. unfold qmodel.
  assert (Hl : length s0 = length (rscale t s)) by rlen.
  rewrite rform_radd_l, !rform_radd_r, !rform_rscale_l, !rform_rscale_r by rlen.
  rewrite !rdot_radd_r, rdot_rscale_r by (destruct HB; rlen).
  rewrite (rform_sym n B s0 s) by auto. unfold rform at 3. rewrite (rdot_comm g s).
  unfold rform. lra.
Qed.

Lemma between t a b : (t - a) * (t - b) <= 0 -> a <= t <= b \/ b <= t <= a.
Proof.
  intros H. destruct (Rle_dec a t), (Rle_dec t b); try (left; lra).
  - right. split; [lra|]. destruct (Rle_dec t a); [lra|].
    assert (0 < (t - a) * (t - b)) by (apply Rmult_lt_0_compat; lra). lra.
    
  - assert (0 < (a - t) * (b - t) \/ b = t) as [K|K].
    { destruct (Req_dec b t); [now right|left; apply Rmult_lt_0_compat; lra]. }
    + replace ((t - a) * (t - b)) with ((a - t) * (b - t)) in H by ring. lra.
    + right. lra.
  - right. lra.
Qed.

Section Line.
  Variables (n : nat) (B : rmat) (g s s0 : rvec) (delta : R).
  Hypothesis HB : is_mat n n B.
  Hypothesis HS : symmetric B.
  Hypothesis Hg : length g = n.
  Hypothesis Hs : length s = n.
  Hypothesis H0 : length s0 = n.
  Hypothesis Hd : 0 < delta.
  Hypothesis Hns : nonzero s.
  (** the line meets the ball, and s0 is strictly inside or s is not tangential at s0; s0 may be outside *)
  Hypothesis Hdisc : 0 <= 2 * rdot s0 s * (2 * rdot s0 s) - 4 * rdot s s * (rdot s0 s0 - delta * delta).
  Hypothesis Hin : rdot s0 s0 < delta * delta \/ rdot s0 s <> 0.

  Let a := rdot s s.
  Let b := 2 * rdot s0 s.
  Let c := rdot s0 s0 - delta * delta.
  Let point t := radd s0 (rscale t s).
  Let disc := b * b - 4 * a * c.
  Let rt := sqrt disc.
  Let aux := if Rltb b 0 then b - rt else b + rt.
  Let t1 := - aux / (2 * a).
  Let t2 := - 2 * c / aux.

  Lemma a_pos : 0 < a. Proof. now apply nonzero_dot. Qed.
  Lemma point_length t : length (point t) = n. Proof. unfold point. rlen. Qed.
  Lemma point_sq t : rdot (point t) (point t) = rdot s0 s0 + t * b + t * t * a.
  Proof.
    unfold point. assert (length s0 = length (rscale t s)) by rlen.
    rewrite rdot_radd_l, !rdot_radd_r, !rdot_rscale_l, !rdot_rscale_r by auto.
    rewrite (rdot_comm s s0). unfold a, b. lra.
  Qed.
  Lemma disc_nn : 0 <= disc.
  Proof. exact Hdisc. Qed.
  Lemma rt_sq : rt * rt = disc.
  Proof. apply sqrt_sqrt, disc_nn. Qed.
  Lemma rt_nn : 0 <= rt. Proof. apply sqrt_pos. Qed.
  Lemma aux_nz : aux <> 0.
  Proof.
    unfold aux. pose proof rt_nn. pose proof rt_sq. pose proof a_pos.
    destruct (Rltb_spec b 0); [lra|].
    destruct Hin as [Hi|Hb].
    - assert (c < 0) by (unfold c; lra). unfold disc in H0.
      intros E. assert (b = 0 /\ rt = 0) as [E1 E2] by lra.
      unfold disc in *. rewrite E1, E2 in *. nra.
    - assert (b <> 0) by (unfold b; lra). lra.
  Qed.
  Lemma aux_sq : aux * aux = 2 * b * aux - 4 * a * c.
  Proof.
    unfold aux. pose proof rt_sq. unfold disc in H. destruct (Rltb_spec b 0); nra.
  Qed.
  Lemma t1_root : rdot (point t1) (point t1) = delta * delta.
  Proof.
    rewrite point_sq. pose proof a_pos. pose proof aux_sq.
    assert (E : t1 * b + t1 * t1 * a + c = 0).
    { unfold t1. replace (- aux / (2 * a) * b + - aux / (2 * a) * (- aux / (2 * a)) * a + c)
        with ((aux * aux - 2 * b * aux + 4 * a * c) / (4 * a)) by (field; lra).
      rewrite H1. field. lra. }
    unfold c in E. lra.
  Qed.
  Lemma t2_root : rdot (point t2) (point t2) = delta * delta.
  Proof.
    rewrite point_sq. pose proof a_pos. pose proof aux_sq. pose proof aux_nz.
    assert (E : t2 * b + t2 * t2 * a + c = 0).
    { unfold t2. replace (-2 * c / aux * b + -2 * c / aux * (-2 * c / aux) * a + c)
        with (c * (aux * aux - 2 * b * aux + 4 * a * c) / (aux * aux)) by (field; lra).
      rewrite H1. replace (c * (2 * b * aux - 4 * a * c - 2 * b * aux + 4 * a * c)) with 0 by lra.
      unfold Rdiv. apply Rmult_0_l. }
    unfold c in E. lra.
  Qed.
  (** feasible parameters are those between the two roots *)
  Lemma feasible_iff t : rdot (point t) (point t) <= delta * delta <-> (t - t1) * (t - t2) <= 0.
  Proof.
    pose proof a_pos. pose proof aux_nz. rewrite point_sq.
    assert (E : a * ((t - t1) * (t - t2)) = t * b + t * t * a + c).
    { pose proof aux_sq. unfold t1, t2.
      replace (a * ((t - - aux / (2 * a)) * (t - -2 * c / aux)))
        with (t * t * a + t * (aux * aux + 4 * a * c) / (2 * aux) + c) by (field; lra).
      rewrite H2. field. lra. }
    unfold c in E. split; intros H2; nra.
  Qed.

  Definition qa := / 2 * rform B s s.
  Definition qb := rdot s (radd (rmv B s0) g).
  Lemma q_line t : qmodel B g (point t) = qmodel B g s0 + t * qb + t * t * qa.
  Proof. apply (qmodel_line n); auto. Qed.

  Definition tbest := if Rltb (qmodel B g (point t2)) (qmodel B g (point t1)) then t2 else t1.
  Lemma boundary_run :
    get_1d_trust_region_boundary_solution (fm B) (fv g) (fv s) (fv s0) (Fin delta) = Fin tbest.
  Proof.
    unfold get_1d_trust_region_boundary_solution. cbv zeta.
    rewrite !h_dot, n2_fin. change (nofZ 4) with (Fin 4). unfold nsq.
    cbn [nmul nsub nadd nopp nsqrt ERNum er_mul er_sub er_add er_opp].
    unfold copysign. cbn [nsignb nabs ERNum er_signb nsqrt].
    replace (2 * rdot s0 s * (2 * rdot s0 s) + - (4 * rdot s s * (rdot s0 s0 + - (delta * delta)))) with disc
      by (unfold disc, b, a, c; lra).
    unfold er_sqrt. pose proof disc_nn. destruct (Rltb_spec disc 0); [lra|].
    change (sqrt disc) with rt. cbn [er_abs er_opp]. pose proof rt_nn. rewrite (Rabs_pos_eq rt) by auto.
    change (2 * rdot s0 s) with b.
    match goal with |- context [er_opp ?m] => assert (Ea : m = Fin aux) end.
    { unfold aux. destruct (Rltb b 0); simpl; f_equal; lra. }
    rewrite !Ea. cbn [er_opp].
    pose proof a_pos. pose proof aux_nz.
    assert (E1 : ((Fin (- aux)) / Fin (2 * rdot s s))%num = Fin t1).
    { cbn. fold a. destruct (Reqb_spec (2 * a) 0); [lra|]. reflexivity. }
    assert (E2 : (Fin (- (2) * (rdot s0 s0 + - (delta * delta))) / Fin aux)%num = Fin t2).
    { cbn. destruct (Reqb_spec aux 0); [contradiction|]. reflexivity. }
    rewrite E1, E2. cbn [map]. rewrite !h_vscale, !h_vadd.
    rewrite !(h_quadratic n) by (auto using point_length; apply point_length).
    fold (point t1). fold (point t2).
    unfold argmin, argmin_from. cbn [nisnan ERNum er_isnan negb andb orb nltb er_ltb].
    unfold tbest. destruct (Rltb (qmodel B g (point t2)) (qmodel B g (point t1))); reflexivity.
  Qed.
  Lemma tbest_feasible : rdot (point tbest) (point tbest) = delta * delta.
  Proof. unfold tbest. destruct (Rltb_spec (qmodel B g (point t2)) (qmodel B g (point t1))); [apply t2_root|apply t1_root]. Qed.
  Lemma tbest_min : qmodel B g (point tbest) <= qmodel B g (point t1)
                    /\ qmodel B g (point tbest) <= qmodel B g (point t2).
  Proof. unfold tbest. destruct (Rltb_spec (qmodel B g (point t2)) (qmodel B g (point t1))); lra. Qed.

  (** the best boundary point *)
  Lemma tbest_root_min t : rdot (point t) (point t) = delta * delta -> qmodel B g (point tbest) <= qmodel B g (point t).
  Proof.
    intros Ht. pose proof a_pos as Ap. pose proof aux_nz as Az. rewrite point_sq in Ht.
    assert (E : a * ((t - t1) * (t - t2)) = t * b + t * t * a + c).
    { pose proof aux_sq as Aq. unfold t1, t2.
      replace (a * ((t - - aux / (2 * a)) * (t - -2 * c / aux)))
        with (t * t * a + t * (aux * aux + 4 * a * c) / (2 * aux) + c) by (field; lra).
      rewrite Aq. field. lra. }
    assert (E0 : a * ((t - t1) * (t - t2)) = 0) by (rewrite E; unfold c; lra).
    apply Rmult_integral in E0 as [E0|E0]; [lra|]. destruct tbest_min as [M1 M2].
    apply Rmult_integral in E0 as [E0|E0]; [replace t with t1 by lra; exact M1|replace t with t2 by lra; exact M2].
  Qed.

  Definition minq := - qb / (2 * qa).
  Definition inner_test := Rltb 0 qa && Rleb (rnorm (radd (rscale minq s) s0)) delta.
  Definition tau := if inner_test then minq else tbest.
  Lemma solve_run : solve_1d_trust_region_subproblem (fm B) (fv g) (fv s) (Fin delta) (fv s0) = [Fin tau].
  Proof.
    unfold solve_1d_trust_region_subproblem. cbn [neqb ERNum er_eqb n0 nofZ].
    destruct (Reqb_spec delta 0); [lra|].
    rewrite (proj2 (h_all_zero_false s) Hns). cbv zeta.
    rewrite !h_matvec, h_vadd, !h_dot, half_fin, n2_fin, boundary_run.
    cbn [nmul nopp nadd ERNum er_mul er_opp nltb er_ltb n1 nofZ].
    replace (/ 2 * rdot (rmv B s) s) with qa by (unfold qa, rform; now rewrite (rdot_comm s)).
    change (rdot s (radd (rmv B s0) g)) with qb.
    assert (E : ((Fin 0 <? Fin qa) && (norm (vadd (vscale ((Fin (- qb)) / Fin (2 * qa)) (fv s)) (fv s0)) <=? Fin delta)
               = inner_test)%num).
    { unfold inner_test. cbn [nltb ERNum er_ltb]. destruct (Rltb_spec 0 qa); [|reflexivity].
      assert (Em : (Fin (- qb) / Fin (2 * qa))%num = Fin minq).
      { cbn. destruct (Reqb_spec (2 * qa) 0); [lra|]. reflexivity. }
      rewrite Em, h_vscale, h_vadd, h_norm. reflexivity. }
    cbn [nltb ERNum er_ltb] in E. rewrite E. unfold tau. unfold inner_test.
    destruct (Rltb_spec 0 qa); cbn [andb].
    - destruct (Rleb _ _).
      + cbn. destruct (Reqb_spec (2 * qa) 0); [lra|]. cbn. unfold minq. do 2 f_equal. lra.
      + cbn. do 2 f_equal. lra.
    - cbn. do 2 f_equal. lra.
  Qed.
  Lemma point_comm t : radd (rscale t s) s0 = point t.
  Proof.
    unfold point. apply rvec_ext; [rlen|]. intros i. rewrite !nth_radd by rlen. lra.
  Qed.
  Lemma tau_feasible : rnorm (point tau) <= delta.
  Proof.
    unfold tau, inner_test. rewrite point_comm.
    destruct (Rltb_spec 0 qa); cbn [andb]; [destruct (Rleb_spec (rnorm (point minq)) delta); auto|];
      apply rnorm_le; try lra; rewrite tbest_feasible; lra.
  Qed.
  Lemma tau_optimal t : rnorm (point t) <= delta -> qmodel B g (point tau) <= qmodel B g (point t).
  Proof.
    intros Ht. apply rnorm_le in Ht; [|lra]. apply feasible_iff in Ht.
    destruct tbest_min as [M1 M2].
    unfold tau, inner_test. rewrite point_comm.
    assert (Hout : qa <= 0 -> qmodel B g (point tbest) <= qmodel B g (point t)).
    { intros Ha. rewrite (q_line t). rewrite (q_line t1) in M1. rewrite (q_line t2) in M2.
      set (m := qmodel B g (point tbest)) in *. set (q0 := qmodel B g s0) in *.
      destruct (Req_dec t1 t2) as [E|E].
      - assert (t = t1) by nra. subst t. exact M1.
      - (* concave: interpolate *)
        assert (Hc : (q0 + t * qb + t * t * qa - m) * (t2 - t1) * (t2 - t1) >= 0).
        { replace ((q0 + t * qb + t * t * qa - m) * (t2 - t1) * (t2 - t1))
            with (((t2 - t) * (t2 - t1)) * (q0 + t1 * qb + t1 * t1 * qa - m)
                  + ((t - t1) * (t2 - t1)) * (q0 + t2 * qb + t2 * t2 * qa - m)
                  + (- qa) * (- ((t - t1) * (t - t2))) * ((t2 - t1) * (t2 - t1))) by ring.
          assert (0 <= (t2 - t) * (t2 - t1)).
          { destruct (between _ _ _ Ht); [apply Rmult_le_pos; lra|].
            replace ((t2 - t) * (t2 - t1)) with ((t - t2) * (t1 - t2)) by ring. apply Rmult_le_pos; lra. }
          assert (0 <= (t - t1) * (t2 - t1)).
          { destruct (between _ _ _ Ht); [apply Rmult_le_pos; lra|].
            replace ((t - t1) * (t2 - t1)) with ((t1 - t) * (t1 - t2)) by ring. apply Rmult_le_pos; lra. }
          assert (0 <= (t2 - t1) * (t2 - t1)) by nra.
          assert (0 <= (- qa) * (- ((t - t1) * (t - t2)))) by (apply Rmult_le_pos; lra).
          assert (0 <= ((t2 - t) * (t2 - t1)) * (q0 + t1 * qb + t1 * t1 * qa - m)) by (apply Rmult_le_pos; lra).
          assert (0 <= ((t - t1) * (t2 - t1)) * (q0 + t2 * qb + t2 * t2 * qa - m)) by (apply Rmult_le_pos; lra).
          assert (0 <= (- qa) * (- ((t - t1) * (t - t2))) * ((t2 - t1) * (t2 - t1))) by (apply Rmult_le_pos; lra).
          lra. }
        assert (0 < (t2 - t1) * (t2 - t1)) by (apply Rsqr_pos_lt; lra).
        destruct (Rle_dec m (q0 + t * qb + t * t * qa)) as [|Hn]; auto. exfalso.
        assert (0 < (m - (q0 + t * qb + t * t * qa)) * ((t2 - t1) * (t2 - t1))) by (apply Rmult_lt_0_compat; lra).
        lra. }
    destruct (Rltb_spec 0 qa) as [Ha|Ha]; cbn [andb]; [|apply Hout; lra].
    destruct (Rleb_spec (rnorm (point minq)) delta) as [Hm|Hm].
    - rewrite !q_line. unfold minq.
      assert (E : t * qb + t * t * qa - (- qb / (2 * qa) * qb + - qb / (2 * qa) * (- qb / (2 * qa)) * qa)
                  = qa * ((t + qb / (2 * qa)) * (t + qb / (2 * qa)))) by (field; lra).
      assert (0 <= qa * ((t + qb / (2 * qa)) * (t + qb / (2 * qa)))).
      { apply Rmult_le_pos; [lra|apply Rle_0_sqr]. }
      lra.
    - (* convex with vertex outside: the nearer root is optimal *)
      assert (Hv : 0 < (minq - t1) * (minq - t2)).
      { destruct (Rle_dec ((minq - t1) * (minq - t2)) 0) as [H1|H1]; [|lra]. exfalso.
        apply feasible_iff in H1. apply rnorm_le in H1; [|lra]. contradiction. }
      rewrite (q_line t). rewrite (q_line t1) in M1. rewrite (q_line t2) in M2.
      assert (Eb : qb = - 2 * qa * minq) by (unfold minq; field; lra).
      set (m := qmodel B g (point tbest)) in *. set (q0 := qmodel B g s0) in *. rewrite Eb in *.
      (* q(t) - q(ti) = qa ((t - minq)^2 - (ti - minq)^2) *)
      assert (G : (t1 - minq) * (t1 - minq) <= (t - minq) * (t - minq)
                  \/ (t2 - minq) * (t2 - minq) <= (t - minq) * (t - minq)).
      { assert (SQ : forall u v, 0 <= u -> u <= v -> u * u <= v * v) by (intros; nra).
        assert (SQ' : forall u v, u <= 0 -> v <= u -> u * u <= v * v) by (intros; nra).
        assert (V : (minq < t1 /\ minq < t2) \/ (t1 < minq /\ t2 < minq)).
        { destruct (Rlt_dec minq t1), (Rlt_dec minq t2); [left; lra| | |].
          - exfalso. assert (0 <= (t1 - minq) * (minq - t2)) by (apply Rmult_le_pos; lra). lra.
          - exfalso. assert (0 <= (minq - t1) * (t2 - minq)) by (apply Rmult_le_pos; lra). lra.
          - right. split; [destruct (Req_dec minq t1) as [Q|Q]|destruct (Req_dec minq t2) as [Q|Q]]; try lra;
              exfalso; rewrite Q in Hv; revert Hv; rewrite Rminus_eq_0; lra. }
        destruct V as [V|V]; destruct (between _ _ _ Ht).
        - left. apply SQ; lra.
        - right. apply SQ; lra.
        - right. apply SQ'; lra.
        - left. apply SQ'; lra. }
      destruct G as [G|G].
      + apply Rle_trans with (1 := M1).
        assert (qa * ((t1 - minq) * (t1 - minq)) <= qa * ((t - minq) * (t - minq))) by (apply Rmult_le_compat_l; lra). nra.
      + apply Rle_trans with (1 := M2).
        assert (qa * ((t2 - minq) * (t2 - minq)) <= qa * ((t - minq) * (t - minq))) by (apply Rmult_le_compat_l; lra). nra.
  Qed.
End Line.

(** The returned step length is a number, keeps the point in the trust region and minimizes the
    quadratic model among all step lengths that do.  The start may be strictly inside the region, or on
    its boundary if the direction is not tangential there. *)
Theorem C25_exact_line_minimizer : forall n B g s s0 delta,
  is_mat n n B -> symmetric B -> length g = n -> length s = n -> length s0 = n ->
  0 < delta -> nonzero s ->
  (rnorm s0 < delta \/ rnorm s0 = delta /\ rdot s0 s <> 0) ->
  exists tau, solve_1d_trust_region_subproblem (fm B) (fv g) (fv s) (Fin delta) (fv s0) = [Fin tau]
    /\ rnorm (radd s0 (rscale tau s)) <= delta
    /\ forall t, rnorm (radd s0 (rscale t s)) <= delta ->
         qmodel B g (radd s0 (rscale tau s)) <= qmodel B g (radd s0 (rscale t s)).
Proof.
  intros n B g s s0 delta HB HS Hg Hs H0 Hd Hns Hin.
  assert (Hin' : rdot s0 s0 < delta * delta \/ rdot s0 s <> 0).
  { destruct Hin as [Hin|[Hin Hne]]; [|now right]. left. apply rnorm_lt in Hin; lra. }
  assert (Hdisc : 0 <= 2 * rdot s0 s * (2 * rdot s0 s) - 4 * rdot s s * (rdot s0 s0 - delta * delta)).
  { assert (rdot s0 s0 <= delta * delta) by (destruct Hin as [K|[K _]]; rewrite <- (rnorm_sq s0); pose proof (rnorm_nonneg s0); nra).
    apply nonzero_dot in Hns. assert (0 <= 2 * rdot s0 s * (2 * rdot s0 s)) by nra. nra. }
  exists (tau B g s s0 delta). split; [|split].
  - now apply (solve_run n).
  - now apply (tau_feasible n).
  - intros t Ht. now apply (tau_optimal n).
Qed.
(** degenerate calls return a zero step *)
Theorem C25_degenerate : forall b g s delta s0,
  delta = 0 \/ ~ nonzero s ->
  solve_1d_trust_region_subproblem b g (fv s) (Fin delta) s0 = [Fin 0].
Proof.
  intros b g s delta s0 H. unfold solve_1d_trust_region_subproblem.
  cbn [neqb ERNum er_eqb n0 nofZ]. destruct (Reqb_spec delta 0) as [->|Hd].
  - cbn. do 2 f_equal. lra.
  - destruct H as [H|H]; [contradiction|].
    destruct (vall_zero (fv s)) eqn:E; [reflexivity|]. apply h_all_zero_false in E. contradiction.
Qed.
Example C25_ex : let B := [[-1; 0]; [0; 2]] in let s0 := [/ 2; 0] in let s := [1; 1] in
  is_mat 2 2 B /\ symmetric B /\ nonzero s /\ rnorm s0 < 1.
Proof.
  cbv zeta. split; [split; [reflexivity|repeat constructor]|].
  split; [intros [|[|[|i]]] [|[|[|j]]]; reflexivity|]. split; [exists 0%nat; simpl; lra|].
  apply rnorm_lt; [lra|]. unfold rdot; simpl. lra.
Qed.

(** C26 is false: start on the boundary, direction tangential, and the code divides 0 by 0.
    Whenever the inner minimizer is not taken the result is NaN *)
Theorem C26_tangential_is_NaN : forall n B g s s0 delta,
  is_mat n n B -> length g = n -> length s = n -> length s0 = n ->
  0 < delta -> nonzero s -> rnorm s0 = delta -> rdot s0 s = 0 ->
  rform B s s <= 0 ->
  solve_1d_trust_region_subproblem (fm B) (fv g) (fv s) (Fin delta) (fv s0) = [NaN].
Proof.
  intros n B g s s0 delta HB Hg Hs H0 Hd Hns Hn Ho Hc.
  assert (Hss : 0 < rdot s s) by now apply nonzero_dot.
  unfold solve_1d_trust_region_subproblem. cbn [neqb ERNum er_eqb n0 nofZ].
  destruct (Reqb_spec delta 0); [lra|]. rewrite (proj2 (h_all_zero_false s) Hns). cbv zeta.
  rewrite !h_matvec, h_vadd, !h_dot, half_fin, n2_fin.
  cbn [nmul nopp nadd ERNum er_mul er_opp nltb er_ltb n1 nofZ].
  destruct (Rltb_spec 0 (/ 2 * rdot (rmv B s) s)) as [Hx|Hx].
  { exfalso. unfold rform in Hc. rewrite rdot_comm in Hc. lra. }
  cbn [andb].
  assert (E : get_1d_trust_region_boundary_solution (fm B) (fv g) (fv s) (fv s0) (Fin delta) = NaN).
  { unfold get_1d_trust_region_boundary_solution. cbv zeta.
    rewrite !h_dot, n2_fin, Ho. change (nofZ 4) with (Fin 4). unfold nsq.
    assert (Edd : rdot s0 s0 = delta * delta) by (rewrite <- (rnorm_sq s0), Hn; reflexivity). rewrite Edd.
    cbn [nmul nsub nadd nopp nsqrt ERNum er_mul er_sub er_add er_opp].
    unfold copysign. cbn [nsignb nabs ERNum er_signb nsqrt].
    replace (2 * 0 * (2 * 0) + - (4 * rdot s s * (delta * delta + - (delta * delta)))) with 0 by lra.
    replace (2 * 0) with 0 by lra. unfold er_sqrt. destruct (Rltb_spec 0 0); [lra|].
    rewrite sqrt_0. cbn [er_abs er_opp]. rewrite Rabs_R0. cbn [nadd ERNum er_add er_opp].
    replace (- (0 + 0)) with 0 by lra. replace (0 + 0) with 0 by lra.
    replace (- (2) * (delta * delta + - (delta * delta))) with 0 by lra.
    assert (E1 : (Fin 0 / Fin (2 * rdot s s))%num = Fin 0).
    { cbn. destruct (Reqb_spec (2 * rdot s s) 0); [lra|]. f_equal. unfold Rdiv. lra. }
    assert (E2 : (Fin 0 / Fin 0)%num = NaN).
    { cbn. destruct (Reqb_spec 0 0); [|lra]. unfold er_infmul. destruct (Rltb_spec 0 0); [lra|]. reflexivity. }
    rewrite E1, E2. cbn [map]. rewrite h_vscale, h_vadd, (h_quadratic n) by (auto; rlen).
    assert (Eq : quadratic_form (fm B) (fv g) (vadd (fv s0) (vscale (NaN) (fv s))) = NaN).
    { destruct s as [|u s]; [destruct Hns as [i Hi]; destruct i; simpl in Hi; lra|].
      destruct s0 as [|u0 s0]; [simpl in *; congruence|].
      unfold quadratic_form. rewrite half_fin.
      cbn [fv map vscale vadd map2]. cbn [nadd ERNum er_add nmul er_mul].
      unfold dot at 1. cbn [map2 vsum].
      match goal with |- er_add _ ?y = NaN => assert (Hy : y = NaN) end.
      { destruct g as [|u1 g]; [simpl in *; congruence|].
        unfold dot. cbn [fv map map2 vsum fold_right]. cbn [nadd nmul ERNum er_mul er_add]. reflexivity. }
      rewrite Hy. match goal with |- er_add ?z NaN = NaN => destruct z; reflexivity end. }
    rewrite Eq. reflexivity. }
  rewrite E. reflexivity.
Qed.
Theorem C26_finite_refuted : exists B g s s0 delta,
  is_mat 2 2 B /\ symmetric B /\ 0 < delta /\ nonzero s /\ rnorm s0 <= delta
  /\ vfinite (solve_1d_trust_region_subproblem (fm B) (fv g) (fv s) (Fin delta) (fv s0)) = false.
Proof.
  exists [[0; 0]; [0; 0]], [1; 1], [0; 1], [1; 0], 1.
  assert (HB : is_mat 2 2 [[0; 0]; [0; 0]]) by (split; [reflexivity|repeat constructor]).
  assert (Hns : nonzero [0; 1]) by (exists 1%nat; simpl; lra).
  assert (Hn : rnorm [1; 0] = 1).
  { unfold rnorm, rdot; simpl. replace (1 * 1 + (0 * 0 + 0)) with 1 by lra. apply sqrt_1. }
  split; [exact HB|].
  split; [intros [|[|[|i]]] [|[|[|j]]]; reflexivity|]. split; [lra|]. split; [exact Hns|]. split; [lra|].
  rewrite (C26_tangential_is_NaN 2); auto; try reflexivity; try lra.
  - unfold rdot; simpl; lra.
  - unfold rform, rmv, rdot; simpl; lra.
Qed.

(** Any start point, outside the region as well: the result is NaN or the exact minimizer on the part of the line
    inside the region (which is then not empty) *)
Theorem C25_any_start : forall n B g s s0 delta,
  is_mat n n B -> symmetric B -> length g = n -> length s = n -> length s0 = n -> 0 < delta -> nonzero s ->
  solve_1d_trust_region_subproblem (fm B) (fv g) (fv s) (Fin delta) (fv s0) = [NaN]
  \/ exists tau, solve_1d_trust_region_subproblem (fm B) (fv g) (fv s) (Fin delta) (fv s0) = [Fin tau]
    /\ rnorm (radd s0 (rscale tau s)) <= delta
    /\ forall t, rnorm (radd s0 (rscale t s)) <= delta ->
         qmodel B g (radd s0 (rscale tau s)) <= qmodel B g (radd s0 (rscale t s)).
Proof.
  intros n B g s s0 delta HB HS Hg Hs H0 Hd Hns.
  assert (Hss : 0 < rdot s s) by now apply nonzero_dot.
  set (disc := 2 * rdot s0 s * (2 * rdot s0 s) - 4 * rdot s s * (rdot s0 s0 - delta * delta)).
  assert (Dec : (0 <= disc /\ (rdot s0 s0 < delta * delta \/ rdot s0 s <> 0))
                \/ disc < 0 \/ (disc = 0 /\ rdot s0 s = 0 /\ rdot s0 s0 = delta * delta)).
  { destruct (Rlt_dec disc 0) as [|Hn]; [auto|].
    destruct (Rlt_dec (rdot s0 s0) (delta * delta)) as [|Hn1]; [left; split; [lra|auto]|].
    destruct (Req_dec (rdot s0 s) 0) as [E|]; [|left; split; [lra|auto]].
    right; right. unfold disc in *. rewrite E in *. split; [nra|]. split; [auto|nra]. }
  destruct Dec as [[D1 D2]|Dec].
  { right. exists (tau B g s s0 delta). split; [|split].
    - now apply (solve_run n).
    - now apply (tau_feasible n).
    - intros t Ht. now apply (tau_optimal n). }
  (* the boundary solver returns NaN *)
  assert (E : get_1d_trust_region_boundary_solution (fm B) (fv g) (fv s) (fv s0) (Fin delta) = NaN).
  { assert (Eq : quadratic_form (fm B) (fv g) (vadd (fv s0) (vscale (NaN) (fv s))) = NaN).
    { destruct s as [|u s]; [destruct Hns as [i Hi]; destruct i; simpl in Hi; lra|].
      destruct s0 as [|u0 s0]; [simpl in *; congruence|].
      unfold quadratic_form. rewrite half_fin.
      cbn [fv map vscale vadd map2]. cbn [nadd ERNum er_add nmul er_mul].
      unfold dot at 1. cbn [map2 vsum].
      match goal with |- er_add _ ?y = NaN => assert (Hy : y = NaN) end.
      { destruct g as [|u1 g]; [simpl in *; congruence|].
        unfold dot. cbn [fv map map2 vsum fold_right]. cbn [nadd nmul ERNum er_mul er_add]. reflexivity. }
      rewrite Hy. match goal with |- er_add ?z NaN = NaN => destruct z; reflexivity end. }
    unfold get_1d_trust_region_boundary_solution. cbv zeta.
    rewrite !h_dot, n2_fin. change (nofZ 4) with (Fin 4). unfold nsq.
    cbn [nmul nsub nadd nopp nsqrt ERNum er_mul er_sub er_add er_opp].
    unfold copysign. cbn [nsignb nabs ERNum er_signb nsqrt].
    replace (2 * rdot s0 s * (2 * rdot s0 s) + - (4 * rdot s s * (rdot s0 s0 + - (delta * delta)))) with disc
      by (unfold disc; lra).
    unfold er_sqrt. destruct Dec as [D|(D & D1 & D2)].
    - destruct (Rltb_spec disc 0); [|lra].
      cbn [er_abs er_opp]. destruct (Rltb (2 * rdot s0 s) 0); cbn [nadd ERNum er_add er_opp nopp ndiv er_div]; cbn [map]; rewrite Eq; reflexivity.
    - rewrite D. destruct (Rltb_spec 0 0); [lra|]. rewrite sqrt_0, D1, D2. cbn [er_abs er_opp]. rewrite Rabs_R0.
      replace (2 * 0) with 0 by lra. destruct (Rltb_spec 0 0); [lra|]. cbn [nadd ERNum er_add er_opp].
      replace (- (0 + 0)) with 0 by lra. replace (0 + 0) with 0 by lra.
      replace (- (2) * (delta * delta + - (delta * delta))) with 0 by lra.
      assert (E1 : (Fin 0 / Fin (2 * rdot s s))%num = Fin 0).
      { cbn. destruct (Reqb_spec (2 * rdot s s) 0); [lra|]. f_equal. unfold Rdiv. lra. }
      assert (E2 : (Fin 0 / Fin 0)%num = NaN).
      { cbn. destruct (Reqb_spec 0 0); [|lra]. unfold er_infmul. destruct (Rltb_spec 0 0); [lra|]. reflexivity. }
      rewrite E1, E2. cbn [map]. rewrite h_vscale, h_vadd, (h_quadratic n) by (auto; rlen). rewrite Eq. reflexivity. }
  (* the inner minimizer *)
  unfold solve_1d_trust_region_subproblem. cbn [neqb ERNum er_eqb n0 nofZ].
  destruct (Reqb_spec delta 0); [lra|]. rewrite (proj2 (h_all_zero_false s) Hns). cbv zeta.
  rewrite !h_matvec, h_vadd, !h_dot, half_fin, n2_fin, E.
  cbn [nmul nopp nadd ERNum er_mul er_opp nltb er_ltb n1 nofZ].
  set (qb := rdot s (radd (rmv B s0) g)). set (qa := / 2 * rdot (rmv B s) s).
  destruct (Rltb_spec 0 qa) as [Ha|Ha]; cbn [andb]; [|left; reflexivity].
  assert (Em : (Fin (- qb) / Fin (2 * qa))%num = Fin (- qb / (2 * qa))).
  { cbn. destruct (Reqb_spec (2 * qa) 0); [lra|]. reflexivity. }
  rewrite Em, h_vscale, h_vadd, h_norm. cbn [nleb ERNum er_leb].
  set (m := - qb / (2 * qa)).
  destruct (Rleb_spec (rnorm (radd (rscale m s) s0)) delta) as [Hm|Hm]; [|left; reflexivity].
  right. exists m. split; [|].
  { cbn. do 2 f_equal. lra. }
  assert (Cm : radd (rscale m s) s0 = radd s0 (rscale m s)).
  { apply rvec_ext; [rlen|]. intros i. rewrite !nth_radd by rlen. lra. }
  rewrite Cm in Hm. split; [exact Hm|]. intros t _.
  rewrite !(qmodel_line n) by auto. fold qb.
  replace (/ 2 * rform B s s) with qa by (unfold qa, rform; now rewrite (rdot_comm s)).
  assert (K : qb = - (2 * qa) * m) by (unfold m; field; lra). rewrite K. clearbody qa m.
  assert (0 <= qa * ((t - m) * (t - m))) by (apply Rmult_le_pos; [lra|apply Rle_0_sqr]). lra.
Qed.
