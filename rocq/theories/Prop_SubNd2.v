(** C29: the exact extent of the n-dimensional subproblem solver.
    For a model matrix with smallest eigenvalue at most zero: when it returns a global minimizer and
    when it does not. *)
From Coq Require Import ZArith List Bool Reals Lra Lia Psatz.
From Verif Require Import Num Constants Subproblem ER NumFacts RVec Ortho Argmin SubNd Region Prop_SubNd.
Import ListNotations.
Local Open Scope R_scope.

(** a polynomial without constant term that is nowhere negative has no linear term *)
Lemma no_linear_term c0 c1 c2 c3 : (forall u, 0 <= u * (c0 + u * (c1 + u * (c2 + u * c3)))) -> c0 = 0.
Proof.
  intros H. destruct (Req_dec c0 0) as [|Hne]; auto. exfalso.
  set (K := Rabs c1 + Rabs c2 + Rabs c3 + 1 + Rabs c0).
  assert (HK : 1 <= K) by (unfold K; pose proof (Rabs_pos c1); pose proof (Rabs_pos c2); pose proof (Rabs_pos c3); pose proof (Rabs_pos c0); lra).
  set (u := - c0 / (2 * K)).
  assert (Hu : Rabs u <= / 2).
  { unfold u, Rdiv. rewrite Rabs_mult, Rabs_Ropp, (Rabs_pos_eq (/ (2 * K))).
    2:{ apply Rlt_le, Rinv_0_lt_compat. lra. }
    apply Rmult_le_reg_r with (2 * K); [lra|]. rewrite Rmult_assoc, Rinv_l by lra.
    unfold K. pose proof (Rabs_pos c1); pose proof (Rabs_pos c2); pose proof (Rabs_pos c3). lra. }
  set (t := c1 + u * (c2 + u * c3)).
  assert (Ht : Rabs t <= K).
  { unfold t. pose proof (Rabs_triang c1 (u * (c2 + u * c3))) as T1. rewrite Rabs_mult in T1.
    pose proof (Rabs_triang c2 (u * c3)) as T2. rewrite Rabs_mult in T2.
    pose proof (Rabs_pos u). pose proof (Rabs_pos c3). pose proof (Rabs_pos c2). pose proof (Rabs_pos c0).
    pose proof (Rabs_pos (c2 + u * c3)). unfold K. nra. }
  specialize (H u). fold t in H.
  assert (E : c0 = - (2 * K * u)) by (unfold u; field; lra).
  assert (Hu0 : u <> 0) by (intros E0; rewrite E0 in E; lra).
  assert (0 < u * u) by nra.
  assert (Hb : - K <= t <= K) by (revert Ht; unfold Rabs; destruct (Rcase_abs t); lra). rewrite E in H. nra.
Qed.

Section Sphere.
  Variables (n : nat) (B : rmat) (g : rvec) (delta : R).
  Hypothesis HB : is_mat n n B.
  Hypothesis HS : symmetric B.
  Hypothesis Hg : length g = n.
  Hypothesis Hd : 0 < delta.

  Lemma q_comb r t a b : length r = n -> length t = n ->
    qmodel B g (radd (rscale a r) (rscale b t))
    = / 2 * (a * a * rform B r r + 2 * (a * b) * rform B r t + b * b * rform B t t) + a * rdot g r + b * rdot g t.
  Proof using HB HS Hg.
    intros Hr Ht. unfold qmodel. assert (L : length (rscale a r) = length (rscale b t)) by rlen.
    rewrite rform_radd_l, !rform_radd_r, !rform_rscale_l, !rform_rscale_r by auto.
    rewrite (rform_sym n B t r) by auto. rewrite rdot_radd_r, !rdot_rscale_r by auto. lra.
  Qed.
  (** first-order condition on the sphere *)
  Lemma tangent_unit r t : length r = n -> length t = n -> rdot r r = delta * delta -> rdot t t = delta * delta ->
    rdot r t = 0 -> minimizes_on_ball n B g delta r -> rform B r t + rdot g t = 0.
  Proof using HB HS Hg Hd.
    intros Hr Ht Nr Nt Ho M.
    assert (E : 2 * (rform B r t + rdot g t) = 0); [|lra].
    apply (no_linear_term _ (2 * rform B t t - 2 * rform B r r - 2 * rdot g r)
             (2 * rdot g t - 2 * rform B r t) (- 2 * rdot g r)).
    intros u. pose proof (Rle_0_sqr u) as Hu. unfold Rsqr in Hu.
    assert (P : 0 < 1 + u * u) by lra.
    set (y := radd (rscale ((1 - u * u) / (1 + u * u)) r) (rscale (2 * u / (1 + u * u)) t)).
    assert (Hy : length y = n) by (unfold y; rlen).
    assert (Ny : rnorm y <= delta).
    { apply rnorm_le; [lra|]. unfold y. assert (L : length (rscale ((1 - u * u) / (1 + u * u)) r) = length (rscale (2 * u / (1 + u * u)) t)) by rlen.
      rewrite rdot_radd_l, !rdot_radd_r, !rdot_rscale_l, !rdot_rscale_r by auto.
      rewrite (rdot_comm t r), Ho, Nr, Nt. right. field. lra. }
    specialize (M y Hy Ny). unfold y in M. rewrite q_comb in M by auto.
    assert (Q : qmodel B g r = / 2 * rform B r r + rdot g r) by reflexivity. rewrite Q in M.
    match type of M with ?l <= ?h => assert (K : 0 <= (1 + u * u) * (1 + u * u) * (h - l)) end.
    { apply Rmult_le_pos; [nra|lra]. }
    eapply Rle_trans; [exact K|]. right. field. lra.
  Qed.
  Lemma tangent r t : length r = n -> length t = n -> rdot r r = delta * delta ->
    rdot r t = 0 -> minimizes_on_ball n B g delta r -> rform B r t + rdot g t = 0.
  Proof using HB HS Hg Hd.
    intros Hr Ht Nr Ho M. destruct (Req_dec (rnorm t) 0) as [Z|Z].
    - assert (Et : rdot t t = 0) by (rewrite <- rnorm_sq, Z; lra).
      assert (E : t = rscale 0 t).
      { apply (nth_ext _ _ 0 0); [rlen|]. intros i _. rewrite nth_rscale, (rdot_self_0 t Et i). lra. }
      rewrite E, rform_rscale_r, rdot_rscale_r. lra.
    - pose proof (rnorm_nonneg t) as P. set (c := delta / rnorm t).
      assert (Hc : c <> 0). { unfold c, Rdiv. apply Rmult_integral_contrapositive_currified; [lra|]. now apply Rinv_neq_0_compat. }
      assert (T : rform B r (rscale c t) + rdot g (rscale c t) = 0).
      { apply tangent_unit; auto; try rlen.
        - rewrite rdot_rscale_l, rdot_rscale_r, <- rnorm_sq. unfold c. field. auto.
        - rewrite rdot_rscale_r, Ho. lra. }
      rewrite rform_rscale_r, rdot_rscale_r in T. 
      assert (c * (rform B r t + rdot g t) = 0) by lra. nra.
  Qed.
End Sphere.

(** argmin returns the first of the minima *)
Lemma argmin_from_first : forall l bi bv i,
  argmin_from bi (Fin bv : ER) i (fv l) = bi
  \/ exists k, (k < length l)%nat /\ argmin_from bi (Fin bv : ER) i (fv l) = (i + k)%nat /\ nth k l 0 < bv
       /\ forall k', (k' < k)%nat -> nth k l 0 < nth k' l 0.
Proof.
  induction l as [|x l IH]; intros bi bv i; [now left|].
  cbn [fv map argmin_from]. cbn [nisnan ERNum er_isnan negb andb orb nltb er_ltb]. change (map Fin l) with (fv l).
  destruct (Rltb_spec x bv) as [H|H].
  - right. destruct (IH i x (S i)) as [E|(k & Hk & E & Hlt & Hf)].
    + exists 0%nat. split; [simpl; lia|]. split; [rewrite E; lia|]. split; [exact H|]. intros; lia.
    + exists (S k). split; [simpl; lia|]. split; [rewrite E; lia|]. cbn [nth]. split; [lra|].
      intros [|k'] Hk'; cbn [nth]; [lra|]. apply Hf. lia.
  - destruct (IH bi bv (S i)) as [E|(k & Hk & E & Hlt & Hf)]; [now left|]. right.
    exists (S k). split; [simpl; lia|]. split; [rewrite E; lia|]. cbn [nth]. split; [lra|].
    intros [|k'] Hk'; cbn [nth]; [lra|]. apply Hf. lia.
Qed.
Lemma argmin_first l k : (k < argmin (fv l))%nat -> nth (argmin (fv l)) l 0 < nth k l 0.
Proof.
  destruct l as [|x l]; cbn [fv map argmin]; [lia|]. change (map Fin l) with (fv l).
  destruct (argmin_from_first l 0 x 1) as [E|(j & Hj & E & Hlt & Hf)]; rewrite E; [lia|].
  change (1 + j)%nat with (S j). cbn [nth]. destruct k as [|k]; intros H; [exact Hlt|]. apply Hf. lia.
Qed.

(** *** The exact characterisation *)
(** the code's step at the left end of the bracket: Newton system for B - m I outside the lowest
    eigenspace, minus the gradient inside it ([slam] with a zero denominator divides by nothing) *)
Definition left_end_step (n : nat) (g : rvec) (vals : rvec) (vecs : list rvec) (m : R) (p : rvec) : Prop :=
  length p = n /\ forall i, (i < n)%nat ->
    (m < nth i vals 0 -> (nth i vals 0 - m) * rdot (nth i vecs []) p = - rdot (nth i vecs []) g)
    /\ (nth i vals 0 = m -> rdot (nth i vecs []) p = - rdot (nth i vecs []) g).
(** j is the first index carrying the smallest eigenvalue *)
Definition first_lowest (n : nat) (vals : rvec) (m : R) (j : nat) : Prop :=
  (j < n)%nat /\ nth j vals 0 = m /\ forall i, (i < j)%nat -> m < nth i vals 0.

Lemma rsum_zero k f : (forall i, (i < k)%nat -> f i = 0) -> rsum k f = 0.
Proof. intros H. rewrite (rsum_ext k f (fun _ => 0)) by auto. apply rsum_0. Qed.

Section Exact.
  Variables (n : nat) (B : rmat) (g : rvec) (delta : R) (vals : rvec) (vecs : list rvec) (O : SubOracles ER).
  Hypothesis HP : nd_problem n B g delta vals vecs O.
  Let HB : is_mat n n B := proj1 HP.
  Let HS : symmetric B := proj1 (proj2 HP).
  Let Hg : length g = n := proj1 (proj2 (proj2 HP)).
  Let Hn : (0 < n)%nat := proj1 (proj2 (proj2 (proj2 HP))).
  Let Hd : 0 < delta := proj1 (proj2 (proj2 (proj2 (proj2 HP)))).
  Let HD : eig_decomposition n B vals vecs := proj1 (proj2 (proj2 (proj2 (proj2 (proj2 HP))))).
  Local Notation mn := (mineig vals).
  Local Notation j := (jm vals).
  Local Notation p0 := (p0 n g vals vecs).
  Local Notation r := (rhard n g delta vals vecs).
  Local Notation G i := (rdot (vi vecs i) g).
  Local Notation sig := (sigma n g delta vals vecs).

  Lemma left_is_sn p : left_end_step n g vals vecs mn p -> rnorm p = sn n g vals vecs (- mn).
  Proof using HP.
    intros [Hp HC]. unfold sn, rnorm. f_equal. rewrite (sq_coords n B vals vecs HD p) by auto.
    rewrite (rslam_sq n B) by (auto; apply (ww_length n B g vals); auto).
    apply rsum_ext. intros i Hi. rewrite (nth_ww n g) by auto. unfold cf.
    destruct (HC i Hi) as [H1 H2]. fold (vi vecs i) in *. fold (ev vals i) in *.
    pose proof (mineig_le n B g vals vecs Hg Hn HD i Hi).
    destruct (Reqb_spec (ev vals i + - mn) 0) as [E0|E0].
    - rewrite H2 by lra. reflexivity.
    - assert (E1 : - G i = (ev vals i - mn) * rdot (vi vecs i) p) by (symmetry; apply H1; lra).
      rewrite E1. field. lra.
  Qed.
  Lemma first_is_jm k : first_lowest n vals mn k -> k = j.
  Proof using HP.
    intros (Hk & Ek & Hf). pose proof (jm_lt n B g vals vecs Hg Hn HD) as Hj.
    destruct (Nat.lt_trichotomy k j) as [H|[H|H]]; auto.
    - exfalso. pose proof (argmin_first vals k H) as F.
      fold (jm vals) in F. fold (ev vals j) in F. fold mn in F. lra.
    - exfalso. specialize (Hf j H). unfold mineig, ev in Hf. lra.
  Qed.
  Lemma p0_small p : left_end_step n g vals vecs mn p -> rnorm p <= delta -> rdot p0 p0 <= delta * delta.
  Proof using HP.
    intros [Hp HC] H. apply rnorm_le in H; [|lra]. eapply Rle_trans; [|exact H].
    apply (p0_le_p n B g delta vals vecs O); auto. intros i Hi Hlt. now apply HC.
  Qed.
  Lemma r_sq : rdot p0 p0 <= delta * delta -> rdot r r = delta * delta.
  Proof using HP. intros H. rewrite (rhard_sq n B) by auto. now apply Rmax_right. Qed.

  (** coordinates of B r + g - m r *)
  Lemma resid i : (i < n)%nat ->
    rform B r (vi vecs i) + G i - mn * rdot (vi vecs i) r = if Reqb (ev vals i - mn) 0 then G i else 0.
  Proof using HP.
    intros Hi. rewrite (rform_sym n B) by (auto; try (apply (rhard_length n B); auto); apply (vi_length n B vals); auto).
    unfold rform, vi. rewrite (eig_coords n B vals vecs) by (auto; apply (rhard_length n B); auto).
    fold (vi vecs i) (ev vals i). rewrite (rhard_coord n B), (p0_coord n B) by auto.
    destruct (Reqb_spec (ev vals i - mn) 0) as [E0|E0].
    - replace (ev vals i) with mn by lra. ring.
    - destruct (Nat.eqb_spec i j) as [->|]; [unfold mineig in E0; lra|]. field. lra.
  Qed.
  Lemma pair_cond : rdot p0 p0 <= delta * delta -> minimizes_on_ball n B g delta r ->
    forall i k, (i < n)%nat -> (k < n)%nat ->
    rdot (vi vecs i) r * (if Reqb (ev vals k - mn) 0 then G k else 0)
    = rdot (vi vecs k) r * (if Reqb (ev vals i - mn) 0 then G i else 0).
  Proof using HP.
    intros Hp0 M i k Hi Hk.
    pose proof (vi_length n B vals vecs HD i Hi) as Li. pose proof (vi_length n B vals vecs HD k Hk) as Lk.
    assert (Lr : length r = n) by (apply (rhard_length n B); auto).
    set (a := rdot (vi vecs i) r). set (b := rdot (vi vecs k) r).
    pose proof (resid i Hi) as Ri. pose proof (resid k Hk) as Rk. fold a in Ri. fold b in Rk.
    assert (L : length (rscale a (vi vecs k)) = length (rscale (- b) (vi vecs i))) by rlen.
    pose proof (tangent n B g delta HB HS Hg Hd r (radd (rscale a (vi vecs k)) (rscale (- b) (vi vecs i)))) as T.
    rewrite rform_radd_r, !rdot_radd_r, !rform_rscale_r, !rdot_rscale_r in T by auto.
    rewrite (rdot_comm r (vi vecs i)), (rdot_comm r (vi vecs k)) in T. fold a b in T.
    rewrite (rdot_comm g (vi vecs i)), (rdot_comm g (vi vecs k)) in T.
    assert (Lt : length (radd (rscale a (vi vecs k)) (rscale (- b) (vi vecs i))) = n) by rlen.
    specialize (T Lr Lt (r_sq Hp0)). assert (Z : a * b + - b * a = 0) by ring. specialize (T Z M).
    rewrite <- Ri, <- Rk. lra.
  Qed.

  Lemma exact_forward : rdot p0 p0 <= delta * delta -> minimizes_on_ball n B g delta r ->
    (forall i, (i < n)%nat -> ev vals i = mn -> G i = 0)
    \/ (G j < 0 /\ forall i, (i < n)%nat -> i <> j -> G i = 0).
  Proof using HP.
    intros Hp0 M. pose proof (jm_lt n B g vals vecs Hg Hn HD) as Hj.
    pose proof (pair_cond Hp0 M) as PC.
    assert (Lr : length r = n) by (apply (rhard_length n B); auto).
    assert (rc : forall i, (i < n)%nat -> rdot (vi vecs i) r = (if Reqb (ev vals i - mn) 0 then 0 else - G i / (ev vals i - mn)) + (if Nat.eqb i j then sig else 0)).
    { intros i Hi. now rewrite (rhard_coord n B), (p0_coord n B) by auto. }
    assert (Ej : Reqb (ev vals j - mn) 0 = true).
    { unfold mineig. destruct (Reqb_spec (ev vals j - ev vals j) 0); auto; lra. }
    assert (rj : rdot (vi vecs j) r = sig).
    { rewrite rc, Ej, Nat.eqb_refl by auto. lra. }
    assert (low : forall i, (i < n)%nat -> ev vals i = mn -> i <> j -> rdot (vi vecs i) r = 0).
    { intros i Hi E N. rewrite rc by auto. destruct (Reqb_spec (ev vals i - mn) 0); [|lra].
      destruct (Nat.eqb_spec i j); [contradiction|lra]. }
    (* some coordinate of r is not zero *)
    destruct (Req_dec (G j) 0) as [Gj|Gj].
    - (* no component along v_j: then the other lowest components vanish too *)
      left. intros i Hi Ei. destruct (Nat.eq_dec i j) as [->|N]; auto.
      destruct (Req_dec (G i) 0) as [|Gi]; auto. exfalso.
      assert (Zr : rdot r r = 0).
      { rewrite (sq_coords n B vals vecs HD r) by auto. apply rsum_zero. intros k Hk.
        pose proof (PC k i Hk Hi) as E. destruct (Reqb_spec (ev vals i - mn) 0); [|lra].
        rewrite (low i Hi Ei N) in E. assert (rdot (vi vecs k) r = 0) by nra. rewrite H. lra. }
      rewrite (r_sq Hp0) in Zr. nra.
    - right.
      assert (Z : forall k, (k < n)%nat -> k <> j -> rdot (vi vecs k) r = 0).
      { intros k Hk N. destruct (Req_dec (ev vals k) mn) as [E|E]; [now apply low|].
        pose proof (PC k j Hk Hj) as Q. rewrite Ej in Q.
        destruct (Reqb_spec (ev vals k - mn) 0); [lra|]. nra. }
      assert (Sg : sig * sig = delta * delta).
      { rewrite <- (r_sq Hp0), (sq_coords n B vals vecs HD r) by auto.
        rewrite (rsum_single _ _ j) by (auto; intros k Hk N; rewrite (Z k Hk N); lra). rewrite rj. lra. }
      assert (Sn : 0 < sig).
      { assert (0 <= sig) by apply sqrt_pos. nra. }
      assert (W : forall i, (i < n)%nat -> i <> j -> G i = 0).
      { intros i Hi N. destruct (Req_dec (ev vals i) mn) as [E|E].
        - pose proof (PC i j Hi Hj) as Q. rewrite Ej, rj, (Z i Hi N) in Q.
          destruct (Reqb_spec (ev vals i - mn) 0); [|lra]. nra.
        - pose proof (Z i Hi N) as Q. rewrite rc in Q by auto.
          destruct (Reqb_spec (ev vals i - mn) 0) as [|E']; [lra|]. destruct (Nat.eqb_spec i j); [contradiction|].
          assert (K : - G i / (ev vals i - mn) * (ev vals i - mn) = 0) by nra.
          unfold Rdiv in K. rewrite Rmult_assoc, Rinv_l in K by auto. lra. }
      split; auto.
      (* the opposite point *)
      assert (Mo : qmodel B g r <= qmodel B g (rscale (-1) r)).
      { apply M; [rlen|]. rewrite rnorm_rscale, Rabs_left by lra.
        rewrite (rhard_delta n B g delta vals vecs O) by auto. lra. }
      unfold qmodel in Mo. rewrite rform_rscale_l, rform_rscale_r, rdot_rscale_r in Mo.
      assert (Eg : rdot g r = sig * G j).
      { rewrite (parseval n vecs g r) by (auto; apply HD). rewrite (rdot_sum n) by (rewrite rmv_length; apply HD).
        rewrite (rsum_single _ _ j).
        - rewrite !nth_rmv. fold (vi vecs j). rewrite rj. lra.
        - auto.
        - intros k Hk N. rewrite !nth_rmv. fold (vi vecs k). rewrite (W k Hk N). lra. }
      assert (sig * G j <= 0) by lra. nra.
  Qed.
  Lemma exact_backward p : mn <= 0 -> left_end_step n g vals vecs mn p -> rnorm p <= delta ->
    (forall i, (i < n)%nat -> ev vals i = mn -> G i = 0)
    \/ (G j < 0 /\ forall i, (i < n)%nat -> i <> j -> G i = 0) ->
    minimizes_on_ball n B g delta r.
  Proof using HP.
    intros Hm Hp Hpd [H|[H1 H2]].
    - destruct Hp as [Lp HC]. apply (hard_min n B g delta vals vecs O HP p); auto.
      intros i Hi. destruct (HC i Hi) as [C1 C2]. pose proof (mineig_le n B g vals vecs Hg Hn HD i Hi).
      destruct (Req_dec (ev vals i) mn) as [E|E].
      + rewrite (H i Hi E), E. lra.
      + apply C1. unfold ev in *. lra.
    - pose proof (p0_small p Hp Hpd) as Hp0. pose proof (r_sq Hp0) as Nr.
      pose proof (jm_lt n B g vals vecs Hg Hn HD) as Hj.
      assert (Zp : rdot p0 p0 = 0).
      { rewrite (sq_coords n B vals vecs HD p0) by (apply (p0_length n B); auto). apply rsum_zero. intros i Hi.
        rewrite (p0_coord n B) by auto. destruct (Reqb_spec (ev vals i - mn) 0) as [|E]; [lra|].
        rewrite H2; [unfold Rdiv; lra|auto|]. intros ->. unfold mineig in E. lra. }
      assert (Sg : sig = delta).
      { unfold sigma. rewrite rnorm_sq, Zp. destruct (Rltb_spec (delta * delta - 0) 0); [nra|].
        replace (delta * delta - 0) with (delta * delta) by lra. apply sqrt_square. lra. }
      intros y Hy Hyd.
      (* lam = - m + |G j| / delta *)
      set (lam := - mn - G j / delta).
      assert (Hq : 0 < - G j / delta) by (apply Rdiv_lt_0_compat; lra).
      assert (Hlam : - mn < lam) by (unfold lam; unfold Rdiv in *; lra).
      apply (optimal n B g vals vecs HB HS Hg HD lam); auto; try lra.
      + apply (rhard_length n B); auto.
      + intros i Hi. pose proof (mineig_le n B g vals vecs Hg Hn HD i Hi). lra.
      + intros i Hi. rewrite (rhard_coord n B), (p0_coord n B) by auto.
        destruct (Nat.eqb_spec i j) as [->|N].
        * change (ev vals j) with mn. destruct (Reqb_spec (mn - mn) 0); [|lra]. rewrite Sg. unfold lam. field. lra.
        * rewrite (H2 i Hi N). destruct (Reqb (ev vals i - mn) 0); unfold Rdiv; lra.
      + apply Rmult_le_compat_l; [lra|]. rewrite Nr. apply rnorm_le in Hyd; lra.
  Qed.
End Exact.

(** The whole story for a smallest eigenvalue [m <= 0].  Let [p] be the code's step at the left end
    of the bracket.  If it is longer than the radius, the solver (with root finders that do their job) returns a global minimizer.  Otherwise it answers "hard" with a step of norm exactly the
    radius, whatever the root finders do, and that step is a global minimizer exactly when the
    gradient has no component in the lowest eigenspace (the genuine hard case) or is a negative
    multiple of the first lowest eigenvector. *)
Theorem C29_exact_extent : forall n B g delta vals vecs O m j p,
  nd_problem n B g delta vals vecs O -> smallest n vals m -> m <= 0 -> first_lowest n vals m j ->
  left_end_step n g vals vecs m p ->
  (delta < rnorm p -> roots_found O g delta vals vecs ->
     exists r, solve_nd_trust_region_subproblem O (fm B) (fv g) (Fin delta) = Ok (fv r, CIndef)
       /\ rnorm r = delta /\ minimizes_on_ball n B g delta r)
  /\ (rnorm p <= delta ->
     exists r, solve_nd_trust_region_subproblem O (fm B) (fv g) (Fin delta) = Ok (fv r, CHard)
       /\ rnorm r = delta
       /\ (minimizes_on_ball n B g delta r <->
           (forall i, (i < n)%nat -> nth i vals 0 = m -> rdot (nth i vecs []) g = 0)
           \/ (rdot (nth j vecs []) g < 0 /\ forall i, (i < n)%nat -> i <> j -> rdot (nth i vecs []) g = 0))).
Proof.
  intros n B g delta vals vecs O m j p HP Hm Hm0 Hj Hp.
  pose proof HP as (HB & HS & Hg & Hn & Hd & HD & HE).
  rewrite (smallest_mineig n B g delta vals vecs O m HP Hm) in *. clear Hm m.
  rewrite (first_is_jm n B g delta vals vecs O HP j Hj). clear Hj j.
  pose proof (left_is_sn n B g delta vals vecs O HP p Hp) as Ep.
  rewrite (solve_unfold n B g delta vals vecs) by auto.
  assert (El : lam0 vals = - mineig vals) by (unfold lam0; destruct (Rltb_spec 0 (mineig vals)); lra).
  destruct (Rltb_spec 0 (mineig vals)) as [|_]; [lra|]. cbn [andb]. split.
  - intros Hlong HN.
    assert (Hphi : (phiE g delta vals vecs (Fin (lam0 vals)) <? Num.n0)%num = true).
    { apply (phi_neg' n B g delta vals vecs O HP). rewrite El. split; lra. }
    destruct (tail_root n B g delta vals vecs O HP HN Hphi) as (r & E & Hr & Es).
    destruct (root_min n B g delta vals vecs O HP r Hr Es) as [R1 R2].
    eexists. split; [exact E|]. split; auto.
  - intros Hshort. pose proof (p0_small n B g delta vals vecs O HP p Hp Hshort) as Hp0.
    exists (rhard n g delta vals vecs). split; [|split].
    + unfold indef_tail. destruct (phiE g delta vals vecs (Fin (lam0 vals)) <? Num.n0)%num eqn:Hphi; [|reflexivity].
      exfalso. apply (phi_neg' n B g delta vals vecs O HP) in Hphi as [_ Hphi]. rewrite El in Hphi. lra.
    + now apply (rhard_delta n B g delta vals vecs O).
    + split.
      * now apply (exact_forward n B g delta vals vecs O HP).
      * now apply (exact_backward n B g delta vals vecs O HP p).
Qed.
(** The left end step always exists and is unique, so the two cases above are exhaustive. *)
Theorem C29_left_end_exists : forall n B g delta vals vecs O m,
  nd_problem n B g delta vals vecs O -> smallest n vals m ->
  (exists p, left_end_step n g vals vecs m p) /\ (exists j, first_lowest n vals m j).
Proof.
  intros n B g delta vals vecs O m HP Hm. pose proof HP as (HB & HS & Hg & Hn & Hd & HD & HE).
  rewrite (smallest_mineig n B g delta vals vecs O m HP Hm) in *. clear Hm m. split.
  - exists (rslam n vals vecs (- mineig vals) (ww g vecs)). split; [apply (rslam_length n B); auto|].
    intros i Hi. fold (vi vecs i) (ev vals i). rewrite (rslam_coord n B) by (auto; apply (ww_length n B g vals); auto).
    rewrite (nth_ww n g) by auto. unfold cf. split; intros H.
    + destruct (Reqb_spec (ev vals i + - mineig vals) 0); [lra|]. field. lra.
    + destruct (Reqb_spec (ev vals i + - mineig vals) 0); [reflexivity|lra].
  - exists (jm vals). pose proof (jm_lt n B g vals vecs Hg Hn HD) as Hj. split; [auto|]. split; [reflexivity|].
    intros i Hi. exact (argmin_first vals i Hi).
Qed.

(** Both cases of the second half occur: with model matrix diag(-1,1) and radius 1, the gradient
    (-3/5, 0) is solved by falling through, (3/5, 0) is not; with radius 1/2 both are long. *)
Example C29_ex : forall O s, sp_eig O (fm (diag2 (-1) 1)) = Some (fv [-1; 1], fm (reye 2)) -> (s = 1 \/ s = -1) ->
  nd_problem 2 (diag2 (-1) 1) [s * (3 / 5); 0] 1 [-1; 1] (reye 2) O
  /\ smallest 2 [-1; 1] (-1) /\ first_lowest 2 [-1; 1] (-1) 0
  /\ left_end_step 2 [s * (3 / 5); 0] [-1; 1] (reye 2) (-1) [- (s * (3 / 5)); 0]
  /\ rnorm [- (s * (3 / 5)); 0] <= 1 /\ / 2 < rnorm [- (s * (3 / 5)); 0].
Proof.
  intros O s HE Hs. split; [apply diag2_problem; [lra|exact HE]|]. split; [apply diag2_smallest; lra|].
  split; [split; [lia|]; split; [reflexivity|intros; lia]|]. split; [|split].
  - split; [reflexivity|]. intros [|[|i]] Hi; [| |lia]; rewrite ?eye2_dot0, ?eye2_dot1; simpl; split; intros; lra.
  - apply rnorm_le; [lra|]. unfold rdot; simpl. destruct Hs as [-> | ->]; lra.
  - apply Rnot_le_lt. intros H. apply rnorm_le in H; [|lra]. unfold rdot in H; simpl in H. destruct Hs as [-> | ->]; lra.
Qed.
