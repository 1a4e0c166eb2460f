(** C27, C28, C29: the n-dimensional trust-region subproblem *)
From Coq Require Import ZArith List Bool Reals Lra Lia Psatz.
From Verif Require Import Num Constants Subproblem ER NumFacts RVec Ortho Argmin SubNd.
Import ListNotations.
Local Open Scope R_scope.

(** 2^-26: the slack of the code's acceptance tests *)
Definition e26 : R := / IZR (2 ^ 26).
Lemma e26_pos : 0 < e26.
Proof. apply Rinv_0_lt_compat, IZR_lt. reflexivity. Qed.

Lemma expand_bracket_left f : forall k a b xa xb k', a <= b -> 0 <= b ->
  expand_bracket f k (Fin a) (Fin b) = (xa, xb, k') -> exists a', xa = Fin a' /\ a <= a'.
Proof.
  induction k; intros a b xa xb k' Hab Hb H; cbn [expand_bracket] in H.
  - destruct (f (Fin b) <? Num.n0)%num; injection H as <- _ _; exists a; split; auto; lra.
  - destruct (f (Fin b) <? Num.n0)%num.
    + change ((Fin b * nofZ 10)%num : ER) with (Fin (b * 10)) in H.
      apply IHk in H; try lra. destruct H as (a' & E & Ha). exists a'. split; auto; lra.
    + injection H as <- _ _. exists a. split; auto; lra.
Qed.

(** the bracketing loop, as soon as one of the points it tries has a non-negative value *)
Lemma expand_bracket_right f : forall k j a b, a < b -> 0 < b -> (j < k)%nat ->
  (f (Fin a) <? Num.n0)%num = true -> (f (Fin (b * 10 ^ j)) <? Num.n0)%num = false ->
  exists a' b' k', expand_bracket f k (Fin a) (Fin b) = (Fin a', Fin b', S k') /\ a <= a' < b'
    /\ (f (Fin a') <? Num.n0)%num = true /\ (f (Fin b') <? Num.n0)%num = false.
Proof.
  induction k; intros j a b Hab Hb Hj Ha Hx; [lia|]. cbn [expand_bracket].
  destruct (f (Fin b) <? Num.n0)%num eqn:Eb.
  - change ((Fin b * nofZ 10)%num : ER) with (Fin (b * 10)). destruct j as [|j].
    { rewrite pow_O, Rmult_1_r, Eb in Hx. discriminate. }
    destruct (IHk j b (b * 10)) as (a' & b' & k' & E & H1 & H2); try lra; try lia; auto.
    { rewrite <- Hx. do 3 f_equal. cbn [pow]. ring. }
    exists a', b', k'. split; [exact E|]. split; [lra|exact H2].
  - exists a, b, k. repeat split; auto; lra.
Qed.

(** lines 165-222 of subproblem.py after the eigen-decomposition, as one function of the left end *)
Definition indef_tail (O : SubOracles ER) (phi dphi : ER -> ER) (sl : ER -> list ER) (hard : list ER)
    (delta laminit : ER) : res (list ER * sub_case) :=
  let brent :=
    let '(xa, xb, maxiter) := expand_bracket phi 100 laminit ((laminit + nsqrt spacing1) * nofZ 10)%num in
    match maxiter with
    | 0%nat => Ok (hard, CHard)
    | S _ => match sp_brentq O phi xa xb maxiter with
             | RootRaise e => Err e
             | NoConv => Ok (hard, CHard)
             | Root r => if (norm (sl r) <=? delta + nsqrt spacing1)%num then Ok (sl r, CIndef) else Ok (hard, CHard)
             end
    end in
  if (phi laminit <? Num.n0)%num then
    match sp_newton O phi dphi laminit with
    | RootRaise e => Err e
    | NoConv => brent
    | Root r => if (norm (sl r) <=? delta + nfrac 1 (10 ^ 12))%num then Ok (sl r, CIndef) else brent
    end
  else Ok (hard, CHard).

Lemma tail_cases O phi dphi sl hard delta lam0 s lab : 0 <= lam0 ->
  indef_tail O phi dphi sl hard (Fin delta) (Fin lam0) = Ok (s, lab) ->
  (lab = CIndef /\ (phi (Fin lam0) <? Num.n0)%num = true
     /\ exists r, s = sl r /\ (norm s <=? Fin (delta + e26))%num = true
         /\ (sp_newton O phi dphi (Fin lam0) = Root r
             \/ exists a' xb k, sp_brentq O phi (Fin a') xb k = Root r /\ lam0 <= a'))
  \/ (lab = CHard /\ s = hard
      /\ ((phi (Fin lam0) <? Num.n0)%num = false
          \/ (phi (Fin lam0) <? Num.n0)%num = true
             /\ forall r, sp_newton O phi dphi (Fin lam0) = Root r -> (norm (sl r) <=? Fin delta)%num = false)).
Proof.
  intros Hl0 H. unfold indef_tail in H. pose proof e26_pos as He.
  assert (Eadd : forall x : R, ((Fin x + nsqrt spacing1)%num : ER) = Fin (x + e26)).
  { intros x. rewrite sqrt_spacing. reflexivity. }
  assert (E12 : ((Fin delta + nfrac 1 (10 ^ 12))%num : ER) = Fin (delta + / IZR (10 ^ 12))).
  { rewrite frac_fin by discriminate. cbn [nadd ERNum er_add]. do 2 f_equal. unfold Rdiv. ring. }
  assert (P12 : 0 < / IZR (10 ^ 12)) by (apply Rinv_0_lt_compat, IZR_lt; reflexivity).
  rewrite !Eadd, E12 in H. change ((Fin (lam0 + e26) * nofZ 10)%num : ER) with (Fin ((lam0 + e26) * 10)) in H.
  destruct (phi (Fin lam0) <? Num.n0)%num eqn:Ephi.
  2:{ right. injection H as <- <-. auto. }
  destruct (expand_bracket phi 100 (Fin lam0) (Fin ((lam0 + e26) * 10))) as [[xa xb] mi] eqn:Eb.
  apply expand_bracket_left in Eb as (a' & -> & Ha'); try lra.
  assert (Hbr : (forall r, sp_newton O phi dphi (Fin lam0) = Root r -> (norm (sl r) <=? Fin delta)%num = false) ->
     match mi with
     | 0%nat => Ok (hard, CHard)
     | S _ => match sp_brentq O phi (Fin a') xb mi with
              | Root r => if (norm (sl r) <=? Fin (delta + e26))%num then Ok (sl r, CIndef) else Ok (hard, CHard)
              | NoConv => Ok (hard, CHard)
              | RootRaise e => Err e
              end
     end = Ok (s, lab) ->
     (lab = CIndef /\ true = true
       /\ exists r, s = sl r /\ (norm s <=? Fin (delta + e26))%num = true
         /\ (sp_newton O phi dphi (Fin lam0) = Root r
             \/ exists a' xb k, sp_brentq O phi (Fin a') xb k = Root r /\ lam0 <= a'))
     \/ (lab = CHard /\ s = hard
         /\ (true = false \/ true = true
             /\ forall r, sp_newton O phi dphi (Fin lam0) = Root r -> (norm (sl r) <=? Fin delta)%num = false))).
  { intros Hfail K. destruct mi as [|mi].
    { right. injection K as <- <-. auto. }
    destruct (sp_brentq O phi (Fin a') xb (S mi)) as [r| |e] eqn:Eq; try discriminate.
    - destruct (norm (sl r) <=? Fin (delta + e26))%num eqn:En.
      + injection K as <- <-. left. split; [reflexivity|]. split; [reflexivity|]. exists r.
        split; [reflexivity|]. split; [exact En|]. right. exists a', xb, (S mi). auto.
      + right. injection K as <- <-. auto.
    - right. injection K as <- <-. auto. }
  destruct (sp_newton O phi dphi (Fin lam0)) as [r| |e] eqn:Enw; try discriminate.
  - destruct (norm (sl r) <=? Fin (delta + / IZR (10 ^ 12)))%num eqn:En.
    + injection H as <- <-. left. split; [reflexivity|]. split; [reflexivity|]. exists r.
      split; [reflexivity|]. split; [|left; auto].
      change (er_leb (norm (sl r)) (Fin (delta + / IZR (10 ^ 12))) = true) in En.
      change (er_leb (norm (sl r)) (Fin (delta + e26)) = true).
      eapply er_le_trans; [exact En|]. cbn [er_leb]. destruct (Rleb_spec (delta + / IZR (10 ^ 12)) (delta + e26)) as [|Hx]; auto.
      exfalso. apply Hx. apply Rplus_le_compat_l. unfold e26. apply Rinv_le_contravar; [apply IZR_lt; reflexivity|].
      apply IZR_le. discriminate.
    + apply Hbr; [|exact H]. intros r' E. injection E as <-.
      change (er_leb (norm (sl r)) (Fin (delta + / IZR (10 ^ 12))) = false) in En.
      change (er_leb (norm (sl r)) (Fin delta) = false).
      destruct (er_leb (norm (sl r)) (Fin delta)) eqn:Q; auto. rewrite <- En. symmetry.
      eapply er_le_trans; [exact Q|]. cbn [er_leb]. destruct (Rleb_spec delta (delta + / IZR (10 ^ 12))); auto. lra.
  - apply Hbr; [|exact H]. discriminate.
Qed.

Section Cases.
  Variables (n : nat) (B : rmat) (g : rvec) (delta : R) (vals : rvec) (vecs : list rvec).
  Hypothesis HB : is_mat n n B.
  Hypothesis HS : symmetric B.
  Hypothesis Hg : length g = n.
  Hypothesis Hd : 0 < delta.
  Hypothesis Hn : (0 < n)%nat.
  Hypothesis HD : eig_decomposition n B vals vecs.
  Local Notation w := (ww g vecs).
  Local Notation m := (mineig vals).
  Definition phiE := fun lam : ER => secular lam (fv w) (fv vals) (fm vecs) (Fin delta).
  Definition dphiE := fun lam : ER => dsecular lam (fv w) (fv vals) (fm vecs) (Fin delta).
  Definition slE := fun r : ER => slam r (fv w) (fv vals) (fm vecs).
  Definition lam0 := if Rltb 0 m then 0 else - m.
  Local Notation s_at := (rslam n vals vecs).

  Lemma solve_unfold O : sp_eig O (fm B) = Some (fv vals, fm vecs) ->
    solve_nd_trust_region_subproblem O (fm B) (fv g) (Fin delta)
    = if Rltb 0 m && Rleb (sn n g vals vecs 0) (delta + e26)
      then Ok (fv (s_at 0 w), CPosdef)
      else indef_tail O phiE dphiE slE (fv (rhard n g delta vals vecs)) (Fin delta) (Fin lam0).
  Proof.
    intros HE. unfold solve_nd_trust_region_subproblem.
    cbn [neqb ERNum er_eqb Num.n0 nofZ]. destruct (Reqb_spec delta 0); [lra|].
    rewrite HE. cbv zeta. rewrite h_tmatvec, h_vopp. fold w. fold (jm vals).
    rewrite (mineig_nth n B g vals vecs) by auto.
    rewrite (h_hard n B g delta vals vecs), (h_slam n B vals vecs) by auto.
    change (fun lam : ER => secular lam (fv w) (fv vals) (fm vecs) (Fin delta)) with phiE.
    change (fun lam : ER => dsecular lam (fv w) (fv vals) (fm vecs) (Fin delta)) with dphiE.
    rewrite h_norm, sqrt_spacing. fold (sn n g vals vecs 0). unfold lam0.
    cbn [nltb ERNum er_ltb nleb er_leb nadd er_add nopp er_opp].
    change (delta + / IZR (2 ^ 26)) with (delta + e26).
    destruct (Rltb 0 m); [cbn [andb]; destruct (Rleb (sn n g vals vecs 0) (delta + e26)); [reflexivity|]|];
      unfold indef_tail; rewrite sqrt_spacing; reflexivity.
  Qed.
  Lemma lam0_nn : 0 <= lam0.
  Proof. unfold lam0. destruct (Rltb_spec 0 m); lra. Qed.
  Lemma lam0_ge : - m <= lam0.
  Proof. unfold lam0. destruct (Rltb_spec 0 m); lra. Qed.
End Cases.

Lemma rsum_ge_term f i : (forall j, 0 <= f j) -> forall k, (i < k)%nat -> f i <= rsum k f.
Proof.
  intros P. induction k; [lia|]. intros Hi. simpl.
  assert (0 <= rsum k f) by (apply rsum_nonneg; auto).
  destruct (Nat.eq_dec i k) as [->|]; [lra|]. specialize (P k). assert (f i <= rsum k f) by (apply IHk; lia). lra.
Qed.
Lemma lincomb_len {T} {N : Num T} n (c : list T) : forall cols, Forall (fun r => length r = n) cols ->
  length (lincomb n c cols) = n.
Proof.
  induction c; intros [|col cols] H; simpl; try apply repeat_length.
  inversion H; subst. unfold vadd. rewrite map2_len'; unfold vscale; rewrite map_length; auto. now rewrite IHc.
Qed.

(** *** Vocabulary of the statements *)
(** m is the smallest of the eigenvalues *)
Definition smallest (n : nat) (vals : rvec) (m : R) : Prop :=
  (exists i, (i < n)%nat /\ nth i vals 0 = m) /\ forall i, (i < n)%nat -> m <= nth i vals 0.
(** r minimizes the quadratic model over the ball *)
Definition minimizes_on_ball (n : nat) (B : rmat) (g : rvec) (delta : R) (r : rvec) : Prop :=
  forall y, length y = n -> rnorm y <= delta -> qmodel B g r <= qmodel B g y.
(** the root finders return only finite exact roots, not to the left of where they started *)
Definition exact_roots (O : SubOracles ER) : Prop :=
  (forall f f' x r, sp_newton O f f' x = Root r -> nisfin r = true /\ f r = Fin 0 /\ (x <=? r)%num = true)
  /\ (forall f a b k r, sp_brentq O f a b k = Root r -> nisfin r = true /\ f r = Fin 0 /\ (a <=? r)%num = true).
(** Newton's method finds an exact root of f to the right of every point where f is negative *)
Definition newton_finds (O : SubOracles ER) (f : ER -> ER) : Prop :=
  forall f' x0, (f x0 <? Num.n0)%num = true ->
    exists r, sp_newton O f f' x0 = Root (Fin r) /\ f (Fin r) = Fin 0 /\ (x0 <=? Fin r)%num = true.
(** a problem together with the exact eigen-decomposition handed to the code *)
Definition nd_problem (n : nat) (B : rmat) (g : rvec) (delta : R) (vals : rvec) (vecs : list rvec)
    (O : SubOracles ER) : Prop :=
  is_mat n n B /\ symmetric B /\ length g = n /\ (0 < n)%nat /\ 0 < delta
  /\ eig_decomposition n B vals vecs /\ sp_eig O (fm B) = Some (fv vals, fm vecs).
(** the function whose root the code looks for *)
Definition code_secular (g : rvec) (delta : R) (vals : rvec) (vecs : list rvec) : ER -> ER :=
  fun lam => secular lam (vopp (tmatvec (fm vecs) (fv g))) (fv vals) (fm vecs) (Fin delta).
(** Newton's method, started where the code starts it (at the larger of 0 and minus the smallest eigenvalue), returns an exact root, or
    gives up, or returns a point whose step is longer than the radius.  (When the smallest eigenvalue is not positive and the gradient
    has a component in its eigenspace, the start is a pole of the step: the derivative there is infinite or NaN, and scipy's newton
    returns the start itself, NaN, or gives up.) *)
Definition newton_finds_or_fails (O : SubOracles ER) (g : rvec) (delta : R) (vals : rvec) (vecs : list rvec) : Prop :=
  forall m f', smallest (length vals) vals m -> let f := code_secular g delta vals vecs in let x0 := Fin (Rmax 0 (- m)) in
  (f x0 <? Num.n0)%num = true ->
    (exists r, sp_newton O f f' x0 = Root (Fin r) /\ f (Fin r) = Fin 0 /\ (x0 <=? Fin r)%num = true)
    \/ sp_newton O f f' x0 = NoConv
    \/ (exists r, sp_newton O f f' x0 = Root r
         /\ (norm (slam r (vopp (tmatvec (fm vecs) (fv g))) (fv vals) (fm vecs)) <=? Fin delta + nfrac 1 (10 ^ 12))%num = false).
(** Brent's method finds an exact root of f between two points with a change of sign *)
Definition brentq_finds (O : SubOracles ER) (f : ER -> ER) : Prop :=
  forall a b k, a < b -> (f (Fin a) <? Num.n0)%num = true -> (Num.n0 <=? f (Fin b))%num = true ->
    exists r, sp_brentq O f (Fin a) (Fin b) (S k) = Root (Fin r) /\ f (Fin r) = Fin 0 /\ a <= r.
(** the root finders of the code do their job: Newton's method finds the root, or it fails as above and Brent's method finds it (the
    code looks for a bracket at most 100 powers of ten away) *)
Definition roots_found (O : SubOracles ER) (g : rvec) (delta : R) (vals : rvec) (vecs : list rvec) : Prop :=
  newton_finds O (code_secular g delta vals vecs)
  \/ (newton_finds_or_fails O g delta vals vecs /\ brentq_finds O (code_secular g delta vals vecs) /\ rnorm g <= 10 ^ 90 * delta).

Lemma smallest_mineig n B g delta vals vecs O m : nd_problem n B g delta vals vecs O ->
  smallest n vals m -> m = mineig vals.
Proof.
  intros (HB & HS & Hg & Hn & Hd & HD & HE) [(i & Hi & Ei) Hm].
  pose proof (mineig_le n B g vals vecs Hg Hn HD i Hi). unfold ev in *.
  assert (m <= mineig vals).
  { unfold mineig, ev. apply Hm. now apply (jm_lt n B g vals vecs). }
  lra.
Qed.
Lemma code_secular_eq g delta vals vecs : code_secular g delta vals vecs = phiE g delta vals vecs.
Proof. unfold code_secular, phiE. rewrite h_tmatvec, h_vopp. reflexivity. Qed.

Section Thms.
  Variables (n : nat) (B : rmat) (g : rvec) (delta : R) (vals : rvec) (vecs : list rvec) (O : SubOracles ER).
  Hypothesis HP : nd_problem n B g delta vals vecs O.
  Let HB : is_mat n n B := proj1 HP.
  Let HS : symmetric B := proj1 (proj2 HP).
  Let Hg : length g = n := proj1 (proj2 (proj2 HP)).
  Let Hn : (0 < n)%nat := proj1 (proj2 (proj2 (proj2 HP))).
  Let Hd : 0 < delta := proj1 (proj2 (proj2 (proj2 (proj2 HP)))).
  Let HD : eig_decomposition n B vals vecs := proj1 (proj2 (proj2 (proj2 (proj2 (proj2 HP))))).
  Let HE : sp_eig O (fm B) = Some (fv vals, fm vecs) := proj2 (proj2 (proj2 (proj2 (proj2 (proj2 HP))))).
  Local Notation w := (ww g vecs).
  Local Notation mn := (mineig vals).
  Local Notation S := (sn n g vals vecs).

  Lemma phi_neg' x : (phiE g delta vals vecs (Fin x) <? Num.n0)%num = true <-> - mn <= x /\ delta < S x.
  Proof. apply (phi_neg n B); auto. Qed.
  Lemma phi_zero' x : phiE g delta vals vecs (Fin x) = Fin 0 -> - mn <= x /\ S x = delta.
  Proof. apply (phi_zero n B); auto. Qed.
  Lemma posdef_min y : 0 < mn -> length y = n -> qmodel B g (rslam n vals vecs 0 w) <= qmodel B g y.
  Proof.
    intros Hm Hy. apply (optimal n B g vals vecs HB HS Hg HD 0); auto; try lra.
    - apply (rslam_length n B); auto.
    - intros i Hi. pose proof (mineig_le n B g vals vecs Hg Hn HD i Hi). lra.
    - intros i Hi. apply (rslam_solves n B); auto.
      pose proof (mineig_le n B g vals vecs Hg Hn HD i Hi). lra.
  Qed.
  Lemma root_min r : lam0 vals < r -> S r = delta ->
    minimizes_on_ball n B g delta (rslam n vals vecs r w) /\ rnorm (rslam n vals vecs r w) = delta.
  Proof.
    intros Hr Es. split; [|exact Es]. intros y Hy Hyd.
    pose proof (lam0_nn vals) as H1. pose proof (lam0_ge vals) as H2.
    apply (optimal n B g vals vecs HB HS Hg HD r); auto; try lra.
    - apply (rslam_length n B); auto.
    - intros i Hi. pose proof (mineig_le n B g vals vecs Hg Hn HD i Hi). lra.
    - intros i Hi. apply (rslam_solves n B); auto.
      pose proof (mineig_le n B g vals vecs Hg Hn HD i Hi). lra.
    - apply Rmult_le_compat_l; [lra|]. rewrite <- (rnorm_sq (rslam n vals vecs r w)).
      fold (S r). rewrite Es. apply rnorm_le in Hyd; lra.
  Qed.
  Lemma slE_fin r : slE g vals vecs (Fin r) = fv (rslam n vals vecs r w).
  Proof. apply (h_slam n B); auto. Qed.
  Lemma slE_length r : length (slE g vals vecs r) = n.
  Proof.
    unfold slE, slam. destruct HD as (HL & HV & _ & _). rewrite fv_length, HL. apply lincomb_len.
    unfold fm. apply Forall_map. eapply Forall_impl; [|apply HV]. intros v Hv. now rewrite fv_length.
  Qed.
  Lemma left_not_root x : (phiE g delta vals vecs (Fin x) <? Num.n0)%num = true -> phiE g delta vals vecs (Fin x) <> Fin 0.
  Proof. intros H E. rewrite E in H. cbn in H. destruct (Rltb_spec 0 0); [lra|discriminate]. Qed.
  Lemma sn_far x : - mn < x -> S x <= rnorm g / (mn + x).
  Proof.
    intros Hx. unfold sn. assert (Hp : 0 < mn + x) by lra. pose proof (rnorm_nonneg g) as Hgn.
    assert (Hq : 0 <= rnorm g / (mn + x)) by (apply Rmult_le_pos; [auto|left; now apply Rinv_0_lt_compat]).
    apply Rsqr_incr_0_var; [|exact Hq]. unfold Rsqr. rewrite rnorm_sq.
    rewrite (rslam_sq n B) by (auto; apply (ww_length n B g vals); auto).
    replace (rnorm g / (mn + x) * (rnorm g / (mn + x))) with (rnorm g * rnorm g * (/ (mn + x) * / (mn + x))) by (unfold Rdiv; ring).
    rewrite rnorm_sq, (sq_coords n B vals vecs HD g) by auto. rewrite Rmult_comm, <- rsum_scal. apply rsum_le. intros i Hi.
    rewrite (nth_ww n g) by auto. pose proof (mineig_le n B g vals vecs Hg Hn HD i Hi) as Hm. unfold cf, ev in *.
    destruct (Reqb_spec (nth i vals 0 + x) 0); [lra|]. set (e := nth i vals 0 + x) in *. set (c := rdot (vi vecs i) g).
    assert (He : 0 < e) by (unfold e; lra). assert (Hi2 : 0 < / e) by now apply Rinv_0_lt_compat.
    assert (Hle : / e <= / (mn + x)) by (apply Rinv_le_contravar; [auto|unfold e; lra]).
    replace (- c / e * (- c / e)) with (c * c * (/ e * / e)) by (unfold Rdiv; ring).
    rewrite (Rmult_comm _ (c * c)). apply Rmult_le_compat_l; [apply Rle_0_sqr|]. apply Rmult_le_compat; lra.
  Qed.
  Lemma phi_not_nan x : phiE g delta vals vecs (Fin x) = PInf \/ exists y, phiE g delta vals vecs (Fin x) = Fin y.
  Proof.
    change (phi g delta vals vecs x = PInf \/ exists y, phi g delta vals vecs x = Fin y). rewrite (phi_eq n B) by auto.
    destruct (Rltb _ _); [auto|]. destruct (Rltb _ _); [right; eauto|auto].
  Qed.
  Lemma smallest_self : smallest (length vals) vals mn.
  Proof.
    destruct HD as (HL & _). rewrite HL. pose proof (jm_lt n B g vals vecs Hg Hn HD) as Hj. split; [exists (jm vals); split; [exact Hj|reflexivity]|].
    intros i Hi. exact (mineig_le n B g vals vecs Hg Hn HD i Hi).
  Qed.
  Lemma lam0_max : lam0 vals = Rmax 0 (- mn).
  Proof. unfold lam0. destruct (Rltb_spec 0 mn); [rewrite Rmax_left|rewrite Rmax_right]; lra. Qed.
  Lemma tail_root : roots_found O g delta vals vecs ->
    (phiE g delta vals vecs (Fin (lam0 vals)) <? Num.n0)%num = true ->
    exists r, indef_tail O (phiE g delta vals vecs) (dphiE g delta vals vecs) (slE g vals vecs)
               (fv (rhard n g delta vals vecs)) (Fin delta) (Fin (lam0 vals))
              = Ok (fv (rslam n vals vecs r w), CIndef) /\ lam0 vals < r /\ S r = delta.
  Proof.
    intros HN Hphi. pose proof e26_pos as He. unfold roots_found in HN. rewrite code_secular_eq in HN.
    assert (Right : forall r, phiE g delta vals vecs (Fin r) = Fin 0 -> lam0 vals <= r -> lam0 vals < r /\ S r = delta).
    { intros r E2 Hle. pose proof (phi_zero' r E2) as [_ Es]. split; [|exact Es].
      destruct (Req_dec (lam0 vals) r) as [E|E]; [|lra]. exfalso. subst r. exact (left_not_root _ Hphi E2). }
    assert (Acc : forall r t, 0 <= t -> S r = delta -> (norm (slE g vals vecs (Fin r)) <=? Fin (delta + t))%num = true).
    { intros r t Ht Es. rewrite slE_fin, h_norm. fold (S r). rewrite Es. cbn [nleb ERNum er_leb]. destruct (Rleb_spec delta (delta + t)); [reflexivity|lra]. }
    assert (E12 : ((Fin delta + nfrac 1 (10 ^ 12))%num : ER) = Fin (delta + / IZR (10 ^ 12))).
    { rewrite frac_fin by discriminate. cbn [nadd ERNum er_add]. do 2 f_equal. unfold Rdiv. ring. }
    assert (P12 : 0 < / IZR (10 ^ 12)) by (apply Rinv_0_lt_compat, IZR_lt; reflexivity).
    assert (Found : (exists r, sp_newton O (phiE g delta vals vecs) (dphiE g delta vals vecs) (Fin (lam0 vals)) = Root (Fin r)
       /\ phiE g delta vals vecs (Fin r) = Fin 0 /\ (Fin (lam0 vals) <=? Fin r)%num = true) ->
     exists r, indef_tail O (phiE g delta vals vecs) (dphiE g delta vals vecs) (slE g vals vecs)
               (fv (rhard n g delta vals vecs)) (Fin delta) (Fin (lam0 vals))
              = Ok (fv (rslam n vals vecs r w), CIndef) /\ lam0 vals < r /\ S r = delta).
    { intros (r & E1 & E2 & E3). change (er_leb (Fin (lam0 vals)) (Fin r) = true) in E3. cbn [er_leb] in E3.
      assert (E3' : lam0 vals <= r) by (destruct (Rleb_spec (lam0 vals) r); auto; discriminate).
      destruct (Right r E2 E3') as [R1 R2]. exists r. split; [|split; auto].
      unfold indef_tail. rewrite Hphi, E1, E12, (Acc r _ (Rlt_le _ _ P12) R2). now rewrite slE_fin. }
    destruct HN as [HN|(HN & HB2 & Hb)]; [exact (Found (HN _ _ Hphi))|].
    pose proof (HN mn (dphiE g delta vals vecs) smallest_self) as HN'. rewrite <- lam0_max, code_secular_eq in HN'. cbv zeta in HN'.
    specialize (HN' Hphi). destruct HN' as [HN'|HN']; [exact (Found HN')|].
    (* Newton has failed: the bracket *)
    assert (Br : exists r, (let '(xa, xb, maxiter) := expand_bracket (phiE g delta vals vecs) 100 (Fin (lam0 vals)) ((Fin (lam0 vals) + nsqrt spacing1) * nofZ 10)%num in
       match maxiter with
       | 0%nat => Ok (fv (rhard n g delta vals vecs), CHard)
       | Datatypes.S _ => match sp_brentq O (phiE g delta vals vecs) xa xb maxiter with
             | RootRaise e => Err e
             | NoConv => Ok (fv (rhard n g delta vals vecs), CHard)
             | Root r => if (norm (slE g vals vecs r) <=? Fin delta + nsqrt spacing1)%num then Ok (slE g vals vecs r, CIndef) else Ok (fv (rhard n g delta vals vecs), CHard)
             end
       end) = Ok (fv (rslam n vals vecs r w), CIndef) /\ lam0 vals < r /\ S r = delta).
    { pose proof (lam0_nn vals) as Hl0. pose proof (lam0_ge vals) as Hl1.
      assert (Eadd : ((Fin (lam0 vals) + nsqrt spacing1)%num : ER) = Fin (lam0 vals + e26)) by (rewrite sqrt_spacing; reflexivity).
      rewrite !Eadd. change ((Fin (lam0 vals + e26) * nofZ 10)%num : ER) with (Fin ((lam0 vals + e26) * 10)).
      assert (E26 : ((Fin delta + nsqrt spacing1)%num : ER) = Fin (delta + e26)) by (rewrite sqrt_spacing; reflexivity).
      rewrite E26.
      destruct (expand_bracket_right (phiE g delta vals vecs) 100 99 (lam0 vals) ((lam0 vals + e26) * 10)) as (a' & b' & k' & E & Hab & Ha' & Hb'); try lra; try lia; auto.
      { destruct (phiE g delta vals vecs (Fin ((lam0 vals + e26) * 10 * 10 ^ 99)) <? Num.n0)%num eqn:En; [exfalso|reflexivity].
        apply phi_neg' in En as [_ En]. assert (P99 : 1 <= 10 ^ 99) by (apply pow_R1_Rle; lra).
        set (X := (lam0 vals + e26) * 10 * 10 ^ 99) in *.
        assert (HX : lam0 vals + 10 ^ 90 <= X).
        { unfold X. assert (H26 : / 10 ^ 8 <= e26).
          { unfold e26. rewrite (pow_IZR 10 8). apply Rinv_le_contravar; [apply IZR_lt; reflexivity|apply IZR_le; discriminate]. }
          assert (E100 : 10 * 10 ^ 99 = 10 ^ 8 * (10 ^ 2 * 10 ^ 90)) by (rewrite <- !pow_add, <- (pow_1 10) at 1; rewrite <- pow_add; reflexivity).
          assert (P90 : 0 < 10 ^ 90) by (apply pow_lt; lra). assert (P8 : 0 < 10 ^ 8) by (apply pow_lt; lra).
          assert (K1 : 1 <= e26 * 10 ^ 8). { apply (Rmult_le_compat_r (10 ^ 8)) in H26; [|lra]. rewrite Rinv_l in H26; lra. }
          rewrite Rmult_assoc, Rmult_plus_distr_r. apply Rplus_le_compat.
          - rewrite <- (Rmult_1_r (lam0 vals)) at 1. apply Rmult_le_compat_l; lra.
          - rewrite E100, <- Rmult_assoc. apply Rle_trans with (1 * (10 ^ 2 * 10 ^ 90)); [|apply Rmult_le_compat_r; [|exact K1]].
            + rewrite Rmult_1_l. rewrite <- (Rmult_1_l (10 ^ 90)) at 1. apply Rmult_le_compat_r; lra.
            + left. apply Rmult_lt_0_compat; [lra|exact P90]. }
        assert (P90 : 0 < 10 ^ 90) by (apply pow_lt; lra).
        pose proof (sn_far X ltac:(lra)) as Hs. assert (HXm : 10 ^ 90 <= mn + X) by lra.
        apply (Rlt_not_le _ _ En). apply Rle_trans with (1 := Hs). apply Rmult_le_reg_r with (mn + X); [lra|].
        unfold Rdiv. rewrite Rmult_assoc, Rinv_l, Rmult_1_r by lra. apply Rle_trans with (1 := Hb). rewrite Rmult_comm. apply Rmult_le_compat_l; lra. }
      rewrite E. destruct (HB2 a' b' k') as (r & F1 & F2 & F3); [lra|exact Ha'| |].
      { destruct (phi_not_nan b') as [Q|(y & Q)]; rewrite Q in *; [reflexivity|]. cbn in Hb' |- *. destruct (Rltb_spec y 0); [discriminate|]. destruct (Rleb_spec 0 y); [reflexivity|lra]. }
      destruct (Right r F2 ltac:(lra)) as [R1 R2]. exists r. split; [|split; auto]. rewrite F1, (Acc r _ (Rlt_le _ _ He) R2). now rewrite slE_fin. }
    destruct Br as (r & Br & R1 & R2). exists r. split; [|split; auto]. unfold indef_tail. rewrite Hphi.
    destruct HN' as [HN'|(r' & HN' & Hlong)].
    - rewrite HN'. exact Br.
    - rewrite HN'. assert (Hs : (norm (slE g vals vecs r') <=? Fin delta + nfrac 1 (10 ^ 12))%num = false).
      { rewrite <- Hlong. unfold slE. rewrite h_tmatvec, h_vopp. reflexivity. }
      rewrite Hs. exact Br.
  Qed.

  Lemma rhard_delta : rdot (p0 n g vals vecs) (p0 n g vals vecs) <= delta * delta ->
    rnorm (rhard n g delta vals vecs) = delta.
  Proof.
    intros H. unfold rnorm. rewrite (rhard_sq n B) by auto. rewrite Rmax_right by auto. apply sqrt_square. lra.
  Qed.
  Lemma rhard_ge : delta <= rnorm (rhard n g delta vals vecs).
  Proof.
    apply Rnot_lt_le. intros H. apply rnorm_lt in H; [|lra]. rewrite (rhard_sq n B) in H by auto.
    pose proof (Rmax_r (rdot (p0 n g vals vecs) (p0 n g vals vecs)) (delta * delta)). lra.
  Qed.
  (** p solves the singular system up to the smallest eigenspace *)
  Lemma p0_le_p p : length p = n ->
    (forall i, (i < n)%nat -> mn < nth i vals 0 -> (nth i vals 0 - mn) * rdot (nth i vecs []) p = - rdot (nth i vecs []) g) ->
    rdot (p0 n g vals vecs) (p0 n g vals vecs) <= rdot p p.
  Proof.
    intros Hp H. rewrite (sq_coords n B vals vecs HD (p0 n g vals vecs)) by (apply (p0_length n B); auto).
    rewrite (sq_coords n B vals vecs HD p) by auto. apply rsum_le. intros i Hi.
    rewrite (p0_coord n B) by auto. destruct (Reqb_spec (ev vals i - mn) 0).
    - pose proof (Rle_0_sqr (rdot (vi vecs i) p)). unfold Rsqr in *. lra.
    - pose proof (mineig_le n B g vals vecs Hg Hn HD i Hi).
      assert (E : - rdot (vi vecs i) g = (ev vals i - mn) * rdot (vi vecs i) p).
      { symmetry. apply H; auto. unfold ev in *. lra. }
      rewrite E. right. field. lra.
  Qed.
  (** the true hard case *)
  Lemma hard_phi p : mn <= 0 -> length p = n -> rnorm p <= delta ->
    radd (rmv B p) (rscale (- mn) p) = rscale (-1) g ->
    (forall i, (i < n)%nat -> (ev vals i - mn) * rdot (vi vecs i) p = - rdot (vi vecs i) g)
    /\ (phiE g delta vals vecs (Fin (lam0 vals)) <? Num.n0)%num = false.
  Proof.
    intros Hm Hp Hpd HQ.
    assert (HC : forall i, (i < n)%nat -> (ev vals i - mn) * rdot (vi vecs i) p = - rdot (vi vecs i) g).
    { intros i Hi. apply (f_equal (rdot (vi vecs i))) in HQ.
      rewrite rdot_radd_r, !rdot_rscale_r in HQ by (destruct HB; rlen). unfold vi in *.
      rewrite (eig_coords n B vals vecs) in HQ by auto. unfold ev. lra. }
    split; auto.
    destruct ((phiE g delta vals vecs (Fin (lam0 vals)) <? Num.n0)%num) eqn:E; auto. exfalso.
    apply phi_neg' in E as [_ E]. unfold lam0 in E. destruct (Rltb_spec 0 mn); [lra|].
    assert (S (- mn) <= rnorm p); [|lra].
    unfold sn. apply rnorm_le; [apply rnorm_nonneg|]. rewrite rnorm_sq.
    rewrite (rslam_sq n B) by (auto; apply (ww_length n B g vals); auto).
    rewrite (sq_coords n B vals vecs HD p) by auto. apply rsum_le. intros i Hi.
    rewrite (nth_ww n g) by auto. unfold cf. rewrite <- HC by auto.
    destruct (Reqb_spec (ev vals i + - mn) 0) as [E0|E0].
    - replace (ev vals i - mn) with 0 by lra. pose proof (Rle_0_sqr (rdot (vi vecs i) p)). unfold Rsqr in *. lra.
    - right. field. lra.
  Qed.
  Lemma hard_min p : mn <= 0 -> length p = n -> rnorm p <= delta ->
    (forall i, (i < n)%nat -> (ev vals i - mn) * rdot (vi vecs i) p = - rdot (vi vecs i) g) ->
    minimizes_on_ball n B g delta (rhard n g delta vals vecs) /\ rnorm (rhard n g delta vals vecs) = delta.
  Proof.
    intros Hm Hp Hpd HC.
    assert (Hp0 : rdot (p0 n g vals vecs) (p0 n g vals vecs) <= delta * delta).
    { apply rnorm_le in Hpd; [|lra]. apply Rle_trans with (rdot p p); auto.
      apply p0_le_p; auto. intros i Hi _. exact (HC i Hi). }
    assert (Er : rnorm (rhard n g delta vals vecs) = delta) by now apply rhard_delta.
    split; [|exact Er]. intros y Hy Hyd.
    apply (optimal n B g vals vecs HB HS Hg HD (- mn)); auto; try lra.
    - apply (rhard_length n B); auto.
    - intros i Hi. pose proof (mineig_le n B g vals vecs Hg Hn HD i Hi). lra.
    - intros i Hi. rewrite (rhard_coord n B), (p0_coord n B) by auto. rewrite <- HC by auto.
      destruct (Reqb_spec (ev vals i - mn) 0) as [E0|E0].
      + replace (ev vals i + - mn) with 0 by lra. rewrite E0. lra.
      + destruct (Nat.eqb_spec i (jm vals)) as [->|]; [unfold mineig in E0; lra|]. field. lra.
    - apply Rmult_le_compat_l; [lra|]. rewrite <- (rnorm_sq (rhard n g delta vals vecs)), Er.
      apply rnorm_le in Hyd; lra.
  Qed.
End Thms.

(** *** C27 *)
(** Whatever the root finders return: accepted steps are finite and at most 2^-26 beyond the radius;
    the fallback step is finite but not inside. *)
Theorem C27_accepted_steps : forall n B g delta vals vecs O s lab,
  nd_problem n B g delta vals vecs O ->
  solve_nd_trust_region_subproblem O (fm B) (fv g) (Fin delta) = Ok (s, lab) ->
  exists r, s = fv r /\ length r = n
    /\ (lab = CPosdef \/ lab = CIndef -> rnorm r <= delta + / IZR (2 ^ 26))
    /\ (lab = CHard -> delta <= rnorm r)
    /\ lab <> CZero.
Proof.
  intros n B g delta vals vecs O s lab HP H. pose proof HP as (HB & HS & Hg & Hn & Hd & HD & HE).
  rewrite (solve_unfold n B g delta vals vecs) in H by auto.
  destruct (Rltb 0 (mineig vals) && Rleb (sn n g vals vecs 0) (delta + e26)) eqn:C.
  - injection H as <- <-. apply andb_true_iff in C as [_ C].
    destruct (Rleb_spec (sn n g vals vecs 0) (delta + e26)) as [C'|]; [|discriminate].
    exists (rslam n vals vecs 0 (ww g vecs)). split; [reflexivity|]. split; [apply (rslam_length n B); auto|].
    split; [intros _; exact C'|]. split; discriminate.
  - apply tail_cases in H; [|apply lam0_nn].
    destruct H as [(-> & _ & r & -> & Hnorm & _)|(-> & -> & _)].
    + pose proof (slE_length n B g delta vals vecs O HP r) as Hlen.
      destruct (norm_fin _ _ Hnorm) as [q Eq]. rewrite Eq in *. exists q. split; [reflexivity|].
      rewrite fv_length in Hlen. split; [exact Hlen|]. split; [|split; discriminate].
      intros _. rewrite h_norm in Hnorm. cbn [nleb ERNum er_leb] in Hnorm.
      destruct (Rleb_spec (rnorm q) (delta + e26)); auto; discriminate.
    + exists (rhard n g delta vals vecs). split; [reflexivity|]. split; [apply (rhard_length n B); auto|].
      split; [intros [|]; discriminate|]. split; [|discriminate]. intros _.
      apply (rhard_ge n B g delta vals vecs O); auto.
Qed.
(** A hard-case step has norm exactly the radius whenever some vector in the ball solves the
    singular system outside the smallest eigenspace (the definition of the hard case, without the
    requirement on the smallest eigenspace itself). *)
Theorem C27_hard_on_boundary : forall n B g delta vals vecs O s m p,
  nd_problem n B g delta vals vecs O -> smallest n vals m ->
  length p = n -> rnorm p <= delta ->
  (forall i, (i < n)%nat -> m < nth i vals 0 ->
     (nth i vals 0 - m) * rdot (nth i vecs []) p = - rdot (nth i vecs []) g) ->
  solve_nd_trust_region_subproblem O (fm B) (fv g) (Fin delta) = Ok (s, CHard) ->
  exists r, s = fv r /\ rnorm r = delta.
Proof.
  intros n B g delta vals vecs O s m p HP Hm Hp Hpd HC H. pose proof HP as (HB & HS & Hg & Hn & Hd & HD & HE).
  rewrite (smallest_mineig n B g delta vals vecs O m HP Hm) in *. clear Hm m.
  rewrite (solve_unfold n B g delta vals vecs) in H by auto.
  destruct (Rltb 0 (mineig vals) && Rleb (sn n g vals vecs 0) (delta + e26)); [discriminate|].
  apply tail_cases in H; [|apply lam0_nn].
  destruct H as [(C & _)|(_ & -> & _)]; [discriminate|].
  exists (rhard n g delta vals vecs). split; [reflexivity|].
  apply (rhard_delta n B g delta vals vecs O); auto. apply Rle_trans with (rdot p p).
  - apply (p0_le_p n B g delta vals vecs O); auto.
  - apply rnorm_le in Hpd; lra.
Qed.
(** With a Newton method that does find the root, every step respects the radius (up to 2^-26). *)
Theorem C27_with_newton : forall n B g delta vals vecs O s lab,
  nd_problem n B g delta vals vecs O ->
  roots_found O g delta vals vecs ->
  solve_nd_trust_region_subproblem O (fm B) (fv g) (Fin delta) = Ok (s, lab) ->
  exists r, s = fv r /\ length r = n /\ rnorm r <= delta + / IZR (2 ^ 26) /\ (lab <> CPosdef -> rnorm r = delta).
Proof.
  intros n B g delta vals vecs O s lab HP HN H. pose proof HP as (HB & HS & Hg & Hn & Hd & HD & HE).
  pose proof e26_pos as He. fold e26.
  rewrite (solve_unfold n B g delta vals vecs) in H by auto.
  destruct (Rltb_spec 0 (mineig vals)) as [Hm|Hm]; cbn [andb] in H.
  - destruct (Rleb_spec (sn n g vals vecs 0) (delta + e26)) as [C'|C'].
    + injection H as <- <-. eexists. split; [reflexivity|]. split; [apply (rslam_length n B); auto|]. split; [exact C'|congruence].
    + assert (Hphi : (phiE g delta vals vecs (Fin (lam0 vals)) <? Num.n0)%num = true).
      { apply (phi_neg' n B g delta vals vecs O); auto. unfold lam0. destruct (Rltb_spec 0 (mineig vals)); [|lra].
        split; lra. }
      destruct (tail_root n B g delta vals vecs O HP HN Hphi) as (r & E & _ & Es).
      rewrite E in H. injection H as <- <-. eexists. split; [reflexivity|]. split; [apply (rslam_length n B); auto|].
      change (rnorm (rslam n vals vecs r (ww g vecs))) with (sn n g vals vecs r). split; [lra|auto].
  - destruct (phiE g delta vals vecs (Fin (lam0 vals)) <? Num.n0)%num eqn:Hphi.
    + destruct (tail_root n B g delta vals vecs O HP HN Hphi) as (r & E & _ & Es).
      rewrite E in H. injection H as <- <-. eexists. split; [reflexivity|]. split; [apply (rslam_length n B); auto|].
      change (rnorm (rslam n vals vecs r (ww g vecs))) with (sn n g vals vecs r). split; [lra|auto].
    + unfold indef_tail in H. rewrite Hphi in H. injection H as <- <-. eexists. split; [reflexivity|].
      assert (E : rnorm (rhard n g delta vals vecs) = delta).
      { apply (rhard_delta n B g delta vals vecs O); auto.
        apply Rle_trans with (1 := p0_le_sn n B g vals vecs HD).
        assert (sn n g vals vecs (- mineig vals) <= delta).
        { apply Rnot_lt_le. intros Hlt.
          assert (Hx : (phiE g delta vals vecs (Fin (lam0 vals)) <? Num.n0)%num = true).
          { apply (phi_neg' n B g delta vals vecs O); auto. unfold lam0. destruct (Rltb_spec 0 (mineig vals)); [lra|].
            split; [lra|exact Hlt]. }
          congruence. }
        pose proof (rnorm_nonneg (rslam n vals vecs (- mineig vals) (ww g vecs))).
        unfold sn in *. nra. }
      split; [apply (rhard_length n B); auto|]. rewrite E. split; [lra|auto].
Qed.

(** *** C28 *)
Theorem C28_posdef_unconstrained : forall n B g delta vals vecs O s,
  nd_problem n B g delta vals vecs O ->
  solve_nd_trust_region_subproblem O (fm B) (fv g) (Fin delta) = Ok (s, CPosdef) ->
  exists r, s = fv r /\ forall y, length y = n -> qmodel B g r <= qmodel B g y.
Proof.
  intros n B g delta vals vecs O s HP H. pose proof HP as (HB & HS & Hg & Hn & Hd & HD & HE).
  rewrite (solve_unfold n B g delta vals vecs) in H by auto.
  destruct (Rltb_spec 0 (mineig vals)) as [Hm|Hm]; cbn [andb] in H;
    [destruct (Rleb_spec (sn n g vals vecs 0) (delta + e26)) as [C'|C']|].
  - injection H as <-. eexists. split; [reflexivity|]. intros y Hy.
    apply (posdef_min n B g delta vals vecs O); auto.
  - apply tail_cases in H; [|apply lam0_nn]. destruct H as [(C & _)|(C & _)]; discriminate.
  - apply tail_cases in H; [|apply lam0_nn]. destruct H as [(C & _)|(C & _)]; discriminate.
Qed.
Theorem C28_indef_global : forall n B g delta vals vecs O s,
  nd_problem n B g delta vals vecs O -> exact_roots O ->
  solve_nd_trust_region_subproblem O (fm B) (fv g) (Fin delta) = Ok (s, CIndef) ->
  exists r, s = fv r /\ rnorm r = delta /\ minimizes_on_ball n B g delta r.
Proof.
  intros n B g delta vals vecs O s HP [HX1 HX2] H. pose proof HP as (HB & HS & Hg & Hn & Hd & HD & HE).
  rewrite (solve_unfold n B g delta vals vecs) in H by auto.
  destruct (Rltb 0 (mineig vals) && Rleb (sn n g vals vecs 0) (delta + e26)); [discriminate|].
  apply tail_cases in H; [|apply lam0_nn].
  destruct H as [(_ & Hphi & r & -> & _ & Hr)|(C & _)]; [|discriminate].
  assert (K : nisfin r = true /\ phiE g delta vals vecs r = Fin 0 /\ (Fin (lam0 vals) <=? r)%num = true).
  { destruct Hr as [Hr|(a' & xb & k & Hr & Ha)].
    - exact (HX1 _ _ _ _ Hr).
    - destruct (HX2 _ _ _ _ _ Hr) as (K1 & K2 & K3). split; auto. split; auto.
      eapply (le_trans _ (Fin a')); eauto. cbn. destruct (Rleb_spec (lam0 vals) a'); auto. }
  destruct K as (K1 & K2 & K3). destruct r as [r| | |]; try discriminate.
  destruct (phi_zero' n B g delta vals vecs O HP r K2) as [_ Es].
  assert (lam0 vals < r).
  { assert (lam0 vals <= r) by (cbn in K3; destruct (Rleb_spec (lam0 vals) r); auto; discriminate).
    destruct (Req_dec (lam0 vals) r) as [E|E]; [|lra]. exfalso. subst r. exact (left_not_root _ _ _ _ _ Hphi K2). }
  destruct (root_min n B g delta vals vecs O HP r) as [R1 R2]; auto.
  exists (rslam n vals vecs r (ww g vecs)). split; [|split; auto]. apply (slE_fin n B g delta vals vecs O HP).
Qed.
(** In the hard case (the singular system has a solution inside the ball) the code detects it and
    returns a global minimizer, whatever the root finders do. *)
Theorem C28_hard_global : forall n B g delta vals vecs O m p,
  nd_problem n B g delta vals vecs O -> smallest n vals m -> m <= 0 ->
  length p = n -> rnorm p <= delta -> radd (rmv B p) (rscale (- m) p) = rscale (-1) g ->
  exists r, solve_nd_trust_region_subproblem O (fm B) (fv g) (Fin delta) = Ok (fv r, CHard)
    /\ rnorm r = delta /\ minimizes_on_ball n B g delta r.
Proof.
  intros n B g delta vals vecs O m p HP Hm Hm0 Hp Hpd HC. pose proof HP as (HB & HS & Hg & Hn & Hd & HD & HE).
  rewrite (smallest_mineig n B g delta vals vecs O m HP Hm) in *. clear Hm m.
  destruct (hard_phi n B g delta vals vecs O HP p) as [H1 H2]; auto.
  destruct (hard_min n B g delta vals vecs O HP p) as [H3 H4]; auto.
  exists (rhard n g delta vals vecs). split; [|split; auto].
  rewrite (solve_unfold n B g delta vals vecs) by auto.
  destruct (Rltb_spec 0 (mineig vals)); [lra|]. cbn [andb].
  unfold indef_tail. now rewrite H2.
Qed.
(** Total correctness outside the gap of C29: positive definite, hard, or with a gradient component
    along a lowest eigenvector larger than the radius. *)
Theorem C28_solves : forall n B g delta vals vecs O m,
  nd_problem n B g delta vals vecs O -> smallest n vals m ->
  roots_found O g delta vals vecs ->
  (0 < m
   \/ (exists p, length p = n /\ rnorm p <= delta /\ radd (rmv B p) (rscale (- m) p) = rscale (-1) g)
   \/ (exists i, (i < n)%nat /\ nth i vals 0 = m /\ delta < Rabs (rdot (nth i vecs []) g))) ->
  exists r lab, solve_nd_trust_region_subproblem O (fm B) (fv g) (Fin delta) = Ok (fv r, lab)
    /\ rnorm r <= delta + / IZR (2 ^ 26) /\ minimizes_on_ball n B g delta r
    /\ (rnorm r <= delta \/ forall y, length y = n -> qmodel B g r <= qmodel B g y).
Proof.
  intros n B g delta vals vecs O m HP Hm HN Hcase. pose proof HP as (HB & HS & Hg & Hn & Hd & HD & HE).
  pose proof (smallest_mineig n B g delta vals vecs O m HP Hm) as Em.
  pose proof e26_pos as He. fold e26.
  assert (Key : (phiE g delta vals vecs (Fin (lam0 vals)) <? Num.n0)%num = true ->
    exists r lab, indef_tail O (phiE g delta vals vecs) (dphiE g delta vals vecs) (slE g vals vecs)
       (fv (rhard n g delta vals vecs)) (Fin delta) (Fin (lam0 vals)) = Ok (fv r, lab)
      /\ rnorm r <= delta + e26 /\ minimizes_on_ball n B g delta r
      /\ (rnorm r <= delta \/ forall y, length y = n -> qmodel B g r <= qmodel B g y)).
  { intros Hphi. destruct (tail_root n B g delta vals vecs O HP HN Hphi) as (r & E & Hr & Es).
    destruct (root_min n B g delta vals vecs O HP r) as [R1 R2]; auto.
    exists (rslam n vals vecs r (ww g vecs)), CIndef. split; [exact E|]. split; [lra|]. split; [auto|left; lra]. }
  destruct (Rlt_dec 0 m) as [Hpos|Hneg].
  - rewrite (solve_unfold n B g delta vals vecs) by auto. rewrite <- Em.
    destruct (Rltb_spec 0 m); [|lra]. cbn [andb].
    destruct (Rleb_spec (sn n g vals vecs 0) (delta + e26)) as [C|C].
    + exists (rslam n vals vecs 0 (ww g vecs)), CPosdef. split; [reflexivity|]. split; [exact C|].
      assert (K : forall y, length y = n -> qmodel B g (rslam n vals vecs 0 (ww g vecs)) <= qmodel B g y); [|split; [intros y Hy _; auto|right; exact K]].
      intros y Hy. apply (posdef_min n B g delta vals vecs O); auto. lra.
    + apply Key. apply (phi_neg' n B g delta vals vecs O); auto. unfold lam0. rewrite <- Em.
      destruct (Rltb_spec 0 m); [|lra]. split; lra.
  - destruct Hcase as [H|[(p & Hp & Hpd & HC)|(i & Hi & Ei & Hgi)]]; [contradiction| |].
    + destruct (C28_hard_global n B g delta vals vecs O m p) as (r & R1 & R2 & R3); auto; try lra.
      exists r, CHard. split; [exact R1|]. split; [lra|]. split; [auto|left; lra].
    + rewrite (solve_unfold n B g delta vals vecs) by auto. rewrite <- Em.
      destruct (Rltb_spec 0 m); [lra|]. cbn [andb]. apply Key.
      apply (phi_neg' n B g delta vals vecs O); auto. unfold lam0. rewrite <- Em.
      destruct (Rltb_spec 0 m); [lra|]. split; [lra|].
      apply Rlt_le_trans with (1 := Hgi).
      pose proof (rnorm_nonneg (rslam n vals vecs (- m) (ww g vecs))) as Hnn.
      apply Rsqr_incr_0_var; [|exact Hnn]. unfold sn, Rsqr. rewrite rnorm_sq.
      rewrite (rslam_sq n B) by (auto; apply (ww_length n B g vals); auto).
      assert (Hle : cf (nth i (ww g vecs) 0) (ev vals i + - m) * cf (nth i (ww g vecs) 0) (ev vals i + - m)
        <= rsum n (fun i => cf (nth i (ww g vecs) 0) (ev vals i + - m) * cf (nth i (ww g vecs) 0) (ev vals i + - m))).
      { clear - Hi. set (f := fun i : nat => cf (nth i (ww g vecs) 0) (ev vals i + - m) * cf (nth i (ww g vecs) 0) (ev vals i + - m)).
        change (f i <= rsum n f). assert (P : forall j, 0 <= f j) by (intros j; apply Rle_0_sqr).
        now apply rsum_ge_term. }
      eapply Rle_trans; [|exact Hle]. rewrite (nth_ww n g) by auto. unfold cf, ev. rewrite Ei.
      destruct (Reqb_spec (m + - m) 0); [|lra]. unfold vi.
      rewrite <- Rabs_mult. rewrite Rabs_pos_eq by apply Rle_0_sqr. lra.
Qed.

(** *** Concrete problems *)
Definition diag2 (a b : R) : rmat := [[a; 0]; [0; b]].
Lemma diag2_eig a b : eig_decomposition 2 (diag2 a b) [a; b] (reye 2).
Proof.
  split; [reflexivity|]. split; [apply is_mat_eye|]. split; [apply orthonormal_eye|].
  intros [|[|i]] Hi; [| |lia]; unfold rmv, rscale, rdot; simpl; (f_equal; [lra|f_equal; lra]).
Qed.
Definition oracles_with (vals : rvec) (vecs : list rvec) nw bq : SubOracles ER :=
  mkSubOracles _ (fun _ => Some (fv vals, fm vecs)) nw bq.
Lemma diag2_problem a b g1 g2 delta O : 0 < delta ->
  sp_eig O (fm (diag2 a b)) = Some (fv [a; b], fm (reye 2)) ->
  nd_problem 2 (diag2 a b) [g1; g2] delta [a; b] (reye 2) O.
Proof.
  intros Hd HE. split; [split; [reflexivity|repeat constructor]|].
  split; [intros [|[|[|i]]] [|[|[|j]]]; reflexivity|]. split; [reflexivity|]. split; [lia|]. split; [exact Hd|].
  split; [apply diag2_eig|exact HE].
Qed.
Lemma diag2_smallest a b : a <= b -> smallest 2 [a; b] a.
Proof. intros H. split; [exists 0%nat; split; [lia|reflexivity]|]. intros [|[|i]] Hi; simpl; try lra; lia. Qed.
Lemma eye2_dot0 x y : rdot (nth 0 (reye 2) []) [x; y] = x.
Proof. unfold rdot; simpl; lra. Qed.
Lemma eye2_dot1 x y : rdot (nth 1 (reye 2) []) [x; y] = y.
Proof. unfold rdot; simpl; lra. Qed.

(** C27, the rest: if both root finders give up, the fallback step can be far outside the region *)
Theorem C27_fallback_refuted : exists B g delta vals vecs O s r,
  nd_problem 2 B g delta vals vecs O /\ posdef 2 B
  /\ solve_nd_trust_region_subproblem O (fm B) (fv g) (Fin delta) = Ok (s, CHard)
  /\ s = fv r /\ 100 * delta <= rnorm r.
Proof.
  set (O := oracles_with [1; 2] (reye 2) (fun _ _ _ => NoConv) (fun _ _ _ _ => NoConv)).
  set (g := [0; -100]).
  assert (HP : nd_problem 2 (diag2 1 2) g 1 [1; 2] (reye 2) O) by (apply diag2_problem; [lra|reflexivity]).
  pose proof HP as (HB & HS & Hg & Hn & Hd & HD & HE).
  assert (Hm : 1 = mineig [1; 2]).
  { apply (smallest_mineig 2 (diag2 1 2) g 1 [1; 2] (reye 2) O 1 HP). apply diag2_smallest. lra. }
  exists (diag2 1 2), g, 1, [1; 2], (reye 2), O, (fv (rhard 2 g 1 [1; 2] (reye 2))), (rhard 2 g 1 [1; 2] (reye 2)).
  split; [exact HP|]. split; [|split; [|split; [reflexivity|]]].
  - intros [|x [|y [|]]] Hx Hnz; try discriminate. apply nonzero_dot in Hnz.
    unfold rform, rmv, rdot in *; simpl in *. nra.
  - rewrite (solve_unfold 2 (diag2 1 2) g 1 [1; 2] (reye 2)) by auto. rewrite <- Hm.
    destruct (Rltb_spec 0 1); [|lra]. cbn [andb].
    assert (Es : 50 <= sn 2 g [1; 2] (reye 2) 0).
    { apply Rnot_lt_le. intros C. unfold sn in C. apply rnorm_lt in C; [|lra].
      rewrite (rslam_sq 2 (diag2 1 2)) in C by (auto; reflexivity). simpl in C. unfold cf, ev in C. simpl in C.
      destruct (Reqb_spec (1 + 0) 0); [lra|]. destruct (Reqb_spec (2 + 0) 0); [lra|]. lra. }
    assert (e26 < 1).
    { unfold e26. rewrite <- Rinv_1. apply Rinv_lt_contravar; [|apply IZR_lt; reflexivity].
      rewrite Rmult_1_l. apply IZR_lt. reflexivity. }
    destruct (Rleb_spec (sn 2 g [1; 2] (reye 2) 0) (1 + e26)); [lra|].
    unfold indef_tail.
    assert (Hphi : (phiE g 1 [1; 2] (reye 2) (Fin (lam0 [1; 2])) <? Num.n0)%num = true).
    { apply (phi_neg' 2 (diag2 1 2) g 1 [1; 2] (reye 2) O HP). unfold lam0. rewrite <- Hm.
      destruct (Rltb_spec 0 1); lra. }
    rewrite Hphi. cbn [sp_newton sp_brentq O oracles_with].
    destruct (expand_bracket _ _ _ _) as [[xa xb] [|k]]; reflexivity.
  - apply Rnot_lt_le. intros C. apply rnorm_lt in C; [|lra].
    rewrite (rhard_sq 2 (diag2 1 2)) in C by auto.
    pose proof (Rmax_l (rdot (p0 2 g [1; 2] (reye 2)) (p0 2 g [1; 2] (reye 2))) (1 * 1)) as Hx.
    set (M := Rmax _ _) in *. clearbody M.
    rewrite (sq_coords 2 (diag2 1 2) [1; 2] (reye 2) HD (p0 2 g [1; 2] (reye 2))) in Hx by (apply (p0_length 2 (diag2 1 2)); auto).
    cbn [rsum] in Hx. rewrite !(p0_coord 2 (diag2 1 2)) in Hx by (auto; lia).
    unfold ev, vi, g in Hx. rewrite eye2_dot0, eye2_dot1 in Hx. cbn [nth] in Hx. rewrite <- Hm in Hx.
    destruct (Reqb_spec (1 - 1) 0); [|lra]. destruct (Reqb_spec (2 - 1) 0); [lra|]. replace (- -100 / (2 - 1)) with 100 in Hx by field. unfold g in C. lra.
Qed.

(** C29: the documented claim that every problem is solved is false.  The gradient has a small
    component along the lowest eigenvector; the code takes the hard-case branch and moves along
    the eigenvector uphill: the model value is larger than for no step at all. *)
Theorem C29_refuted : exists B g delta vals vecs,
  forall O, sp_eig O (fm B) = Some (fv vals, fm vecs) ->
  nd_problem 2 B g delta vals vecs O
  /\ exists r, solve_nd_trust_region_subproblem O (fm B) (fv g) (Fin delta) = Ok (fv r, CHard)
       /\ qmodel B g (rzeros 2) < qmodel B g r /\ ~ minimizes_on_ball 2 B g delta r.
Proof.
  set (g := [3 / 5; 0]). exists (diag2 (-1) 1), g, 1, [-1; 1], (reye 2). intros O HE'.
  assert (HP : nd_problem 2 (diag2 (-1) 1) g 1 [-1; 1] (reye 2) O) by (apply diag2_problem; [lra|exact HE']).
  split; [exact HP|]. pose proof HP as (HB & HS & Hg & Hn & Hd & HD & HE).
  assert (Hm : -1 = mineig [-1; 1]).
  { apply (smallest_mineig 2 (diag2 (-1) 1) g 1 [-1; 1] (reye 2) O (-1) HP). apply diag2_smallest. lra. }
  assert (Hj : jm [-1; 1] = 0%nat).
  { pose proof (jm_lt 2 (diag2 (-1) 1) g [-1; 1] (reye 2) Hg Hn HD) as Hl.
    unfold mineig, ev in Hm. destruct (jm [-1; 1]) as [|[|k]]; [reflexivity| |lia]. simpl in Hm. lra. }
  assert (Hp0 : p0 2 g [-1; 1] (reye 2) = rzeros 2).
  { apply (coords_inj 2 (reye 2)); [apply is_mat_eye|apply orthonormal_eye|apply (p0_length 2 (diag2 (-1) 1)); auto|reflexivity|].
    intros i Hi. change (nth i (reye 2) []) with (vi (reye 2) i). rewrite (p0_coord 2 (diag2 (-1) 1)) by auto.
    rewrite rdot_zeros_r. rewrite <- Hm. destruct i as [|[|i]]; [| |lia]; unfold ev, vi, g; cbn [nth].
    - destruct (Reqb_spec (-1 - -1) 0); [reflexivity|lra].
    - destruct (Reqb_spec (1 - -1) 0); [lra|]. rewrite eye2_dot1. field. }
  assert (Hsig : sigma 2 g 1 [-1; 1] (reye 2) = 1).
  { unfold sigma. rewrite rnorm_sq, Hp0, rdot_zeros_l. destruct (Rltb_spec (1 * 1 - 0) 0); [lra|].
    replace (1 * 1 - 0) with 1 by lra. apply sqrt_1. }
  assert (Hr : rhard 2 g 1 [-1; 1] (reye 2) = [1; 0]).
  { unfold rhard. rewrite Hp0, Hsig, Hj. unfold vi, rscale. simpl. f_equal; [lra|]. f_equal. lra. }
  exists [1; 0]. split; [|split].
  - rewrite (solve_unfold 2 (diag2 (-1) 1) g 1 [-1; 1] (reye 2)) by auto. rewrite <- Hm.
    destruct (Rltb_spec 0 (-1)); [lra|]. cbn [andb]. unfold indef_tail.
    destruct (phiE g 1 [-1; 1] (reye 2) (Fin (lam0 [-1; 1])) <? Num.n0)%num eqn:Hphi.
    + exfalso. apply (phi_neg' 2 (diag2 (-1) 1) g 1 [-1; 1] (reye 2) O HP) in Hphi as [_ Hphi].
      unfold lam0 in Hphi. rewrite <- Hm in Hphi. destruct (Rltb_spec 0 (-1)); [lra|].
      assert (sn 2 g [-1; 1] (reye 2) (- -1) <= 3 / 5); [|lra].
      unfold sn. apply rnorm_le; [lra|]. rewrite (rslam_sq 2 (diag2 (-1) 1)) by (auto; reflexivity).
      cbn [rsum]. rewrite !(nth_ww 2 g) by lia. unfold vi, ev, cf, g. rewrite eye2_dot0, eye2_dot1. cbn [nth].
      destruct (Reqb_spec (-1 + - -1) 0); [|lra]. destruct (Reqb_spec (1 + - -1) 0); [lra|].
      replace (- 0 / (1 + - -1)) with 0 by field. lra.
    + now rewrite Hr.
  - unfold qmodel, rform, rmv, rdot, g; simpl. lra.
  - intros M. assert (K : qmodel (diag2 (-1) 1) g [1; 0] <= qmodel (diag2 (-1) 1) g [-1; 0]).
    { apply M; [reflexivity|]. apply rnorm_le; [lra|]. unfold rdot; simpl; lra. }
    unfold qmodel, rform, rmv, rdot, g in K; simpl in K. lra.
Qed.

(** non-vacuity: an indefinite problem on which Newton finds the root, and a hard one *)
Example C28_ex_newton : let O := oracles_with [-1; 1] (reye 2) (fun _ _ _ => Root (Fin 4)) (fun _ _ _ _ => NoConv) in
  nd_problem 2 (diag2 (-1) 1) [3; 0] 1 [-1; 1] (reye 2) O
  /\ newton_finds O (code_secular [3; 0] 1 [-1; 1] (reye 2))
  /\ smallest 2 [-1; 1] (-1) /\ 1 < Rabs (rdot (nth 0 (reye 2) []) [3; 0]).
Proof.
  cbv zeta. set (O := oracles_with _ _ _ _).
  assert (HP : nd_problem 2 (diag2 (-1) 1) [3; 0] 1 [-1; 1] (reye 2) O) by (apply diag2_problem; [lra|reflexivity]).
  split; [exact HP|]. split; [|split; [apply diag2_smallest; lra|rewrite eye2_dot0, Rabs_pos_eq; lra]].
  pose proof HP as (HB & HS & Hg & Hn & Hd & HD & HE).
  assert (Hm : -1 = mineig [-1; 1]).
  { apply (smallest_mineig 2 (diag2 (-1) 1) [3; 0] 1 [-1; 1] (reye 2) O (-1) HP). apply diag2_smallest. lra. }
  assert (Esq : forall x, 1 < x -> sn 2 [3; 0] [-1; 1] (reye 2) x * sn 2 [3; 0] [-1; 1] (reye 2) x = 9 / ((x - 1) * (x - 1))).
  { intros x Hx. unfold sn. rewrite rnorm_sq, (rslam_sq 2 (diag2 (-1) 1)) by (auto; reflexivity).
    cbn [rsum]. rewrite !(nth_ww 2 [3; 0]) by lia. unfold vi, ev, cf. rewrite eye2_dot0, eye2_dot1. cbn [nth].
    destruct (Reqb_spec (-1 + x) 0); [lra|]. destruct (Reqb_spec (1 + x) 0); [lra|].
    field. lra. }
  assert (Hnn : forall x, 0 <= sn 2 [3; 0] [-1; 1] (reye 2) x) by (intros; apply rnorm_nonneg).
  rewrite code_secular_eq. intros f' x0 H. exists 4. split; [reflexivity|]. split.
  - change (phi [3; 0] 1 [-1; 1] (reye 2) 4 = Fin 0). rewrite (phi_eq 2 (diag2 (-1) 1)) by auto.
    rewrite <- Hm. destruct (Rltb_spec 4 (- -1)); [lra|].
    assert (E : sn 2 [3; 0] [-1; 1] (reye 2) 4 = 1).
    { specialize (Esq 4). specialize (Hnn 4). assert (K : 1 < 4) by lra. apply Esq in K. nra. }
    rewrite E. destruct (Rltb_spec 0 1); [|lra]. f_equal. lra.
  - destruct x0 as [x| | |].
    + apply (phi_neg' 2 (diag2 (-1) 1) [3; 0] 1 [-1; 1] (reye 2) O HP) in H as [H1 H2].
      cbn. destruct (Rleb_spec x 4) as [|Hx]; auto. exfalso.
      specialize (Esq x). specialize (Hnn x).
      assert (K : 1 < x) by lra. specialize (Esq K).
      assert (9 / ((x - 1) * (x - 1)) <= 1).
      { apply Rmult_le_reg_r with ((x - 1) * (x - 1)); [nra|]. unfold Rdiv. rewrite Rmult_assoc, Rinv_l by nra. nra. }
      nra.
    + exfalso. unfold phiE, secular in H. rewrite (npmin_vals 2 (diag2 (-1) 1) [3; 0] [-1; 1] (reye 2)) in H by auto.
      assert (E : slam PInf (fv (ww [3; 0] (reye 2))) (fv [-1; 1]) (fm (reye 2)) = fv (rlincomb 2 [0; 0] (reye 2))).
      { rewrite <- h_lincomb. reflexivity. }
      rewrite E, h_norm in H. cbn [nltb ERNum nopp er_opp er_ltb Num.n0 nofZ] in H.
      destruct (Rltb_spec 0 (rnorm (rlincomb 2 [0; 0] (reye 2)))) as [Hx|Hx]; [|discriminate H].
      revert Hx. unfold rnorm, rdot, rscale; simpl.
      match goal with |- context [sqrt ?a] => replace a with 0 by lra end. rewrite sqrt_0. lra.
    + exfalso. unfold phiE, secular in H. rewrite (npmin_vals 2 (diag2 (-1) 1) [3; 0] [-1; 1] (reye 2)) in H by auto.
      discriminate H.
    + exfalso. unfold phiE, secular in H. rewrite (npmin_vals 2 (diag2 (-1) 1) [3; 0] [-1; 1] (reye 2)) in H by auto.
      discriminate H.
Qed.
(** what really happens on an indefinite problem with a gradient component in the lowest eigenspace: Newton's method stays at its start,
    a pole with infinite derivative, and Brent's method finds the root *)
Example C28_ex_brentq : let O := oracles_with [-1; 1] (reye 2) (fun _ _ x => Root x) (fun _ _ _ _ => Root (Fin 4)) in
  nd_problem 2 (diag2 (-1) 1) [3; 0] 1 [-1; 1] (reye 2) O
  /\ roots_found O [3; 0] 1 [-1; 1] (reye 2) /\ ~ newton_finds O (code_secular [3; 0] 1 [-1; 1] (reye 2)).
Proof.
  cbv zeta. set (O := oracles_with _ _ _ _). pose proof C28_ex_newton as Ex. cbv zeta in Ex. destruct Ex as (_ & HN & _).
  assert (HP : nd_problem 2 (diag2 (-1) 1) [3; 0] 1 [-1; 1] (reye 2) O) by (apply diag2_problem; [lra|reflexivity]).
  pose proof HP as (HB & HS & Hg & Hn & Hd & HD & HE).
  assert (Hm : forall m, smallest 2 [-1; 1] m -> m = -1).
  { intros m [(i & Hi & Ei) Hl]. pose proof (Hl 0%nat ltac:(lia)) as H0. cbn in H0. destruct i as [|[|i]]; cbn in Ei; lra || lia. }
  assert (E1 : - mineig [-1; 1] = 1).
  { rewrite <- (smallest_mineig 2 (diag2 (-1) 1) [3; 0] 1 [-1; 1] (reye 2) O (-1) HP); [lra|]. apply diag2_smallest. lra. }
  assert (S1 : sn 2 [3; 0] [-1; 1] (reye 2) 1 = 3).
  { unfold sn, rnorm. rewrite (rslam_sq 2 (diag2 (-1) 1)) by (auto; reflexivity).
    cbn [rsum]. rewrite !(nth_ww 2 [3; 0]) by lia. unfold vi, ev, cf. rewrite eye2_dot0, eye2_dot1. cbn [nth].
    destruct (Reqb_spec (-1 + 1) 0); [|lra]. destruct (Reqb_spec (1 + 1) 0); [lra|].
    replace (0 + - (3) * - (3) + - 0 / (1 + 1) * (- 0 / (1 + 1))) with (3 * 3) by field. apply sqrt_square. lra. }
  assert (Neg : (code_secular [3; 0] 1 [-1; 1] (reye 2) (Fin 1) <? Num.n0)%num = true).
  { rewrite code_secular_eq. apply (phi_neg' 2 (diag2 (-1) 1) [3; 0] 1 [-1; 1] (reye 2) O HP). rewrite E1, S1. lra. }
  split; [exact HP|]. split.
  - right. split; [|split].
    + intros m f' Hs f x0 _. apply Hm in Hs. subst m. right. right. exists x0. split; [reflexivity|]. unfold x0.
      replace (Rmax 0 (- -1)) with 1 by (rewrite Rmax_right; lra).
      rewrite h_tmatvec, h_vopp. pose proof (slE_fin 2 (diag2 (-1) 1) [3; 0] 1 [-1; 1] (reye 2) O HP 1) as Es. unfold slE in Es. fold (ww [3; 0] (reye 2)).
      rewrite Es, h_norm. clear Es.
      change (rnorm (rslam 2 [-1; 1] (reye 2) 1 (ww [3; 0] (reye 2)))) with (sn 2 [3; 0] [-1; 1] (reye 2) 1). rewrite S1.
      rewrite frac_fin by discriminate. cbn [nadd ERNum er_add nleb er_leb]. destruct (Rleb_spec 3 (1 + 1 / IZR (10 ^ 12))) as [H|]; [exfalso|reflexivity].
      assert (/ IZR (10 ^ 12) <= 1) by (rewrite <- Rinv_1; apply Rinv_le_contravar; [lra|apply IZR_le; discriminate]). unfold Rdiv in H. lra.
    + intros a b k _ Ha _. exists 4. split; [reflexivity|]. destruct (HN (fun _ => NaN) (Fin a) Ha) as (r & F1 & F2 & F3).
      injection F1 as <-. split; [exact F2|]. cbn in F3. destruct (Rleb_spec a 4); [auto|discriminate].
    + replace (rnorm [3; 0]) with 3; [|unfold rnorm, rdot; cbn; replace (3 * 3 + (0 * 0 + 0)) with (3 * 3) by ring; rewrite sqrt_square; lra].
      assert (1 <= 10 ^ 89) by (apply pow_R1_Rle; lra). replace (10 ^ 90) with (10 * 10 ^ 89) by (cbn [pow]; ring). lra.
  - intros H. destruct (H (fun _ => NaN) (Fin 1) Neg) as (r & F1 & F2 & _). injection F1 as <-.
    rewrite code_secular_eq in *. exact (left_not_root _ _ _ _ _ Neg F2).
Qed.
Example C28_ex_hard : forall O, sp_eig O (fm (diag2 (-1) 1)) = Some (fv [-1; 1], fm (reye 2)) ->
  nd_problem 2 (diag2 (-1) 1) [0; 1] 1 [-1; 1] (reye 2) O
  /\ rnorm [0; - / 2] <= 1 /\ radd (rmv (diag2 (-1) 1) [0; - / 2]) (rscale (- -1) [0; - / 2]) = rscale (-1) [0; 1].
Proof.
  intros O HE. split; [apply diag2_problem; [lra|exact HE]|]. split.
  - apply rnorm_le; [lra|]. unfold rdot; simpl. lra.
  - unfold rmv, rscale, rdot; simpl. f_equal; [lra|]. f_equal. lra.
Qed.
