(** Properties of the hybrid and structured schemes and of initialization (C47-C52) *)
From Coq Require Import ZArith List Bool Reals Lra Lia Psatz.
From Verif Require Import Num Constants HessApprox Steps TrustRegion Minimize ER NumFacts RVec Quasi Prop_Quasi.
Import ListNotations.
Local Open Scope R_scope.

(** *** C47 *)
(** iterative schemes other than BB: the new matrix is the old one plus the reported update, in the
    arithmetic of the machine (any number system) *)
Theorem C47_iterative : forall (T : Type) (N : Num T) (i : ihapp T) s y,
  ih_kind i <> IBB ->
  ih_mat (ih_update i s y) = madd (ih_mat i) (ih_diff (ih_update i s y)).
Proof. intros T N [[] b] s y H; try reflexivity. now elim H. Qed.

Lemma store_adds_up n (b : hbase ER) A H : hb_hess b = fm A -> is_mat n n A -> is_mat n n H ->
  hb_hess (hb_store b (fm H)) = madd (hb_hess b) (hb_diff (hb_store b (fm H))).
Proof.
  intros E1 HA HH. unfold hb_store. cbn [hb_hess hb_diff]. rewrite E1, h_msub, h_madd.
  f_equal. symmetry. now apply (rmadd_sub n).
Qed.

(** every scheme, in exact arithmetic, as long as the matrices before and after are finite:
    get_mat() = previous get_mat() + get_diff().  Excluded: BB and FX around BB *)
Definition is_BB (i : ihapp ER) : Prop := ih_kind i = IBB.
Definition adds_up_excluded (h : happ ER) : Prop :=
  match h with HIter i => is_BB i | HFX i _ _ => is_BB i | _ => False end.
Theorem C47_updates_add_up : forall n h s grad since ninter iter fnew fold h' A A',
  ~ adds_up_excluded h ->
  happ_update h s grad since ninter iter fnew fold = Ok h' ->
  h_mat h = fm A -> is_mat n n A -> h_mat h' = fm A' -> is_mat n n A' ->
  h_mat h' = madd (h_mat h) (h_diff h').
Proof.
  intros n h s grad since ninter iter fnew fold h' A A' Hx Hu EA HA EA' HA'.
  unfold happ_update in Hu. destruct h as [i|i b k sw|i b t sw|i b t|sh]; cbn [adds_up_excluded] in Hx.
  - injection Hu as <-. now apply C47_iterative.
  - destruct (fo_hess fnew) as [hess|]; [|discriminate]. injection Hu as <-.
    unfold fixed_update, switched_update in *. cbn [h_mat h_diff] in *.
    cbn [hb_store hb_hess] in EA'. rewrite EA'. now apply (store_adds_up n _ A).
  - destruct (fo_hess fnew) as [hess|]; [|discriminate]. injection Hu as <-.
    unfold fraction_update, switched_update in *. cbn [h_mat h_diff] in *.
    cbn [hb_store hb_hess] in EA'. rewrite EA'. now apply (store_adds_up n _ A).
  - destruct (fo_hess fnew) as [hess|]; [|discriminate].
    unfold fx_update in Hu. cbv zeta in Hu. destruct (_ <=? _)%num.
    + unfold ih_set_mat, hb_set_mat in Hu. destruct shape_eqb; [|discriminate].
      injection Hu as <-. cbn [h_mat h_diff ih_mat ih_base hb_hess hb_diff] in *.
      unfold ih_mat in *. cbn [ih_base hb_hess] in *.
      rewrite EA, EA', h_msub, h_madd. f_equal. symmetry. now apply (rmadd_sub n).
    + injection Hu as <-. cbn [h_mat h_diff hb_diff]. now apply C47_iterative.
  - destruct (fo_hess fnew) as [hess|]; [|discriminate]. injection Hu as <-.
    cbn [h_mat h_diff] in *.
    assert (Hst : forall h0, hb_hess (hb_store (sh_base sh) h0) = fm A' ->
      hb_hess (hb_store (sh_base sh) h0)
      = madd (hb_hess (sh_base sh)) (hb_diff (hb_store (sh_base sh) h0))).
    { intros h0 E0. cbn [hb_store hb_hess] in E0. subst h0. now apply (store_adds_up n _ A). }
    revert EA'. unfold sh_update. cbv zeta.
    destruct (sh_kind sh); try (destruct (_ <? _)%num); cbn [sh_base]; apply Hst.
Qed.
(** BB reports updates it never applies *)
Theorem C47_BB_refuted : exists i s y, ih_kind i = IBB /\ mfinite (ih_mat i) = true
  /\ ih_mat (ih_update i s y) <> madd (ih_mat i) (ih_diff (ih_update i s y)).
Proof.
  exists (holding IBB [[1]] []), (fv [1]), (fv [2]). split; [reflexivity|]. split; [reflexivity|].
  unfold ih_update, holding. cbn [ih_kind]. unfold ih_mat, ih_diff. cbn [ih_base hb_hess hb_diff].
  unfold bb_diff. cbv zeta. rewrite h_matvec, h_vsub, h_dot. cbn [nleb ERNum er_leb n0 nofZ].
  assert (E1 : rdot [2] [1] = 2) by (unfold rdot; simpl; lra). rewrite E1.
  destruct (Rleb_spec 2 0); [lra|]. rewrite h_outer, h_mdivs, h_madd by lra.
  intros H. apply fm_inj in H. unfold rmadd, rmscale, router, rsub, rscale, radd, rmv, rdot in H. simpl in H.
  injection H as H. lra.
Qed.

(** *** C48 *)
(** What a sequence of updates of a hybrid scheme sees: step, gradient difference, Hessian and the
    iteration counters at that update *)
Record hyb_in {T : Type} := mkHyb {
  hy_s : list T; hy_y : list T; hy_hess : list (list T); hy_since : Z; hy_ninter : Z; hy_iter : Z }.
Arguments hyb_in : clear implicits.
Section Hybrid.
  Context {T : Type} {N : Num T}.
  Definition run_fixed (us : list (hyb_in T)) (h : happ T) : happ T :=
    fold_left (fun h u => match h with
      | HFixed i b k sw => fixed_update i b k sw (hy_s u) (hy_y u) (hy_hess u) (hy_since u)
      | _ => h end) us h.
  Definition run_fraction (us : list (hyb_in T)) (h : happ T) : happ T :=
    fold_left (fun h u => match h with
      | HFraction i b t sw => fraction_update i b t sw (hy_s u) (hy_y u) (hy_hess u) (hy_ninter u) (hy_iter u)
      | _ => h end) us h.
  (** the iterative scheme alone on the same data *)
  Definition run_inner (us : list (hyb_in T)) (i : ihapp T) : ihapp T :=
    fold_left (fun i u => ih_update i (hy_s u) (hy_y u)) us i.

  Definition fixed_condition (k : Z) (u : hyb_in T) : bool := (k <=? hy_since u)%Z.
  Definition fraction_condition (t : T) (u : hyb_in T) : bool :=
    (25 <? hy_iter u)%Z && nltb t (ndiv (nofZ (hy_ninter u)) (nofZ (hy_iter u))).

  Lemma run_fixed_state us : forall i b k sw,
    exists b', run_fixed us (HFixed i b k sw) = HFixed (run_inner us i) b' k (sw || existsb (fixed_condition k) us).
  Proof.
    induction us as [|u us IH]; intros i b k sw.
    - exists b. simpl. now rewrite orb_false_r.
    - match goal with |- context [run_fixed (u :: us) ?h] => change (run_fixed (u :: us) h) with
        (run_fixed us (fixed_update i b k sw (hy_s u) (hy_y u) (hy_hess u) (hy_since u))) end.
      unfold fixed_update, switched_update.
      match goal with |- context [HFixed ?i' ?b' k ?sw'] =>
        destruct (IH i' b' k sw') as [b'' E]; exists b''; rewrite E end.
      f_equal. cbn [existsb]. unfold fixed_condition at 2. destruct sw; cbn [orb]; reflexivity.
  Qed.
  Lemma run_fraction_state us : forall i b t sw,
    exists b', run_fraction us (HFraction i b t sw) = HFraction (run_inner us i) b' t (sw || existsb (fraction_condition t) us).
  Proof.
    induction us as [|u us IH]; intros i b t sw.
    - exists b. simpl. now rewrite orb_false_r.
    - match goal with |- context [run_fraction (u :: us) ?h] => change (run_fraction (u :: us) h) with
        (run_fraction us (fraction_update i b t sw (hy_s u) (hy_y u) (hy_hess u) (hy_ninter u) (hy_iter u))) end.
      unfold fraction_update, switched_update.
      match goal with |- context [HFraction ?i' ?b' t ?sw'] =>
        destruct (IH i' b' t sw') as [b'' E]; exists b''; rewrite E end.
      f_equal. cbn [existsb]. unfold fraction_condition at 2. destruct sw; cbn [orb negb andb]; reflexivity.
  Qed.

  (** after updates us followed by u, a fresh HybridFixed(happ, k) reports the Hessian of u unless
      the condition held at an update strictly before u; in that case it reports the iterative
      matrix, which has been updated with all of us and u *)
  Theorem C48_fixed : forall i b k us u,
    h_mat (run_fixed (us ++ [u]) (HFixed i b k false))
    = if existsb (fixed_condition k) us then ih_mat (run_inner (us ++ [u]) i) else hy_hess u.
  Proof.
    intros i b k us u. unfold run_fixed. rewrite fold_left_app.
    destruct (run_fixed_state us i b k false) as [b' E]. unfold run_fixed in E. rewrite E.
    cbn [orb fold_left]. unfold fixed_update, switched_update, run_inner. rewrite fold_left_app.
    cbn [h_mat hb_store hb_hess fold_left]. destruct existsb; reflexivity.
  Qed.
  Theorem C48_fraction : forall i b t us u,
    h_mat (run_fraction (us ++ [u]) (HFraction i b t false))
    = if existsb (fraction_condition t) us then ih_mat (run_inner (us ++ [u]) i) else hy_hess u.
  Proof.
    intros i b t us u. unfold run_fraction. rewrite fold_left_app.
    destruct (run_fraction_state us i b t false) as [b' E]. unfold run_fraction in E. rewrite E.
    cbn [orb fold_left]. unfold fraction_update, switched_update, run_inner. rewrite fold_left_app.
    cbn [h_mat hb_store hb_hess fold_left]. destruct existsb; reflexivity.
  Qed.
  (** never back: once the iterative matrix is reported it is reported after all further updates *)
  Corollary C48_never_back : forall i b k us u vs v,
    existsb (fixed_condition k) us = true ->
    h_mat (run_fixed ((us ++ u :: vs) ++ [v]) (HFixed i b k false))
    = ih_mat (run_inner ((us ++ u :: vs) ++ [v]) i).
  Proof. intros. rewrite C48_fixed. now rewrite existsb_app, H. Qed.
End Hybrid.
Example C48_ex : existsb (fixed_condition (T := R) 2) [mkHyb R [] [] [] 0 0 1; mkHyb R [] [] [] 2 0 2] = true
  /\ existsb (fixed_condition (T := R) 2) [mkHyb R [] [] [] 0 0 1; mkHyb R [] [] [] 1 0 2] = false.
Proof. split; reflexivity. Qed.

(** *** C49 *)
Theorem C49_alternates : forall (T : Type) (N : Num T) (i : ihapp T) b tol delta gamma r rprev hess h',
  fx_update i b tol delta gamma r rprev hess = Ok h' ->
  let ratio := ((dot rprev rprev - dot r r) / dot rprev rprev)%num in
  h_mat h' = (if (tol <=? ratio)%num then hess else ih_mat (ih_update i delta gamma)).
Proof.
  intros T N i b tol delta gamma r rprev hess h' H. cbv zeta. unfold fx_update in H. cbv zeta in H.
  destruct (_ <=? _)%num.
  - unfold ih_set_mat, hb_set_mat in H. destruct shape_eqb; [|discriminate]. now injection H as <-.
  - now injection H as <-.
Qed.
(** what the docstring says (dynamic approximation while the relative decrease is *below* the
    tolerance, lines 365-368) is the opposite of what happens *)
Theorem C49_documented_direction_refuted :
  exists (i : ihapp ER) b tol delta gamma r rprev hess h',
    fx_update i b tol delta gamma r rprev hess = Ok h'
    /\ ((dot rprev rprev - dot r r) / dot rprev rprev <? tol)%num = true
    /\ h_mat h' <> hess.
Proof.
  exists (holding IBB [[1]] []), (mkHbase (fm [[1]]) []), (Fin (1/5)), (fv [1]), (fv [1]), (fv [1]), (fv [1]), (fm [[5]]).
  unfold fx_update. cbv zeta. rewrite !h_dot.
  assert (E1 : rdot [1] [1] = 1) by (unfold rdot; simpl; lra). rewrite E1.
  assert (E2 : ((Fin 1 - Fin 1) / Fin 1)%num = Fin 0).
  { cbn. destruct (Reqb_spec 1 0); [lra|]. f_equal. lra. }
  rewrite E2. cbn [nleb nltb ERNum er_leb er_ltb].
  destruct (Rleb_spec (1/5) 0); [lra|]. destruct (Rltb_spec 0 (1/5)); [|lra].
  eexists. split; [reflexivity|]. split; [reflexivity|].
  cbn [h_mat]. unfold ih_update, holding. cbn [ih_kind]. unfold ih_mat. cbn [ih_base hb_hess].
  intros H. apply fm_inj in H. injection H as H. lra.
Qed.

(** positive definiteness over a whole history of FX with a Broyden-class inner scheme *)
Record fx_in := mkFx { fx_delta : rvec; fx_gamma : rvec; fx_r : rvec; fx_rprev : rvec; fx_hess : rmat }.
Inductive fx_history (n : nat) (tol : ER) : happ ER -> happ ER -> Prop :=
| fxh_nil h : fx_history n tol h h
| fxh_step h i b u h1 :
    fx_history n tol h (HFX i b tol) ->
    length (fx_delta u) = n -> length (fx_gamma u) = n ->
    is_mat n n (fx_hess u) -> symmetric (fx_hess u) -> posdef n (fx_hess u) ->
    fx_update i b tol (fv (fx_delta u)) (fv (fx_gamma u)) (fv (fx_r u)) (fv (fx_rprev u)) (fm (fx_hess u)) = Ok h1 ->
    fx_history n tol h h1.
Theorem C49_positive_definite : forall n phi tol B0 D b h',
  0 <= phi <= 1 -> is_mat n n B0 -> symmetric B0 -> posdef n B0 ->
  fx_history n tol (HFX (holding (IBroyden (Fin phi) true) B0 D) b tol) h' ->
  exists B, h_mat h' = fm B /\ is_mat n n B /\ symmetric B /\ posdef n B.
Proof.
  intros n phi tol B0 D b h' Hphi HB HS HP H.
  assert (G : exists B D' b', h' = HFX (holding (IBroyden (Fin phi) true) B D') b' tol
                              /\ is_mat n n B /\ symmetric B /\ posdef n B).
  { remember (HFX (holding (IBroyden (Fin phi) true) B0 D) b tol) as h0 eqn:E0.
    induction H as [|h i b1 u h1 H IH L1 L2 M1 M2 M3 Hu].
    - exists B0, D, b. auto.
    - destruct (IH E0) as (B & D' & b' & E & M & S & P). injection E as -> ->.
      unfold fx_update in Hu. cbv zeta in Hu. destruct (_ <=? _)%num.
      + unfold ih_set_mat, hb_set_mat in Hu. destruct shape_eqb; [|discriminate].
        injection Hu as <-. exists (fx_hess u). eexists. eexists. split; [reflexivity|]. auto.
      + destruct (C42_step n phi B D' (fx_delta u) (fx_gamma u)) as (B1 & D1 & E1 & N1 & N2 & N3); auto.
        rewrite E1 in Hu. injection Hu as <-. exists B1. eexists. eexists. split; [reflexivity|]. auto. }
  destruct G as (B & D' & b' & -> & G). exists B. split; [reflexivity|auto].
Qed.
Example C49_ex : exists h', fx_history 1 (Fin 0)
  (HFX (holding (BFGS true) [[1]] []) (mkHbase (fm [[1]]) []) (Fin 0)) h'
  /\ h_mat h' = fm [[7]].
Proof.
  eexists. split.
  - eapply (fxh_step 1 (Fin 0) _ _ _ (mkFx [1] [1] [0] [1] [[7]])); try reflexivity.
    + apply fxh_nil.
    + split; [reflexivity|repeat constructor].
    + intros [|[|i]] [|[|j]]; reflexivity.
    + intros [|a []] Hx Hn; simpl in Hx; try lia. destruct Hn as [[|[|i]] Hi]; simpl in Hi; try lra.
      unfold rform, rmv, rdot. simpl. assert (0 < a * a) by (destruct (Rtotal_order a 0) as [|[|]]; nra). nra.
    + unfold fx_update. cbv zeta. cbn [fx_delta fx_gamma fx_r fx_rprev fx_hess]. rewrite !h_dot.
      assert (E1 : rdot [1] [1] = 1) by (unfold rdot; simpl; lra).
      assert (E2 : rdot [0] [0] = 0) by (unfold rdot; simpl; lra). rewrite E1, E2.
      assert (E3 : (Fin 0 <=? (Fin 1 - Fin 0) / Fin 1)%num = true).
      { cbn. destruct (Reqb_spec 1 0); [lra|]. simpl.
        match goal with |- Rleb ?a ?b = true => destruct (Rleb_spec a b) as [|Hn0] end; [reflexivity|].
        exfalso. apply Hn0. lra. }
      rewrite E3. reflexivity.
  - reflexivity.
Qed.

(** *** C50 *)
(** a structured scheme holding A (and anything else) *)
Definition sholding (k : skind ER) (phi : R) (enforce : bool) (A : rmat) (d : list (list ER)) (b : hbase ER) : shapp ER :=
  mkShapp k (Fin phi) enforce (fm A) d b.
Lemma new_A_secant n A H d s yb : is_mat n n A -> is_mat n n H -> is_mat n n d ->
  length s = n -> length yb = n ->
  rmv (rmadd (rmadd H A) d) s = radd yb (rmv H s) -> rmv (rmadd A d) s = yb.
Proof.
  intros HA HH Hd Hs Hyb E. rewrite (rmv_madd n n), (rmv_madd n n) in E by (auto using is_mat_madd).
  rewrite (rmv_madd n n) by auto.
  destruct HA as [LA _], HH as [LH _], Hd as [Ld _].
  apply rvec_ext; [rlen|]. intros i. apply (f_equal (fun v => nth i v 0)) in E.
  rewrite !nth_radd in E by rlen. rewrite nth_radd by rlen. lra.
Qed.
Theorem C50_SSM : forall n phi enforce A d b H s y r yb,
  is_mat n n A -> is_mat n n H -> length s = n -> length yb = n ->
  let ys := radd yb (rmv H s) in
  (0 < rdot ys s \/ enforce = false /\ rdot ys s <> 0) ->
  rdot s (rmv (rmadd H A) s) <> 0 ->
  exists A', sh_A (sh_update (sholding SSSM phi enforce A d b) (fv s) y r (fm H) (fv yb)) = fm A'
    /\ is_mat n n A' /\ rmv A' s = yb
    /\ hb_hess (sh_base (sh_update (sholding SSSM phi enforce A d b) (fv s) y r (fm H) (fv yb)))
       = fm (rmadd H A').
Proof.
  intros n phi enforce A d b H s y r yb HA HH Hs Hyb ys Hb Hc. rewrite rdot_comm in Hc.
  assert (LH : length (rmv H s) = n) by (destruct HH; rlen).
  assert (Hys : length ys = n) by (unfold ys; rlen).
  assert (Hb0 : rdot ys s <> 0) by (destruct Hb as [Hb|[_ Hb]]; lra).
  assert (HM : is_mat n n (rmadd H A)) by now apply is_mat_madd.
  assert (HD : is_mat n n (rbroyden ys s (rmadd H A) phi)) by now apply is_mat_rbroyden.
  exists (rmadd A (rbroyden ys s (rmadd H A) phi)).
  unfold sh_update, sholding. cbn [sh_kind sh_A sh_base sh_phi sh_enforce hb_store hb_hess]. cbv zeta.
  rewrite h_madd, h_matvec, h_vadd. fold ys.
  rewrite (h_broyden n) by (auto; tauto). rewrite !h_madd.
  split; [reflexivity|]. split; [now apply is_mat_madd|]. split; [|reflexivity].
  eapply (new_A_secant n A H); eauto. now apply (rbroyden_secant n).
Qed.
Theorem C50_TSSM : forall n phi enforce A d b H s y r yb,
  is_mat n n A -> is_mat n n H -> length s = n -> length yb = n -> nonzero r ->
  let ys := radd (rmv H s) yb in
  (0 < rdot ys s \/ enforce = false /\ rdot ys s <> 0) ->
  rdot s (rmv (rmadd H (rmscale (rnorm r) A)) s) <> 0 ->
  exists A', sh_A (sh_update (sholding STSSM phi enforce A d b) (fv s) y (fv r) (fm H) (fv yb)) = fm A'
    /\ is_mat n n A' /\ rscale (rnorm r) (rmv A' s) = yb
    /\ hb_hess (sh_base (sh_update (sholding STSSM phi enforce A d b) (fv s) y (fv r) (fm H) (fv yb)))
       = fm (rmadd H (rmscale (rnorm r) A')).
Proof.
  intros n phi enforce A d b H s y r yb HA HH Hs Hyb Hr ys Hb Hc. rewrite rdot_comm in Hc.
  assert (Hn : 0 < rnorm r) by now apply rnorm_pos, nonzero_dot.
  assert (LH : length (rmv H s) = n) by (destruct HH; rlen).
  assert (Hys : length ys = n) by (unfold ys; rlen).
  assert (Hb0 : rdot ys s <> 0) by (destruct Hb as [Hb|[_ Hb]]; lra).
  set (M := rmadd H (rmscale (rnorm r) A)) in *.
  assert (HsA : is_mat n n (rmscale (rnorm r) A)) by now apply is_mat_mscale.
  assert (HM : is_mat n n M) by now apply is_mat_madd.
  assert (HD : is_mat n n (rbroyden ys s M phi)) by now apply is_mat_rbroyden.
  assert (HD' : is_mat n n (rmscale (/ rnorm r) (rbroyden ys s M phi))) by now apply is_mat_mscale.
  exists (rmadd A (rmscale (/ rnorm r) (rbroyden ys s M phi))).
  unfold sh_update, sholding. cbn [sh_kind sh_A sh_base sh_phi sh_enforce hb_store hb_hess]. cbv zeta.
  rewrite h_norm, h_mscale, h_madd, h_matvec, h_vadd. fold ys. fold M.
  rewrite (h_broyden n) by (auto; tauto). rewrite h_mdivs, !h_madd, h_mscale, h_madd by lra.
  split; [reflexivity|]. split; [now apply is_mat_madd|]. split; [|reflexivity].
  assert (E : rmv (rmadd M (rbroyden ys s M phi)) s = ys) by (now apply (rbroyden_secant n)).
  rewrite (rmv_madd n n) in E by auto. unfold M at 1 in E. rewrite (rmv_madd n n), rmv_mscale in E by auto.
  rewrite (rmv_madd n n), rmv_mscale by auto.
  destruct HA as [LA _], HD as [LD _], HH as [LH0 _].
  apply rvec_ext; [rlen|]. intros i. apply (f_equal (fun v => nth i v 0)) in E.
  replace (nth i ys 0) with (nth i (rmv H s) 0 + nth i yb 0) in E by (unfold ys; now rewrite nth_radd by rlen).
  rewrite !nth_radd, !nth_rscale in E by rlen.
  rewrite nth_rscale, nth_radd, nth_rscale by rlen.
  replace (rnorm r * (nth i (rmv A s) 0 + / rnorm r * nth i (rmv (rbroyden ys s M phi) s) 0))
    with (rnorm r * nth i (rmv A s) 0 + nth i (rmv (rbroyden ys s M phi) s) 0) by (field; lra).
  lra.
Qed.
Lemma gns_ratio n (yb s : rvec) (tol : R) : length s = n -> nonzero s ->
  (Fin tol <? dot (fv yb) (fv s) / dot (fv s) (fv s))%num = Rltb tol (rdot yb s / rdot s s).
Proof.
  intros Hs Hn. apply nonzero_dot in Hn. rewrite !h_dot. cbn.
  destruct (Reqb_spec (rdot s s) 0); [lra|]. reflexivity.
Qed.
Theorem C50_GNSBFGS : forall n tol enforce A d b H s y r yb,
  is_mat n n A -> is_mat n n H -> length s = n -> length yb = n -> length y = n -> nonzero s -> 0 <= tol ->
  let h := sh_update (sholding (SGNSBFGS (Fin tol)) 0 enforce A d b) (fv s) (fv y) (fv r) (fm H) (fv yb) in
  if Rltb tol (rdot yb s / rdot s s) then
    rdot s (rmv A s) <> 0 ->
    exists A', sh_A h = fm A' /\ is_mat n n A' /\ rmv A' s = yb /\ hb_hess (sh_base h) = fm (rmadd H A')
  else sh_A h = fm A /\ hb_hess (sh_base h) = fm (rmadd H (rmscale (rnorm r) (reye n))).
Proof.
  intros n tol enforce A d b H s y r yb HA HH Hs Hyb Hy Hns Ht. cbv zeta.
  assert (Hss : 0 < rdot s s) by now apply nonzero_dot.
  unfold sh_update, sholding. cbn [sh_kind sh_A sh_base sh_phi sh_enforce hb_store hb_hess]. cbv zeta.
  rewrite (gns_ratio n) by auto.
  destruct (Rltb_spec tol (rdot yb s / rdot s s)) as [Hr|Hr].
  - intros Hc. rewrite rdot_comm in Hc.
    assert (Hb : 0 < rdot yb s).
    { assert (0 < rdot yb s / rdot s s) by lra.
      replace (rdot yb s) with (rdot yb s / rdot s s * rdot s s) by (field; lra).
      now apply Rmult_lt_0_compat. }
    exists (rmadd A (rbroyden yb s A 0)). cbn [sh_A sh_base hb_store hb_hess].
    rewrite (h_broyden n) by (auto; lra). rewrite !h_madd.
    split; [reflexivity|]. split; [now apply is_mat_new|]. split; [|reflexivity].
    apply (rbroyden_secant n); auto. lra.
  - cbn [sh_A sh_base hb_store hb_hess]. rewrite h_norm, fv_length, Hy, h_eye, h_mscale, h_madd. auto.
Qed.
Example C50_ex : let A := [[1]] in let H := [[2]] in let s := [1] in let yb := [3] in
  0 < rdot (radd yb (rmv H s)) s /\ rdot s (rmv (rmadd H A) s) <> 0 /\ rmv A s <> yb
  /\ 1 < rdot yb s / rdot s s.
Proof.
  cbv zeta. unfold radd, rmadd, rmv, rdot; simpl. repeat split; try lra.
  intros E. injection E as E. lra.
Qed.

(** *** C51 *)
Record gn_in := mkGn { gn_s : rvec; gn_y : rvec; gn_r : rvec; gn_yb : rvec; gn_hess : rmat }.
Definition gn_ok (n : nat) (u : gn_in) : Prop :=
  length (gn_s u) = n /\ length (gn_y u) = n /\ length (gn_yb u) = n /\ nonzero (gn_s u) /\ nonzero (gn_r u)
  /\ is_mat n n (gn_hess u) /\ symmetric (gn_hess u) /\ possemidef n (gn_hess u).
Definition gn_run (us : list gn_in) (h : shapp ER) : shapp ER :=
  fold_left (fun h u => sh_update h (fv (gn_s u)) (fv (gn_y u)) (fv (gn_r u)) (fm (gn_hess u)) (fv (gn_yb u))) us h.

Lemma posdef_add n A H : is_mat n n A -> is_mat n n H -> posdef n A -> possemidef n H -> posdef n (rmadd H A).
Proof.
  intros HA HH PA PH x Hx Hn. rewrite (rform_madd n n) by auto. specialize (PA x Hx Hn). specialize (PH x Hx). lra.
Qed.
Lemma posdef_scaled n c : 0 < c -> posdef n (rmscale c (reye n)).
Proof.
  intros Hc x Hx Hn. rewrite rform_mscale. apply Rmult_lt_0_compat; auto. now apply posdef_eye.
Qed.
Definition gn_good n (h : shapp ER) : Prop :=
  exists A B d b, h = sholding (sh_kind h) 0 (sh_enforce h) A d b /\ hb_hess b = fm B
    /\ is_mat n n A /\ symmetric A /\ posdef n A /\ is_mat n n B /\ symmetric B /\ posdef n B.
Lemma C51_step n tol h u : 0 <= tol -> sh_kind h = SGNSBFGS (Fin tol) -> gn_good n h -> gn_ok n u ->
  gn_good n (sh_update h (fv (gn_s u)) (fv (gn_y u)) (fv (gn_r u)) (fm (gn_hess u)) (fv (gn_yb u))).
Proof.
  intros Ht Hk (A & B & d & b & Eh & Eb & MA & SA & PA & MB & SB & PB) (Ls & Ly & Lyb & Ns & Nr & MH & SH & PH).
  rewrite Hk in Eh. rewrite Eh. clear Eh Hk.
  unfold sh_update, sholding. cbn [sh_kind sh_A sh_base sh_phi sh_enforce]. cbv zeta.
  rewrite (gns_ratio n) by auto.
  assert (Hss : 0 < rdot (gn_s u) (gn_s u)) by now apply nonzero_dot.
  destruct (Rltb_spec tol (rdot (gn_yb u) (gn_s u) / rdot (gn_s u) (gn_s u))) as [Hr|Hr].
  - assert (Hb : 0 < rdot (gn_yb u) (gn_s u)).
    { assert (0 < rdot (gn_yb u) (gn_s u) / rdot (gn_s u) (gn_s u)) by lra.
      replace (rdot (gn_yb u) (gn_s u)) with (rdot (gn_yb u) (gn_s u) / rdot (gn_s u) (gn_s u) * rdot (gn_s u) (gn_s u)) by (field; lra).
      now apply Rmult_lt_0_compat. }
    assert (Hc : 0 < rdot (rmv A (gn_s u)) (gn_s u)) by (rewrite rdot_comm; apply PA; auto).
    rewrite (h_broyden n) by (auto; lra). rewrite !h_madd.
    assert (MA' := is_mat_new n A (gn_yb u) (gn_s u) 0 MA Lyb).
    exists (rmadd A (rbroyden (gn_yb u) (gn_s u) A 0)), (rmadd (gn_hess u) (rmadd A (rbroyden (gn_yb u) (gn_s u) A 0))).
    eexists. eexists. split; [reflexivity|]. split; [reflexivity|].
    assert (SA' : symmetric (rmadd A (rbroyden (gn_yb u) (gn_s u) A 0))) by now apply (rbroyden_symmetric n).
    assert (PA' : posdef n (rmadd A (rbroyden (gn_yb u) (gn_s u) A 0))) by (apply rbroyden_posdef; auto; lra).
    split; [exact MA'|]. split; [exact SA'|]. split; [exact PA'|].
    split; [now apply is_mat_madd|]. split; [now apply (symmetric_madd n n)|]. now apply posdef_add.
  - assert (Hn : 0 < rnorm (gn_r u)) by now apply rnorm_pos, nonzero_dot.
    rewrite h_norm, fv_length, Ly, h_eye, h_mscale, h_madd.
    exists A, (rmadd (gn_hess u) (rmscale (rnorm (gn_r u)) (reye n))).
    eexists. eexists. split; [reflexivity|]. split; [reflexivity|].
    split; [exact MA|]. split; [exact SA|]. split; [exact PA|].
    assert (MI : is_mat n n (rmscale (rnorm (gn_r u)) (reye n))) by apply is_mat_mscale, is_mat_eye.
    split; [now apply is_mat_madd|]. split; [|apply posdef_add; auto; now apply posdef_scaled].
    apply (symmetric_madd n n); auto. apply symmetric_mscale, symmetric_eye.
Qed.
(** GNSBFGS initialized for n variables, with the identity (default) or any symmetric positive
    definite hess0, has a finite symmetric positive definite matrix after every history of updates with non-zero steps and
    residuals and positive semidefinite Gauss-Newton parts *)
Theorem C51_positive_definite : forall n tol enforce hess0 us h,
  0 <= tol ->
  match hess0 with None => True | Some B => is_mat n n B /\ symmetric B /\ posdef n B end ->
  sh_init (GNSBFGS (Fin tol) enforce) n (option_map fm hess0) = Ok h ->
  Forall (gn_ok n) us ->
  exists B, hb_hess (sh_base (gn_run us h)) = fm B /\ is_mat n n B /\ symmetric B /\ posdef n B.
Proof.
  intros n tol enforce hess0 us h Ht Hh0 Hi Hus.
  assert (G : sh_kind h = SGNSBFGS (Fin tol) /\ gn_good n h).
  { unfold sh_init, GNSBFGS in Hi. cbv zeta in Hi.
    assert (EA : map (map (fun x : ER => (x * spacing1)%num)) (eye n) = fm (rmscale (/ IZR (2 ^ 52)) (reye n))).
    { rewrite spacing_fin, h_eye. unfold fm, rmscale. rewrite !map_map. apply map_ext. intros r.
      unfold fv, rscale. rewrite !map_map. apply map_ext. intros x. cbn [nmul ERNum er_mul]. f_equal. lra. }
    rewrite EA in Hi.
    assert (Hp : 0 < / IZR (2 ^ 52)) by (apply Rinv_0_lt_compat; apply IZR_lt; reflexivity).
    assert (HA : is_mat n n (rmscale (/ IZR (2 ^ 52)) (reye n)) /\ symmetric (rmscale (/ IZR (2 ^ 52)) (reye n))
        /\ posdef n (rmscale (/ IZR (2 ^ 52)) (reye n))).
    { split; [apply is_mat_mscale, is_mat_eye|]. split; [apply symmetric_mscale, symmetric_eye|now apply posdef_scaled]. }
    destruct HA as (HA1 & HA2 & HA3).
    unfold hb_init in Hi. destruct hess0 as [B|]; cbn [option_map] in Hi.
    - destruct Hh0 as (M & S & P). destruct (Nat.eqb _ _); [|discriminate]. injection Hi as <-.
      split; [reflexivity|]. exists (rmscale (/ IZR (2 ^ 52)) (reye n)), B. eexists. eexists.
      split; [reflexivity|]. split; [reflexivity|]. auto 10.
    - injection Hi as <-. split; [reflexivity|].
      exists (rmscale (/ IZR (2 ^ 52)) (reye n)), (reye n). eexists. eexists.
      split; [reflexivity|]. split; [apply h_eye|].
      split; [exact HA1|]. split; [exact HA2|]. split; [exact HA3|].
      split; [apply is_mat_eye|]. split; [apply symmetric_eye|apply posdef_eye]. }
  assert (G' : gn_good n (gn_run us h)).
  { clear Hi. revert h G. induction Hus as [|u us Hu _ IH]; intros h [G1 G2]; [exact G2|].
    cbn [gn_run fold_left]. apply IH. split.
    - unfold sh_update. cbv zeta. rewrite G1. destruct (_ <? _)%num; reflexivity.
    - now apply (C51_step n tol). }
  destruct G' as (A & B & d & b & Eh & Eb & _ & _ & _ & H1 & H2 & H3). exists B.
  rewrite Eh. cbn [sholding sh_base]. auto.
Qed.
Example C51_ex : gn_ok 1 (mkGn [1] [1] [2] [1] [[0]]).
Proof.
  unfold gn_ok; cbn [gn_s gn_y gn_r gn_yb gn_hess]. repeat (split; [reflexivity|]).
  split; [exists 0%nat; simpl; lra|]. split; [exists 0%nat; simpl; lra|].
  split; [split; [reflexivity|repeat constructor]|].
  split; [intros [|[|i]] [|[|j]]; reflexivity|].
  intros [|a []] Hx; simpl in Hx; try lia. unfold rform, rmv, rdot; simpl. lra.
Qed.

(** *** C52 *)
Theorem C52_init : forall (T : Type) (N : Num T) (h : happ T) dim,
  (forall h', h_init h dim None = Ok h' -> h_mat h' = eye dim)
  /\ (forall m h', h_init h dim (Some m) = Ok h' -> h_mat h' = m /\ length m = dim)
  /\ (forall m, length m <> dim -> h_init h dim (Some m) = Err EValue)
  /\ (exists h', h_init h dim None = Ok h')
  /\ (forall m, length m = dim -> exists h', h_init h dim (Some m) = Ok h').
Proof.
  intros T N h dim.
  assert (B0 : @hb_init T N dim None = Ok (mkHbase (eye dim) (mzeros_like (eye dim)))) by reflexivity.
  repeat split.
  - intros h' H. destruct h; cbn [h_init] in H; unfold ih_init, sh_init in H; rewrite ?B0 in H; injection H as <-; reflexivity.
  - destruct h; cbn [h_init] in H; unfold ih_init, sh_init, hb_init in H; destruct (Nat.eqb _ _); try discriminate;
      injection H as <-; reflexivity.
  - destruct (Nat.eqb_spec (length m) dim); auto. exfalso.
    destruct h; cbn [h_init] in H; unfold ih_init, sh_init, hb_init in H; destruct (Nat.eqb_spec (length m) dim); try discriminate; contradiction.
  - intros m Hm. apply Nat.eqb_neq in Hm.
    destruct h; cbn [h_init]; unfold ih_init, sh_init, hb_init; now rewrite Hm.
  - destruct h; cbn [h_init]; unfold ih_init, sh_init; rewrite ?B0; eauto.
  - intros m Hm. apply Nat.eqb_eq in Hm.
    destruct h; cbn [h_init]; unfold ih_init, sh_init, hb_init; rewrite Hm; eauto.
Qed.
(** set_mat accepts exactly the matrices of the current shape *)
Theorem C52_set_mat : forall (T : Type) (i : ihapp T) m,
  (shape m = shape (ih_mat i) -> exists i', ih_set_mat i m = Ok i' /\ ih_mat i' = m /\ ih_diff i' = ih_diff i)
  /\ (shape m <> shape (ih_mat i) -> ih_set_mat i m = Err EValue).
Proof.
  intros T i m. unfold ih_set_mat, hb_set_mat, ih_mat.
  assert (E : shape_eqb (shape m) (shape (hb_hess (ih_base i))) = true <-> shape m = shape (hb_hess (ih_base i))).
  { unfold shape_eqb. rewrite andb_true_iff, !Nat.eqb_eq. destruct (shape m), (shape (hb_hess (ih_base i))); simpl.
    split; [intros [-> ->]; reflexivity|intros H; injection H; auto]. }
  destruct shape_eqb.
  - split; [intros _; eexists; split; [reflexivity|split; reflexivity]|]. intros H. exfalso. apply H, E, eq_refl.
  - split; [|reflexivity]. intros H. apply E in H. discriminate.
Qed.
(** a non-square initial matrix is accepted *)
Theorem C52_nonsquare_refuted : exists (h : happ ER) m h', length m = 1%nat /\ length (nth 0 m []) = 2%nat
  /\ h_init h 1 (Some m) = Ok h' /\ h_mat h' = m.
Proof.
  exists (HIter (mkIhapp (BFGS true) hb_empty)), (fm [[1; 2]]). eexists. repeat split.
Qed.
