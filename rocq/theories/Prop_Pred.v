(** C32: the predicted decrease belongs to the step that is taken *)
From Coq Require Import String ZArith List Bool Reals Lra Lia Psatz.
From Verif Require Import Num Constants Subproblem Steps TrustRegion ER NumFacts RVec Argmin Cand StepFacts Prop_Sub1d SubNd RShess.
Import ListNotations.
Local Open Scope R_scope.
Local Open Scope list_scope.

(** multiplying by a positive number is linear on all extended reals, NaN and infinities included *)
Lemma pos_mul_assoc d a b : 0 < d -> er_mul (Fin d) (er_mul a b) = er_mul (er_mul (Fin d) a) b.
Proof.
  intros H. destruct a as [x| | |], b as [y| | |]; cbn [er_mul]; unfold er_infmul.
  - f_equal. ring.
  - assert (d * x > 0 <-> x > 0) by (split; nra). assert (d * x < 0 <-> x < 0) by (split; nra).
    destruct (Rltb_spec 0 x), (Rltb_spec 0 (d * x)), (Rltb_spec x 0), (Rltb_spec (d * x) 0); try (exfalso; lra);
      cbn [er_mul]; unfold er_infmul; destruct (Rltb_spec 0 d), (Rltb_spec d 0); try lra; reflexivity.
  - assert (d * x > 0 <-> x > 0) by (split; nra). assert (d * x < 0 <-> x < 0) by (split; nra).
    destruct (Rltb_spec 0 x), (Rltb_spec 0 (d * x)), (Rltb_spec x 0), (Rltb_spec (d * x) 0); try (exfalso; lra);
      cbn [er_mul]; unfold er_infmul; destruct (Rltb_spec 0 d), (Rltb_spec d 0); try lra; reflexivity.
  - reflexivity.
  - destruct (Rltb_spec 0 d); [|lra]. cbn [er_mul]. unfold er_infmul.
    destruct (Rltb_spec 0 y), (Rltb_spec y 0); cbn [er_mul]; unfold er_infmul;
      destruct (Rltb_spec 0 d), (Rltb_spec d 0); try lra; reflexivity.
  - destruct (Rltb_spec 0 d); [|lra]. reflexivity.
  - destruct (Rltb_spec 0 d); [|lra]. reflexivity.
  - destruct (Rltb_spec 0 d); [|lra]. reflexivity.
  - destruct (Rltb_spec 0 d); [|lra]. cbn [er_mul]. unfold er_infmul.
    destruct (Rltb_spec 0 y), (Rltb_spec y 0); cbn [er_mul]; unfold er_infmul;
      destruct (Rltb_spec 0 d), (Rltb_spec d 0); try lra; reflexivity.
  - destruct (Rltb_spec 0 d); [|lra]. reflexivity.
  - destruct (Rltb_spec 0 d); [|lra]. reflexivity.
  - destruct (Rltb_spec 0 d); [|lra]. reflexivity.
  - reflexivity. - reflexivity. - reflexivity. - reflexivity.
Qed.
Lemma er_mul_comm a b : er_mul a b = er_mul b a.
Proof. destruct a, b; cbn [er_mul]; auto. f_equal. ring. Qed.
Lemma pos_mul_add d a b : 0 < d -> er_mul (Fin d) (er_add a b) = er_add (er_mul (Fin d) a) (er_mul (Fin d) b).
Proof.
  intros H. assert (E1 : er_infmul true d = PInf) by (unfold er_infmul; destruct (Rltb_spec 0 d); [auto|lra]).
  assert (E2 : er_infmul false d = NInf) by (unfold er_infmul; destruct (Rltb_spec 0 d); [auto|lra]).
  destruct a, b; cbn [er_mul er_add]; rewrite ?E1, ?E2; cbn [er_add]; auto. f_equal. ring.
Qed.
Lemma pos_mul_swap d a b : 0 < d -> er_mul a (er_mul (Fin d) b) = er_mul (Fin d) (er_mul a b).
Proof. intros H. rewrite (er_mul_comm a), <- pos_mul_assoc by auto. f_equal. apply er_mul_comm. Qed.

Section Scaled.
  Variable D : rvec.
  Hypothesis HD : Forall (fun d => 0 < d) D.
  Local Notation dd := (vmul (fv D)).

  Lemma dd_vscaler w a : dd (vscaler w a) = vscaler (dd w) a.
  Proof.
    unfold vmul, vscaler, fv. revert w. clear -HD. induction HD as [|d D' Hd HD' IH]; intros [|x w]; try reflexivity.
    cbn [map2 map]. f_equal; auto. apply pos_mul_assoc. auto.
  Qed.
  Lemma dd_vscale w a : dd (vscale a w) = vscale a (dd w).
  Proof.
    unfold vmul, vscale, fv. revert w. clear -HD. induction HD as [|d D' Hd HD' IH]; intros [|x w]; try reflexivity.
    cbn [map2 map]. f_equal; auto. symmetry. apply pos_mul_swap. auto.
  Qed.
  Lemma dd_vadd u w : dd (vadd u w) = vadd (dd u) (dd w).
  Proof.
    unfold vmul, vadd, fv. revert u w. clear -HD. induction HD as [|d D' Hd HD' IH]; intros [|x u] [|y w]; try reflexivity.
    cbn [map2 map]. f_equal; auto. apply pos_mul_add. auto.
  Qed.
  Lemma dd_zeros k : (k <= length D)%nat -> dd (vzeros k) = vzeros k.
  Proof.
    clear HD. revert k. induction D as [|d D' IH]; intros [|k] H; try reflexivity; [simpl in H; lia|].
    unfold vmul, vzeros, fv in *. cbn [map2 map repeat]. f_equal; [cbn; f_equal; ring|apply IH; simpl in H; lia].
  Qed.
  Lemma map2_length {A B C} (f : A -> B -> C) a : forall b, length (map2 f a b) = Nat.min (length a) (length b).
  Proof. induction a; intros [|y b]; simpl; auto. Qed.
  Lemma dd_length w : length (dd w) = Nat.min (length D) (length w).
  Proof. unfold vmul. rewrite map2_length. now rewrite fv_length. Qed.
  Lemma nth_dd w i : (i < length D)%nat -> nth i (dd w) NaN = er_mul (Fin (nth i D 0)) (nth i w NaN).
  Proof.
    clear HD. revert w i. induction D as [|d D' IH]; intros w i Hi; simpl in Hi; [lia|].
    destruct w as [|x w]; simpl.
    - destruct i; simpl; auto.
    - destruct i; simpl; auto. apply IH. lia.
  Qed.
  Lemma mapi_from_length {A B} (f : nat -> A -> B) l : forall k, length (mapi_from f k l) = length l.
  Proof. induction l; simpl; auto. Qed.
  Lemma dd_trunc_from p og : forall s0 k (D1 : rvec), Forall (fun d => 0 < d) D1 ->
    (forall i, (k <= i)%nat -> (i < k + length D1)%nat ->
       nth i (dd og) NaN = er_mul (Fin (nth (i - k) D1 0)) (nth i og NaN)) ->
    mapi_from (fun i a => if mem i (st_iminbr p)
                     then (a + st_theta p * nth i (st_br p) nnan * nth i (dd og) nnan)%num else a) k (vmul (fv D1) s0)
    = vmul (fv D1) (mapi_from (fun i a => if mem i (st_iminbr p)
                     then (a + st_theta p * nth i (st_br p) nnan * nth i og nnan)%num else a) k s0).
  Proof.
    induction s0 as [|a s0 IH]; intros k D1 H1 Hn; destruct D1 as [|d D1]; try reflexivity.
    inversion H1; subst. change (fv (d :: D1)) with (Fin d :: fv D1).
    change (vmul (Fin d :: fv D1) (a :: s0)) with (er_mul (Fin d) a :: vmul (fv D1) s0).
    cbn [mapi_from].
    match goal with |- _ = vmul (Fin d :: fv D1) (?u :: ?w) =>
      change (vmul (Fin d :: fv D1) (u :: w)) with (er_mul (Fin d) u :: vmul (fv D1) w) end.
    f_equal.
    - destruct (mem k (st_iminbr p)); auto.
      change (nnan : ER) with NaN. rewrite (Hn k) by (simpl; lia). rewrite Nat.sub_diag. cbn [nth].
      cbn [nmul nadd ERNum]. rewrite pos_mul_swap, <- pos_mul_add by auto. reflexivity.
    - apply IH; auto. intros i Hi Hi'. rewrite Hn by (simpl; lia).
      replace (i - k)%nat with (S (i - S k)) by lia. reflexivity.
  Qed.
  Lemma dd_trunc p s0 og : trunc_s0 p (dd s0) (dd og) = dd (trunc_s0 p s0 og).
  Proof.
    unfold trunc_s0, mapi. apply dd_trunc_from; [exact HD|].
    intros i _ Hi. rewrite Nat.sub_0_r. apply nth_dd. lia.
  Qed.
End Scaled.
Lemma vadd_zeros_r w n : length w = n -> vadd w (vzeros n) = w.
Proof.
  revert w. unfold vadd, vzeros. induction n; intros [|x w] H; try discriminate; try reflexivity.
  cbn [map2 repeat]. f_equal; [|apply IHn; simpl in H; lia].
  destruct x; cbn; auto. f_equal. ring.
Qed.

Section C32.
  Variables (O : StepOracles ER) (x : list ER) (g : rvec) (hess : list (list ER)) (D : rvec) (delta : ER)
            (dv : list ER) (theta : ER) (lb ub : list ER) (n : nat).
  Hypothesis HD : Forall (fun d => 0 < d) D.
  Hypothesis HDn : length D = n.
  Hypothesis Hgn : length g = n.
  Let A := tr_args x (fv g) hess (fv D) delta dv theta lb ub.
  Local Notation dd := (vmul (fv D)).

  Record in_scale (c : step ER) : Prop := mkInScale {
    is_s : st_s c = dd (st_ss c);
    is_og : st_og_s c = dd (st_og_ss c);
    is_s0 : st_s0 c = dd (st_ss0 c);
    is_sub : Forall (fun col => length col = n) (st_subspace c);
    is_ss0len : length (st_ss0 c) = n;
    is_sslen : length (st_ss c) = n;
    is_oglen : length (st_og_ss c) = n;
    is_sh : st_shess c = shess_of (fv D) hess (vmul (vabs (fv g)) dv);
    is_sg : st_sg c = dd (fv g);
    is_q : st_qpval c = quadratic_form (st_shess c) (st_sg c) (vadd (st_ss c) (st_ss0 c))
  }.

  Lemma sg_len : length (a_sg A) = n.
  Proof. unfold A, tr_args. cbn [a_sg]. rewrite dd_length, fv_length. lia. Qed.
  Lemma lincomb_length k : forall sc sub, Forall (fun col : list ER => length col = k) sub -> length (lincomb k sc sub) = k.
  Proof.
    induction sc as [|a sc IH]; intros [|c sub] H; simpl; try apply repeat_length.
    inversion H as [|? ? H1 H2]; subst. unfold vadd, vscale. rewrite map2_length, map_length, IH by auto. lia.
  Qed.
  Lemma vadd_len (a b : list ER) : length a = n -> length b = n -> length (vadd a b) = n.
  Proof. intros Ha Hb. unfold vadd. rewrite map2_length, Ha, Hb. apply Nat.min_id. Qed.

  Lemma from_calc typ x' sub s0 ss0 refl tr pd nw c :
    Forall (fun col => length col = n) sub -> length ss0 = n -> s0 = dd ss0 ->
    calculate O (new_step typ A x' sub s0 ss0 refl tr pd nw) = Ok c -> in_scale c.
  Proof.
    intros Hsub Hl E0 H. apply calculate_fields in H as (sc & ss & s & _ & Ess & Es & Hst & Hq & _).
    cbn [new_step st_s0 st_subspace st_scaling] in Ess, Es. subst s0.
    rewrite dd_length, Hl, HDn, Nat.min_id in Ess.
    assert (Lss : length ss = n) by (rewrite Ess; now apply lincomb_length).
    assert (E1 : s = dd ss).
    { destruct sub as [|c1 sub]; [|exact Es]. rewrite Es, Ess.
      assert (Z : lincomb n sc ([] : list (list ER)) = vzeros n) by now destruct sc.
      rewrite Z. rewrite dd_zeros; auto. lia. }
    destruct Hst. constructor.
    - rewrite sb_s, sb_ss, E1. symmetry. now apply dd_vscaler.
    - now rewrite sb_og_s, sb_og_ss.
    - now rewrite sb_s0, sb_ss0.
    - now rewrite sb_subspace.
    - now rewrite sb_ss0.
    - rewrite sb_ss. unfold vscaler. now rewrite map_length.
    - now rewrite sb_og_ss.
    - rewrite sb_shess. reflexivity.
    - rewrite sb_sg. reflexivity.
    - rewrite Hq, sb_shess, sb_sg, sb_ss0. reflexivity.
  Qed.
  Lemma zeros_A : zeros_of A = dd (zeros_of A) /\ length (zeros_of A) = n.
  Proof.
    unfold zeros_of. rewrite sg_len. split; [symmetry; apply dd_zeros; lia|apply repeat_length].
  Qed.
  Lemma mapi_length {X Y} (f : nat -> X -> Y) l : length (mapi f l) = length l.
  Proof. apply mapi_from_length. Qed.
  Lemma normalize_len (v : list ER) : length (normalize v) = length v.
  Proof. unfold normalize. destruct (_ <? _)%num; auto. apply map_length. Qed.

  Lemma reflected_scale p c : in_scale p -> calculate O (tr_step_reflected A p) = Ok c -> in_scale c.
  Proof.
    intros Hp. unfold tr_step_reflected. apply from_calc.
    - constructor; [|constructor]. rewrite normalize_len, mapi_length. apply (is_oglen _ Hp).
    - apply vadd_len; [|apply (is_ss0len _ Hp)]. unfold vscale. rewrite map_length. apply (is_oglen _ Hp).
    - rewrite (is_og _ Hp), (is_s0 _ Hp), dd_vadd, dd_vscale by auto. reflexivity.
  Qed.
  Lemma truncated_scale p c : in_scale p -> calculate O (tr_step_truncated A p) = Ok c -> in_scale c.
  Proof.
    intros Hp. unfold tr_step_truncated. apply from_calc.
    - unfold trunc_subspace. apply Forall_forall. intros col Hc. apply in_map_iff in Hc as (c1 & <- & Hc).
      apply filter_In in Hc as [Hc _]. apply in_map_iff in Hc as (c2 & <- & Hc).
      rewrite normalize_len, mapi_length. pose proof (is_sub _ Hp) as Hsub. rewrite Forall_forall in Hsub. auto.
    - unfold trunc_s0. rewrite mapi_length. apply (is_ss0len _ Hp).
    - rewrite (is_og _ Hp), (is_s0 _ Hp). now apply dd_trunc.
  Qed.
  Lemma refined_scale p c : in_scale p -> refined_step O A p = Ok c -> in_scale c.
  Proof.
    intros Hp H. apply refined_fields in H as (sc & ss & s & Ess & Es & Hst & Hq & _). pose proof (is_sub _ Hp) as Hsub.
    rewrite sg_len in Ess.
    assert (Lss : length ss = n) by (rewrite Ess; now apply lincomb_length).
    change (a_scaling A) with (fv D) in Es. destruct zeros_A as [Z1 Z2]. destruct Hst.
    cbn [new_step st_s0 st_ss0 st_subspace st_shess st_sg] in *.
    constructor.
    - rewrite sb_s, sb_ss, Es. symmetry. now apply dd_vscaler.
    - now rewrite sb_og_s, sb_og_ss.
    - now rewrite sb_s0, sb_ss0.
    - now rewrite sb_subspace.
    - now rewrite sb_ss0.
    - rewrite sb_ss. unfold vscaler. now rewrite map_length.
    - now rewrite sb_og_ss.
    - rewrite sb_shess. reflexivity.
    - rewrite sb_sg. reflexivity.
    - rewrite Hq, sb_ss0. unfold zeros_of. rewrite sg_len.
      rewrite vadd_zeros_r; auto. rewrite sb_ss. unfold vscaler. now rewrite map_length.
  Qed.
  Lemma gradient_scale c : calculate O (gradient_step A) = Ok c -> in_scale c.
  Proof.
    destruct zeros_A as [Z1 Z2]. unfold gradient_step. apply from_calc; auto.
    constructor; [|constructor]. rewrite normalize_len. apply sg_len.
  Qed.

  (** LAPACK returns arrays of the right shape *)
  Definition shaped : Prop :=
    (forall b v, so_lstsq O (shess_of (fv D) hess (vmul (vabs (fv g)) dv)) b = Some v -> length v = n)
    /\ (forall e1 e2 v, so_eig O (shess_of (fv D) hess (vmul (vabs (fv g)) dv)) = Some (e1, e2, v) ->
          length e1 = n /\ length v = n /\ Forall (fun col => length col = n) v)
    /\ length hess = n /\ Forall (fun r => length r = n) hess.

  Lemma full_scale c : length hess = n -> calculate O (tr_step_full A) = Ok c -> in_scale c.
  Proof.
    intros Hh. destruct zeros_A as [Z1 Z2]. unfold tr_step_full. apply from_calc; auto.
    change (a_hess A) with hess. rewrite Hh. unfold eye. apply Forall_forall. intros col Hc.
    apply in_map_iff in Hc as (i & <- & _). now rewrite map_length, seq_length.
  Qed.
  Lemma twod_cases r : tr_step_2d O A = Ok r -> exists sub pd nw,
    r = new_step "2d" A (a_x A) sub (zeros_of A) (zeros_of A) [] [] (Some pd) nw
    /\ (shaped -> Forall (fun col => length col = n) sub).
  Proof.
    unfold tr_step_2d. cbv zeta. change (shess_of (a_scaling A) (a_hess A) (a_gd A)) with
      (shess_of (fv D) hess (vmul (vabs (fv g)) dv)).
    destruct (so_lstsq O _ _) as [ls|] eqn:El; [|discriminate].
    destruct (so_eig O _) as [[[e1 e2] v]|] eqn:Ee; [|discriminate].
    set (posdef := (_ <? _)%num). clearbody posdef. pose proof sg_len as Hsg.
    destruct (a_sg A) as [|s0 [|s1 sg]] eqn:Eg.
    2:{ intros H. injection H as <-. eexists _, _, _. split; [reflexivity|].
        intros (_ & _ & H1 & H2). simpl in Hsg. constructor; [|constructor]. rewrite map_length.
        unfold shess_of, mapi. destruct hess as [|h0 hs]; [simpl in *; lia|].
        cbn [mapi_from nth]. unfold mapi. rewrite mapi_from_length. now inversion H2. }
    - intros H. change (a_sg A) with (dd (fv g)) in Eg.
      assert (n = 0%nat) as Hn0 by (simpl in Hsg; lia).
      revert H. destruct (_ && _).
      + intros H. injection H as <-. eexists _, _, _. split; [reflexivity|].
        intros (H1 & _). constructor; [|constructor]. rewrite normalize_len. unfold vopp. rewrite map_length. eauto.
      + match goal with |- (if ?b then _ else _) = _ -> _ => destruct b end; intros H; injection H as <-; (eexists _, _, _; split; [reflexivity|]);
          intros (H1 & H2 & _); destruct (H2 _ _ _ Ee) as (He & Hv & Hc).
        all: assert (Lc : length (if posdef then vopp ls else nth (argmin e1) v []) = n)
          by (destruct posdef; [unfold vopp; rewrite map_length; eauto|];
              destruct v; [rewrite Hn0; destruct (argmin e1); reflexivity|simpl in Hv; lia]).
        all: repeat constructor; rewrite normalize_len; auto.
        unfold vsub. rewrite map2_length. unfold vscaler. rewrite map_length, normalize_len, Lc.
        destruct posdef; simpl; [lia|]. unfold vmul. rewrite map2_length. simpl. lia.
    - set (sg' := s0 :: s1 :: sg) in *.
      destruct (_ && _).
      + intros H. injection H as <-. eexists _, _, _. split; [reflexivity|].
        intros (H1 & _). constructor; [|constructor]. rewrite normalize_len. unfold vopp. rewrite map_length. eauto.
      + match goal with |- (if ?b then _ else _) = _ -> _ => destruct b end; intros H; injection H as <-; (eexists _, _, _; split; [reflexivity|]);
          intros (H1 & H2 & _); destruct (H2 _ _ _ Ee) as (He & Hv & Hc).
        all: assert (Lc : length (if posdef then vopp ls else nth (argmin e1) v []) = n)
          by (destruct posdef; [unfold vopp; rewrite map_length; eauto|];
              rewrite Forall_forall in Hc; apply Hc, nth_In; rewrite Hv, <- He; apply argmin_lt;
              destruct e1; [simpl in He; subst n; simpl in *; lia|discriminate]).
        all: repeat constructor; rewrite normalize_len; auto.
        unfold vsub. rewrite map2_length. unfold vscaler. rewrite map_length, normalize_len, Lc.
        destruct posdef; [rewrite Hsg; lia|]. change (a_scaling A) with (fv D). unfold vmul. rewrite map2_length, fv_length.
        simpl. rewrite map_length. simpl in Hsg. lia.
  Qed.
  Lemma twod_scale r c : shaped -> tr_step_2d O A = Ok r -> calculate O r = Ok c -> in_scale c.
  Proof.
    intros Hs H. apply twod_cases in H as (sub & pd & nw & -> & Hsub). destruct zeros_A as [Z1 Z2].
    apply from_calc; auto.
  Qed.

  Lemma all_in_scale sd strat l : shaped -> sd <> "scg"%string ->
    candidates O A sd strat = Ok l -> Forall in_scale l.
  Proof.
    intros Hs Hsd. apply candidates_all.
    - intros p c Hp _. now apply reflected_scale.
    - intros p c Hp _. now apply truncated_scale.
    - apply gradient_scale.
    - intros p c Hp. now apply refined_scale.
    - intros c H. apply main_step_cases in H as [(_ & r & H1 & H2)|[(_ & H)|(E & _)]].
      + eapply twod_scale; eauto.
      + apply full_scale; auto. apply Hs.
      + contradiction.
  Qed.
End C32.

(** Whatever the solver did (the step may contain infinities or NaN), for every candidate of every strategy
    of the 2D and full solvers: the step added to x is the scaled step mapped back by the scaling matrix, and the
    model value is the value of the scaled model at that scaled step. *)
Theorem C32_model_value_of_step_taken :
  forall (O : StepOracles ER) x g hess D delta dv theta lb ub n sd strat l c,
    Forall (fun d => 0 < d) D -> length D = n -> length g = n ->
    shaped O g hess D dv n -> sd <> "scg"%string ->
    candidates O (tr_args x (fv g) hess (fv D) delta dv theta lb ub) sd strat = Ok l -> In c l ->
    vadd (st_s c) (st_s0 c) = vmul (fv D) (vadd (st_ss c) (st_ss0 c))
    /\ st_qpval c = quadratic_form (shess_of (fv D) hess (vmul (vabs (fv g)) dv)) (vmul (fv D) (fv g))
                      (vadd (st_ss c) (st_ss0 c)).
Proof.
  intros O x g hess D delta dv theta lb ub n sd strat l c HD HDn Hg Hs Hsd Hl Hc.
  pose proof (all_in_scale O x g hess D delta dv theta lb ub n HD HDn Hg sd strat l Hs Hsd Hl) as HF.
  rewrite Forall_forall in HF. destruct (HF c Hc) as [E1 E2 E3 _ _ _ _ E4 E5 E6].
  split.
  - rewrite E1, E3, dd_vadd by auto. reflexivity.
  - now rewrite E6, E4, E5.
Qed.
(** The same over the reals: if the data and the scaled step are finite, the step p taken from x and the model
    value satisfy  value = g.p + 1/2 p.Hp + 1/2 sum_i |g_i| dv_i (p_i/D_i)^2 *)
Theorem C32_predicted_decrease :
  forall (O : StepOracles ER) x g H D delta dv theta lb ub n sd strat l c z,
    Forall (fun d => 0 < d) D -> length D = n -> length g = n -> is_mat n n H -> length dv = n ->
    shaped O g (fm H) D (fv dv) n -> sd <> "scg"%string ->
    candidates O (tr_args x (fv g) (fm H) (fv D) delta (fv dv) theta lb ub) sd strat = Ok l -> In c l ->
    vadd (st_ss c) (st_ss0 c) = fv z ->
    exists p, vadd (st_s c) (st_s0 c) = fv p /\ length p = n
      /\ (forall i, (i < n)%nat -> nth i p 0 = nth i D 0 * nth i z 0)
      /\ st_qpval c = Fin (rdot g p + / 2 * rform H p p
                            + / 2 * rsum n (fun i => Rabs (nth i g 0) * nth i dv 0 * ((nth i p 0 / nth i D 0) * (nth i p 0 / nth i D 0)))).
Proof.
  intros O x g H D delta dv theta lb ub n sd strat l c z HD HDn Hg HH Hdv Hs Hsd Hl Hc Ez.
  pose proof (all_in_scale O x g (fm H) D delta (fv dv) theta lb ub n HD HDn Hg sd strat l Hs Hsd Hl) as HF.
  rewrite Forall_forall in HF. pose proof (HF c Hc) as Hin.
  destruct (C32_model_value_of_step_taken O x g (fm H) D delta (fv dv) theta lb ub n sd strat l c) as [E1 E2]; auto.
  rewrite Ez in E1, E2. rewrite h_vmul in E1. exists (rmul D z).
  assert (Lz : length z = n).
  { rewrite <- (fv_length z), <- Ez. apply vadd_len; [apply (is_sslen _ _ _ _ _ _ Hin)|apply (is_ss0len _ _ _ _ _ _ Hin)]. }
  split; [exact E1|]. split; [now apply rmul_length|]. split; [intros i Hi; now apply (nth_rmul _ _ n)|].
  rewrite E2, h_vabs, !h_vmul, (h_shess n), (h_quadratic n) by (auto using is_mat_rshess).
  f_equal. rewrite scaled_model by auto. unfold qmodel.
  rewrite (rsum_ext n (fun i => nth i (rmul (rabsv g) dv) 0 * (nth i z 0 * nth i z 0))
             (fun i => Rabs (nth i g 0) * nth i dv 0 * (nth i (rmul D z) 0 / nth i D 0 * (nth i (rmul D z) 0 / nth i D 0)))).
  { lra. }
  intros i Hi. rewrite (nth_rmul D z n), (nth_rmul _ _ n), nth_rabsv by (rewrite ?rabsv_length; auto).
  assert (0 < nth i D 0) by (rewrite Forall_forall in HD; apply HD, nth_In; lia).
  replace (nth i D 0 * nth i z 0 / nth i D 0) with (nth i z 0) by (field; lra). reflexivity.
Qed.
