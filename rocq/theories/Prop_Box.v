(** C11: in exact arithmetic the trial points are inside the box *)
From Coq Require Import String ZArith List Bool Reals Lra Lia Psatz.
From Verif Require Import Num Constants Subproblem HessApprox Steps TrustRegion Minimize ER NumFacts RVec Argmin Cand StepFacts Prop_Pred.
Import ListNotations.
Local Open Scope R_scope.
Local Open Scope list_scope.

(** NaN, or within [l, u] *)
Definition nan_or_within (l u v : ER) : Prop := v = NaN \/ (er_leb l v = true /\ er_leb v u = true).

Lemma er_add_assoc a b c : er_add (er_add a b) c = er_add a (er_add b c).
Proof. destruct a, b, c; cbn [er_add]; auto. f_equal. ring. Qed.
Lemma er_add_comm a b : er_add a b = er_add b a.
Proof. destruct a, b; cbn [er_add]; auto. f_equal. ring. Qed.
Lemma er_add_nan a : er_add a NaN = NaN. Proof. now destruct a. Qed.
Lemma er_mul_nan a : er_mul a NaN = NaN. Proof. now destruct a. Qed.

Lemma Rleb_true a b : Rleb a b = true -> a <= b.
Proof. destruct (Rleb_spec a b); [auto|discriminate]. Qed.
(** a multiplier not exceeding the breakpoint keeps the coordinate inside *)
Lemma coordinate l u b s al : nan_or_within l u b ->
  (al = NaN \/ exists a, al = Fin a /\ 0 <= a
     /\ (er_leb (Fin a) (breakpoint b s l u) = true)) ->
  nan_or_within l u (er_add b (er_mul s al)).
Proof.
  intros [->|[Hl Hu]] Ha; [left; reflexivity|].
  destruct Ha as [->|(a & -> & H0 & H1)]; [left; rewrite er_mul_nan; apply er_add_nan|].
  unfold breakpoint in H1. cbn [nabs ERNum nltb n0 nofZ] in H1.
  destruct s as [s| | |].
  2:{ destruct (Req_dec a 0) as [->|Hne].
      - left. cbn [er_mul]. unfold er_infmul. destruct (Rltb_spec 0 0); [lra|]. apply er_add_nan.
      - exfalso. cbn [er_abs er_ltb] in H1. unfold npmax2 in H1. cbn [nisnan nsub ndiv nltb ERNum] in H1.
        destruct b as [b| | |], l as [l| | |], u as [u| | |]; cbn in H1, Hl, Hu; try discriminate;
          try (destruct (Rltb_spec 0 0) in H1; try lra; destruct (Rleb_spec a 0) in H1; try discriminate; lra). }
  2:{ destruct (Req_dec a 0) as [->|Hne].
      - left. cbn [er_mul]. unfold er_infmul. destruct (Rltb_spec 0 0); [lra|]. apply er_add_nan.
      - exfalso. cbn [er_abs er_ltb] in H1. unfold npmax2 in H1. cbn [nisnan nsub ndiv nltb ERNum] in H1.
        destruct b as [b| | |], l as [l| | |], u as [u| | |]; cbn in H1, Hl, Hu; try discriminate;
          try (destruct (Rltb_spec 0 0) in H1; try lra; destruct (Rleb_spec a 0) in H1; try discriminate; lra). }
  2:{ left. cbn [er_mul]. apply er_add_nan. }
  cbn [er_abs er_ltb] in H1. cbn [er_mul].
  destruct (Rltb_spec 0 (Rabs s)) as [Hs|Hs].
  2:{ assert (s = 0) as -> by (destruct (Req_dec s 0) as [|Hne]; auto; apply Rabs_pos_lt in Hne; lra).
      rewrite Rmult_0_l. replace (er_add b (Fin 0)) with b by (destruct b; cbn; auto; f_equal; ring).
      right. auto. }
  assert (Hne : s <> 0) by (intros ->; rewrite Rabs_R0 in Hs; lra).
  destruct b as [b| | |]; try discriminate.
  2:{ exfalso. destruct u as [u| | |]; try discriminate; cbn in H1; discriminate. }
  2:{ exfalso. destruct l as [l| | |]; try discriminate. cbn in Hl.
      unfold npmax2 in H1. cbn [nisnan nsub ndiv nltb ERNum er_sub er_add er_opp er_div er_isnan] in H1.
      destruct u as [u| | |]; cbn in H1; try (destruct (Rltb s 0); cbn in H1); discriminate. }
  right. cbn [er_add]. unfold npmax2 in H1. cbn [nisnan nsub ndiv nltb ERNum] in H1.
  assert (Mu : forall u', er_leb (Fin b) u' = true -> (match u' with Fin r => b + s * a <= r | PInf => True | _ => False end) ->
               er_leb (Fin (b + s * a)) u' = true).
  { intros [u'| | |] _ H; cbn in *; try contradiction; auto. destruct (Rleb_spec (b + s * a) u'); [auto|lra]. }
  assert (Ml : forall u', er_leb u' (Fin b) = true -> (match u' with Fin r => r <= b + s * a | NInf => True | _ => False end) ->
               er_leb u' (Fin (b + s * a)) = true).
  { intros [u'| | |] _ H; cbn in *; try contradiction; auto. destruct (Rleb_spec u' (b + s * a)); [auto|lra]. }
  assert (Es : Reqb s 0 = false) by (destruct (Reqb_spec s 0); [contradiction|auto]).
  assert (Dv : forall z t, 0 < s -> a <= z / s -> z = t -> s * a <= t).
  { intros z t P Q E. subst t. apply (Rmult_le_compat_r s) in Q; [|lra].
    unfold Rdiv in Q. rewrite Rmult_assoc, Rinv_l in Q; lra. }
  assert (Dv' : forall z t, s < 0 -> a <= z / s -> z = t -> t <= s * a).
  { intros z t P Q E. subst t. apply (Rmult_le_compat_neg_l s) in Q; [|lra].
    replace (s * (z / s)) with z in Q by (field; lra). lra. }
  assert (Q : forall z, er_div (er_sub (Fin z) (Fin b)) (Fin s) = Fin ((z - b) / s)).
  { intros z. cbn [er_sub er_opp er_add er_div]. rewrite Es. reflexivity. }
  assert (QP : er_div (er_sub PInf (Fin b)) (Fin s) = if Rltb s 0 then NInf else PInf) by reflexivity.
  assert (QN : er_div (er_sub NInf (Fin b)) (Fin s) = if Rltb s 0 then PInf else NInf) by reflexivity.
  split.
  - apply Ml; auto. destruct l as [l| | |]; cbn in Hl; try discriminate; auto.
    apply Rleb_true in Hl.
    destruct (Rlt_dec s 0) as [Sn|Sp].
    2:{ assert (0 <= s * a) by (apply Rmult_le_pos; lra). lra. }
    destruct u as [u| | |]; cbn in Hu; try discriminate.
    + apply Rleb_true in Hu. rewrite !Q in H1. cbn [er_isnan er_ltb] in H1.
      assert ((u - b) / s <= 0).
      { unfold Rdiv. assert (/ s < 0) by now apply Rinv_lt_0_compat. nra. }
      destruct (Rltb_spec ((u - b) / s) ((l - b) / s)) in H1; cbn [er_leb] in H1; apply Rleb_true in H1.
      * pose proof (Dv' _ (l - b) Sn H1 eq_refl). lra.
      * assert (a = 0) by lra. subst a. lra.
    + rewrite Q, QP in H1. destruct (Rltb_spec s 0) in H1; [|lra]. cbn [er_isnan er_ltb er_leb] in H1.
      apply Rleb_true in H1.
      pose proof (Dv' _ (l - b) Sn H1 eq_refl). lra.
  - apply Mu; auto. destruct u as [u| | |]; cbn in Hu; try discriminate; auto.
    apply Rleb_true in Hu.
    destruct (Rlt_dec 0 s) as [Sp|Sn].
    2:{ assert (s * a <= 0) by (assert (0 <= - s * a) by (apply Rmult_le_pos; lra); lra). lra. }
    destruct l as [l| | |]; cbn in Hl; try discriminate.
    + apply Rleb_true in Hl. rewrite !Q in H1. cbn [er_isnan er_ltb] in H1.
      assert ((l - b) / s <= 0).
      { unfold Rdiv. assert (0 < / s) by now apply Rinv_0_lt_compat. nra. }
      destruct (Rltb_spec ((u - b) / s) ((l - b) / s)) in H1; cbn [er_leb] in H1; apply Rleb_true in H1.
      * assert (a = 0) by lra. subst a. lra.
      * pose proof (Dv _ (u - b) Sp H1 eq_refl). lra.
    + rewrite Q, QN in H1. destruct (Rltb_spec s 0) in H1; [lra|]. cbn [er_isnan er_ltb er_leb] in H1.
      apply Rleb_true in H1.
      pose proof (Dv _ (u - b) Sp H1 eq_refl). lra.
Qed.
(** breakpoints of points inside are non-negative (or NaN) *)
Lemma breakpoint_nonneg l u b s : nan_or_within l u b ->
  breakpoint b s l u = NaN \/ er_leb (Fin 0) (breakpoint b s l u) = true.
Proof.
  intros H. unfold breakpoint. cbn [nabs ERNum nltb n0 nofZ].
  destruct (er_ltb (Fin 0) (er_abs s)) eqn:E; [|right; reflexivity].
  destruct H as [->|[Hl Hu]].
  { left. destruct u; reflexivity. }
  unfold npmax2. cbn [nisnan nsub ndiv nltb ERNum].
  destruct (er_isnan (er_div (er_sub u b) s)) eqn:N1.
  { left. destruct (er_div (er_sub u b) s); try discriminate; reflexivity. }
  destruct (er_isnan (er_div (er_sub l b) s)) eqn:N2.
  { left. destruct (er_div (er_sub l b) s); try discriminate; reflexivity. }
  right.
  assert (K : er_leb (Fin 0) (er_div (er_sub u b) s) = true \/ er_leb (Fin 0) (er_div (er_sub l b) s) = true).
  { destruct s as [s| | |]; [| | |destruct u, b; discriminate].
    - cbn in E. destruct (Rltb_spec 0 (Rabs s)) in E; [|discriminate].
      assert (Hne : s <> 0) by (intros ->; rewrite Rabs_R0 in r; lra).
      destruct (Rlt_dec 0 s) as [Sp|Sn].
      + left. destruct u as [u| | |], b as [b| | |]; cbn in *; try discriminate.
        * apply Rleb_true in Hu. destruct (Reqb_spec s 0); [contradiction|]. cbn.
          destruct (Rleb_spec 0 ((u + - b) / s)) as [|Hc]; auto. exfalso. apply Hc.
          apply Rmult_le_pos; [lra|]. left. now apply Rinv_0_lt_compat.
        * destruct (Rltb_spec s 0); [lra|]. reflexivity.
        * destruct (Rltb_spec s 0); [lra|]. reflexivity.
        * destruct (Rltb_spec s 0); [lra|]. reflexivity.
      + right. assert (Sn' : s < 0) by lra. destruct l as [l| | |], b as [b| | |]; cbn in *; try discriminate.
        * apply Rleb_true in Hl. destruct (Reqb_spec s 0); [contradiction|]. cbn.
          destruct (Rleb_spec 0 ((l + - b) / s)) as [|Hc]; auto. exfalso. apply Hc.
          unfold Rdiv. assert (/ s < 0) by now apply Rinv_lt_0_compat. nra.
        * destruct (Rltb_spec s 0); [|lra]. reflexivity.
        * destruct (Rltb_spec s 0); [|lra]. reflexivity.
        * destruct (Rltb_spec s 0); [|lra]. reflexivity.
    - left. destruct u as [u| | |], b as [b| | |]; cbn in *; try discriminate.
      destruct (Rleb_spec 0 0); [auto|lra].
    - left. destruct u as [u| | |], b as [b| | |]; cbn in *; try discriminate.
      destruct (Rleb_spec 0 0); [auto|lra]. }
  destruct (er_ltb (er_div (er_sub u b) s) (er_div (er_sub l b) s)) eqn:L.
  - destruct K as [K|K]; auto. apply er_ltb_leb in L. eapply er_le_trans; eauto.
  - destruct K as [K|K]; auto. apply er_not_lt_le in L; auto. eapply er_le_trans; eauto.
Qed.

(** *** arrays, with NaN outside *)
Lemma nth_map2_nan f (a b : list ER) i : (forall v, f v NaN = NaN) -> (forall v, f NaN v = NaN) ->
  nth i (map2 f a b) NaN = f (nth i a NaN) (nth i b NaN).
Proof.
  intros H1 H2. revert b i. induction a as [|x a IH]; intros [|y b] i; destruct i; simpl; auto.
Qed.
Lemma nth_vadd_nan (a b : list ER) i : nth i (vadd a b) NaN = er_add (nth i a NaN) (nth i b NaN).
Proof. apply nth_map2_nan; intros v; [apply er_add_nan|reflexivity]. Qed.
Lemma nth_vscaler_nan (a : list ER) c i : nth i (vscaler a c) NaN = er_mul (nth i a NaN) c.
Proof.
  unfold vscaler. revert i. induction a as [|x a IH]; intros [|i]; simpl; auto.
Qed.
Lemma nth_vscale_nan (a : list ER) c i : nth i (vscale c a) NaN = er_mul (nth i a NaN) c.
Proof.
  unfold vscale. revert i. induction a as [|x a IH]; intros [|i]; simpl; auto. apply er_mul_comm.
Qed.
Lemma nth_breakpoints (x s lb ub : list ER) i :
  (nth i (breakpoints x s lb ub) NaN = breakpoint (nth i x NaN) (nth i s NaN) (nth i lb NaN) (nth i ub NaN)
     /\ (i < length (breakpoints x s lb ub))%nat)
  \/ ((length (breakpoints x s lb ub) <= i)%nat
      /\ (nth i x NaN = NaN \/ nth i s NaN = NaN \/ nth i lb NaN = NaN \/ nth i ub NaN = NaN)).
Proof.
  revert s lb ub i. induction x as [|a x IH]; intros s lb ub i; [right; split; [simpl; lia|]; left; now destruct i|].
  destruct s as [|b s]; [right; split; [simpl; lia|]; right; left; now destruct i|].
  destruct lb as [|l lb]; [right; split; [simpl; lia|]; right; right; left; now destruct i|].
  destruct ub as [|u ub]; [right; split; [simpl; lia|]; right; right; right; now destruct i|].
  destruct i; [left; simpl; split; [auto|lia]|].
  destruct (IH s lb ub i) as [[H1 H2]|[H1 H2]]; [left; simpl; split; [auto|lia]|right; simpl; split; [lia|exact H2]].
Qed.
Lemma npmin_fold_nan : forall (l : list ER), fold_left npmin2 l NaN = NaN.
Proof. induction l as [|x l IH]; auto. Qed.
Lemma npmin_fold_in_nan : forall (l : list ER) x, In NaN l -> fold_left npmin2 l x = NaN.
Proof.
  induction l as [|y l IH]; intros x H; [contradiction|]. simpl. destruct H as [->|H]; [|now apply IH].
  replace (npmin2 x NaN) with NaN; [apply npmin_fold_nan|]. destruct x; reflexivity.
Qed.
Lemma npmin_nan (l : list ER) : In NaN l -> npmin l = NaN.
Proof.
  destruct l as [|x l]; [contradiction|]. intros [->|H]; simpl; [apply npmin_fold_nan|now apply npmin_fold_in_nan].
Qed.
Lemma npmin_cases (l : list ER) : npmin l = NaN \/ (In (npmin l) l /\ forall y, In y l -> er_leb (npmin l) y = true).
Proof.
  destruct l as [|x l]; [left; reflexivity|].
  destruct (in_dec (fun a b : ER => ltac:(decide equality; apply Req_EM_T)) NaN (x :: l)) as [H|H]; [left; now apply npmin_nan|].
  right. destruct (npmin_spec (x :: l)) as [H1 H2]; [discriminate| |split; auto].
  apply Forall_forall. intros y Hy. destruct y; auto. contradiction.
Qed.

Section Box.
  Variables (O : StepOracles ER) (A : sargs ER) (t : R).
  Hypothesis Ht : a_theta A = Fin t.
  Hypothesis Ht0 : 0 <= t <= 1.
  Hypothesis Hlen : length (a_x A) = length (a_sg A).
  Hypothesis Hx : forall i, nan_or_within (nth i (a_lb A) NaN) (nth i (a_ub A) NaN) (nth i (a_x A) NaN).

  (** the step starts at a point inside the box, and was stepped back from there *)
  Record boxed (c : step ER) : Prop := mkBoxed {
    bx_in : forall i, nan_or_within (nth i (a_lb A) NaN) (nth i (a_ub A) NaN) (nth i (st_x c) NaN);
    bx_x : st_x c = vadd (a_x A) (st_s0 c);
    bx_br : st_br c = breakpoints (st_x c) (st_og_s c) (a_lb A) (a_ub A);
    bx_minbr : st_minbr c = npmin (st_br c);
    bx_im : st_iminbr c = where_ (map (fun b => neqb b (st_minbr c)) (st_br c));
    bx_th : st_theta c = Fin t;
    bx_alpha : st_alpha c = npmin [n1; nmul (Fin t) (st_minbr c)];
    bx_s : st_s c = vscaler (st_og_s c) (st_alpha c)
  }.

  Lemma stepped_boxed typ x' sub s0 ss0 refl tr pd nw s ss sc c :
    x' = vadd (a_x A) s0 ->
    (forall i, nan_or_within (nth i (a_lb A) NaN) (nth i (a_ub A) NaN) (nth i x' NaN)) ->
    stepped (new_step typ A x' sub s0 ss0 refl tr pd nw) s ss sc c -> boxed c.
  Proof.
    intros E1 E2 H. destruct H. cbn [new_step st_x st_s0 st_lb st_ub st_theta] in *.
    constructor; rewrite ?sb_x, ?sb_s0, ?sb_og_s, ?sb_theta; auto.
    rewrite sb_alpha, Ht. reflexivity.
  Qed.

  (** non-negativity of the breakpoints *)
  Lemma br_nonneg c : boxed c -> forall b, In b (st_br c) -> b = NaN \/ er_leb (Fin 0) b = true.
  Proof.
    intros Hc b Hb. rewrite (bx_br _ Hc) in Hb. apply (In_nth _ _ NaN) in Hb as (i & Hi & <-).
    destruct (nth_breakpoints (st_x c) (st_og_s c) (a_lb A) (a_ub A) i) as [[E _]|E].
    - rewrite E. apply breakpoint_nonneg. apply (bx_in _ Hc).
    - destruct E as [E _]. lia.
  Qed.

  (** multipliers not exceeding the smallest breakpoint *)
  Definition fits (c : step ER) (al : ER) : Prop :=
    al = NaN \/ exists a m, al = Fin a /\ 0 <= a /\ (st_minbr c = PInf \/ st_minbr c = Fin m /\ a <= m).
  Lemma minbr_cases c : boxed c -> st_minbr c = NaN
    \/ ((st_minbr c = PInf \/ exists m, st_minbr c = Fin m /\ 0 <= m)
        /\ forall b, In b (st_br c) -> er_leb (st_minbr c) b = true).
  Proof.
    intros Hc. rewrite (bx_minbr _ Hc). destruct (npmin_cases (st_br c)) as [H|[H1 H2]]; auto.
    right. split; auto. destruct (br_nonneg c Hc _ H1) as [H|H].
    - specialize (H2 _ H1). rewrite H in H2. discriminate.
    - destruct (npmin (st_br c)) as [m| | |]; try discriminate; auto. right. exists m. split; auto.
      cbn in H. now apply Rleb_true.
  Qed.
  Lemma fits_coordinate c al i : boxed c -> fits c al ->
    nan_or_within (nth i (a_lb A) NaN) (nth i (a_ub A) NaN)
      (er_add (nth i (st_x c) NaN) (er_mul (nth i (st_og_s c) NaN) al)).
  Proof.
    intros Hc Hf. destruct Hf as [->|(a & m & -> & Ha & Hm)].
    { left. rewrite er_mul_nan. apply er_add_nan. }
    destruct (nth_breakpoints (st_x c) (st_og_s c) (a_lb A) (a_ub A) i) as [[E Hi]|[_ E]].
    - apply coordinate; [apply (bx_in _ Hc)|]. right. exists a. split; auto. split; auto.
      rewrite <- E. rewrite <- (bx_br _ Hc) in *.
      destruct (minbr_cases c Hc) as [Hn|[_ Hb]].
      { rewrite Hn in Hm. destruct Hm as [Hm|[Hm _]]; discriminate. }
      eapply er_le_trans; [|apply Hb, nth_In, Hi].
      destruct Hm as [->|[-> H]]; cbn; auto. now destruct (Rleb_spec a m).
    - pose proof (bx_in _ Hc i) as Hin. destruct E as [E|[E|E]].
      + left. now rewrite E.
      + left. rewrite E. cbn. apply er_add_nan.
      + left. destruct Hin as [->|[H1 H2]]; auto. exfalso. destruct E as [E|E]; rewrite E in *.
        * destruct (nth i (st_x c) NaN); discriminate.
        * destruct (nth i (st_x c) NaN); discriminate.
  Qed.
  Lemma alpha_fits c : boxed c -> fits c (st_alpha c).
  Proof.
    intros Hc. rewrite (bx_alpha _ Hc). destruct (minbr_cases c Hc) as [E|[[E|(m & E & Hm)] _]]; rewrite E.
    - left. reflexivity.
    - cbn [nmul ERNum er_mul]. unfold er_infmul. unfold npmin, npmin2. cbn [fold_left nisnan ERNum].
      destruct (Rltb_spec 0 t); [|destruct (Rltb_spec t 0)].
      + right. exists 1, 0. split; [cbn; reflexivity|]. split; [lra|auto].
      + lra.
      + left. reflexivity.
    - cbn [nmul ERNum er_mul]. unfold npmin, npmin2. cbn [fold_left nisnan ERNum er_isnan n1 nofZ nltb er_ltb].
      right. destruct (Rltb_spec (t * m) 1).
      + exists (t * m), m. repeat split; auto; [nra|]. right. split; auto. nra.
      + exists 1, m. repeat split; auto; [lra|]. right. split; auto. nra.
  Qed.
  Lemma pymin_fits c : boxed c -> fits c (pymin (st_minbr c) n1).
  Proof.
    intros Hc. unfold pymin. destruct (minbr_cases c Hc) as [E|[[E|(m & E & Hm)] _]]; rewrite E.
    - left. reflexivity.
    - right. exists 1, 0. split; [cbn; reflexivity|]. split; [lra|auto].
    - cbn [nltb ERNum n1 nofZ er_ltb]. right. destruct (Rltb_spec 1 m).
      + exists 1, m. repeat split; auto; [lra|]. right. split; auto. lra.
      + exists m, m. repeat split; auto. right. split; auto. lra.
  Qed.
  Lemma theta_fits c b : boxed c -> neqb (st_alpha c) n1 = false -> neqb b (st_minbr c) = true ->
    fits c (nmul (Fin t) b).
  Proof.
    intros Hc Ha Hb. rewrite (bx_alpha _ Hc) in Ha.
    assert (b = st_minbr c) as ->.
    { destruct b as [b| | |], (st_minbr c) as [m| | |]; cbn in Hb; try discriminate; auto.
      f_equal. now destruct (Reqb_spec b m). }
    destruct (minbr_cases c Hc) as [E|[[E|(m & E & Hm)] _]]; rewrite E in *.
    - left. reflexivity.
    - left. cbn [nmul ERNum er_mul] in *. unfold er_infmul in *.
      unfold npmin, npmin2 in Ha. cbn [fold_left nisnan ERNum] in Ha.
      destruct (Rltb_spec 0 t); [|destruct (Rltb_spec t 0); [lra|reflexivity]].
      cbn in Ha. destruct (Reqb_spec 1 1); [discriminate|lra].
    - right. exists (t * m), m. cbn. repeat split; auto; [nra|]. right. split; auto. nra.
  Qed.

  (** the trial point *)
  Lemma boxed_trial c i : boxed c ->
    nan_or_within (nth i (a_lb A) NaN) (nth i (a_ub A) NaN)
      (nth i (vadd (vadd (a_x A) (st_s c)) (st_s0 c)) NaN).
  Proof.
    intros Hc. rewrite !nth_vadd_nan. rewrite (bx_s _ Hc), nth_vscaler_nan.
    rewrite er_add_assoc, (er_add_comm (er_mul _ _)), <- er_add_assoc, <- nth_vadd_nan, <- (bx_x _ Hc).
    apply fits_coordinate; auto. now apply alpha_fits.
  Qed.

  Lemma reflected_boxed p c : boxed p -> calculate O (tr_step_reflected A p) = Ok c -> boxed c.
  Proof.
    intros Hp H. apply calculate_fields in H as (sc & ss & s & _ & _ & _ & Hst & _).
    unfold tr_step_reflected in Hst. eapply stepped_boxed; [| |exact Hst]; [reflexivity|].
    intros i. rewrite !nth_vadd_nan, nth_vscale_nan.
    rewrite (er_add_comm (er_mul _ _)), <- er_add_assoc, <- nth_vadd_nan, <- (bx_x _ Hp).
    apply fits_coordinate; auto. now apply pymin_fits.
  Qed.
  Lemma nth_mapi_nan (f : nat -> ER -> ER) l i : nth i (mapi f l) NaN = NaN /\ nth i l NaN = NaN \/ nth i (mapi f l) NaN = f i (nth i l NaN).
  Proof.
    destruct (Nat.lt_ge_cases i (length l)) as [H|H].
    - right. unfold mapi. assert (G : forall k j, (j < length l)%nat -> nth j (mapi_from f k l) NaN = f (k + j)%nat (nth j l NaN)).
      { clear. induction l as [|a l IH]; intros k j H; [simpl in H; lia|]. destruct j; simpl; [now rewrite Nat.add_0_r|].
        rewrite IH by (simpl in H; lia). f_equal. lia. }
      rewrite G by auto. reflexivity.
    - left. split; apply nth_overflow; auto. now rewrite mapi_length.
  Qed.
  Lemma mem_where i (l : list bool) : mem i (where_ l) = nth i l false.
  Proof.
    unfold where_. assert (G : forall k, mem i (where_from k l) = if (i <? k)%nat then false else nth (i - k) l false).
    { clear. induction l as [|b l IH]; intros k; [simpl; destruct (i <? k)%nat; auto; now destruct (i - k)%nat|].
      simpl. destruct (Nat.ltb_spec i k).
      - destruct b; simpl; [rewrite (proj2 (Nat.eqb_neq i k)) by lia; simpl|]; fold (mem i (where_from (S k) l)); rewrite IH;
          destruct (Nat.ltb_spec i (S k)); auto; lia.
      - destruct (Nat.eq_dec i k) as [->|Hne].
        + rewrite Nat.sub_diag. destruct b; simpl; [now rewrite Nat.eqb_refl|]. fold (mem k (where_from (S k) l)). rewrite IH.
          destruct (Nat.ltb_spec k (S k)); auto; lia.
        + replace (i - k)%nat with (S (i - S k)) by lia.
          destruct b; simpl; [rewrite (proj2 (Nat.eqb_neq i k)) by lia; simpl|]; fold (mem i (where_from (S k) l)); rewrite IH;
            destruct (Nat.ltb_spec i (S k)); auto; lia. }
    rewrite G. simpl. now rewrite Nat.sub_0_r.
  Qed.
  Lemma mem_iminbr c i : boxed c -> mem i (st_iminbr c) = true -> neqb (nth i (st_br c) NaN) (st_minbr c) = true.
  Proof.
    intros Hc. rewrite (bx_im _ Hc), mem_where. intros H.
    destruct (Nat.lt_ge_cases i (length (st_br c))) as [Hi|Hi].
    - erewrite nth_indep in H by (rewrite map_length; exact Hi).
      rewrite (map_nth (fun b => neqb b (st_minbr c)) (st_br c) NaN i) in H. exact H.
    - rewrite nth_overflow in H by (now rewrite map_length). discriminate.
  Qed.
  Lemma truncated_boxed p c : boxed p -> neqb (st_alpha p) n1 = false ->
    calculate O (tr_step_truncated A p) = Ok c -> boxed c.
  Proof.
    intros Hp Ha H. apply calculate_fields in H as (sc & ss & s & _ & _ & _ & Hst & _).
    unfold tr_step_truncated in Hst. eapply stepped_boxed; [| |exact Hst]; [reflexivity|].
    intros i. rewrite nth_vadd_nan. unfold trunc_s0.
    match goal with |- context [mapi ?f ?l] => destruct (nth_mapi_nan f l i) as [[E1 E2]|E] end.
    - rewrite E1. left. apply er_add_nan.
    - rewrite E. destruct (mem i (st_iminbr p)) eqn:Em.
      + change (nnan : ER) with NaN. cbn [nadd ERNum].
        rewrite <- er_add_assoc, <- nth_vadd_nan, <- (bx_x _ Hp).
        change (nmul (nmul (st_theta p) (nth i (st_br p) NaN)) (nth i (st_og_s p) NaN)) with
          (er_mul (nmul (st_theta p) (nth i (st_br p) NaN)) (nth i (st_og_s p) NaN)).
        rewrite er_mul_comm, (bx_th _ Hp). apply fits_coordinate; auto.
        apply theta_fits; auto. now apply mem_iminbr.
      + rewrite <- nth_vadd_nan, <- (bx_x _ Hp). apply (bx_in _ Hp).
  Qed.
  Lemma x_zeros : vadd (a_x A) (zeros_of A) = a_x A.
  Proof. apply vadd_zeros_r. exact Hlen. Qed.
  Lemma start_boxed typ sub ss0 refl tr pd nw s ss sc c :
    stepped (new_step typ A (a_x A) sub (zeros_of A) ss0 refl tr pd nw) s ss sc c -> boxed c.
  Proof. apply stepped_boxed; auto. symmetry. apply x_zeros. Qed.

  Lemma all_boxed sd strat l : candidates O A sd strat = Ok l -> Forall boxed l.
  Proof.
    apply candidates_all.
    - intros p c Hp _. now apply reflected_boxed.
    - intros p c Hp. now apply truncated_boxed.
    - intros c H. apply calculate_fields in H as (sc & ss & s & _ & _ & _ & Hst & _). eapply start_boxed; exact Hst.
    - intros p c _ H. apply refined_fields in H as (sc & ss & s & _ & _ & Hst & _). eapply start_boxed; exact Hst.
    - intros c H. apply main_step_cases in H as [(_ & r & H1 & H2)|[(_ & H)|(_ & H)]].
      + apply calculate_fields in H2 as (sc & ss & s & _ & _ & _ & Hst & _).
        assert (exists sub pd nw, r = new_step "2d" A (a_x A) sub (zeros_of A) (zeros_of A) [] [] pd nw) as (sub & pd & nw & ->).
        { revert H1. clear. unfold tr_step_2d. cbv zeta. destruct (so_lstsq _ _ _); [|discriminate].
          destruct (so_eig _ _) as [[[e1 e2] v]|]; [|discriminate].
          set (pd := (_ <? _)%num). clearbody pd.
          assert (G : forall sub pd nw, Ok (new_step "2d" A (a_x A) sub (zeros_of A) (zeros_of A) [] [] (Some pd) nw) = Ok r ->
                     exists sub pd nw, r = new_step "2d" A (a_x A) sub (zeros_of A) (zeros_of A) [] [] pd nw)
            by (intros ? ? ? H; injection H as <-; eauto).
          destruct (a_sg A) as [|s0 [|s1 sg]]; [|apply G|];
            (destruct (_ && _); [apply G|]; match goal with |- (if ?b then _ else _) = _ -> _ => destruct b end; apply G). }
        eapply start_boxed; exact Hst.
      + apply calculate_fields in H as (sc & ss & s & _ & _ & _ & Hst & _). eapply start_boxed; exact Hst.
      + apply cg_fields in H as (sub & sc & ss & ss0 & s & _ & _ & Hst & _). eapply start_boxed; exact Hst.
  Qed.
End Box.
