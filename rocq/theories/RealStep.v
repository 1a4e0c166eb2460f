(** Candidate steps computed from finite data, in exact arithmetic *)
From Coq Require Import String ZArith List Bool Reals Lra Lia Psatz.
From Verif Require Import Num Subproblem Steps TrustRegion ER NumFacts RVec SubNd RShess Argmin Cand StepFacts Prop_Sub1d Prop_Pred Prop_Box.
Import ListNotations.
Local Open Scope R_scope.
Local Open Scope list_scope.

(** [b] lies in the box / strictly inside it *)
Definition inside (l : ER) (b : R) (u : ER) : Prop := er_leb l (Fin b) = true /\ er_leb (Fin b) u = true.
Definition strictly_inside (l : ER) (b : R) (u : ER) : Prop := er_ltb l (Fin b) = true /\ er_ltb (Fin b) u = true.
Lemma strictly_inside_inside l b u : strictly_inside l b u -> inside l b u.
Proof. intros [H1 H2]. split; now apply er_ltb_leb. Qed.

Lemma er_div_fin a s : s <> 0 -> er_div (Fin a) (Fin s) = Fin (a / s).
Proof. intros H. cbn [er_div]. destruct (Reqb_spec s 0); [contradiction|reflexivity]. Qed.

(** the breakpoint of a finite coordinate *)
Lemma breakpoint_real l b u s : inside l b u ->
  breakpoint (Fin b) (Fin s) l u = PInf
  \/ exists m, breakpoint (Fin b) (Fin s) l u = Fin m /\ 0 <= m /\ s <> 0 /\ (strictly_inside l b u -> 0 < m).
Proof.
  intros [Hl Hu]. unfold breakpoint. cbn [nabs ERNum nltb n0 nofZ er_abs er_ltb].
  destruct (Rltb_spec 0 (Rabs s)) as [Hs|Hs]; [|left; reflexivity].
  assert (Hne : s <> 0) by (intros ->; rewrite Rabs_R0 in Hs; lra).
  assert (Ls : l = NInf \/ exists l', l = Fin l' /\ l' <= b).
  { destruct l as [l'| | |]; cbn in Hl; try discriminate; auto. right. exists l'. split; auto. now apply Rleb_true. }
  assert (Us : u = PInf \/ exists u', u = Fin u' /\ b <= u').
  { destruct u as [u'| | |]; cbn in Hu; try discriminate; auto. right. exists u'. split; auto. now apply Rleb_true. }
  assert (St : forall l' u', strictly_inside (Fin l') b u' -> l' < b).
  { intros l' u' [K _]. cbn [er_ltb] in K. destruct (Rltb_spec l' b); [auto|discriminate]. }
  assert (Su : forall l' u', strictly_inside l' b (Fin u') -> b < u').
  { intros l' u' [_ K]. cbn [er_ltb] in K. destruct (Rltb_spec b u'); [auto|discriminate]. }
  assert (Is : 0 < s -> 0 < / s) by apply Rinv_0_lt_compat.
  assert (In : s < 0 -> / s < 0) by apply Rinv_lt_0_compat.
  assert (Mp : forall a b0, npmax2 (Fin a) (Fin b0) = Fin (Rmax a b0)).
  { intros a b0. unfold npmax2. cbn [nisnan ERNum er_isnan nltb er_ltb]. unfold Rmax.
    destruct (Rltb_spec a b0), (Rle_dec a b0); try reflexivity; f_equal; lra. }
  destruct Ls as [->|(l' & -> & Hl')], Us as [->|(u' & -> & Hu')].
  - left. unfold npmax2. cbn. destruct (Rltb_spec s 0); reflexivity.
  - change (NInf - Fin b)%num with NInf. change (Fin u' - Fin b)%num with (Fin (u' - b)).
    cbn [ndiv ERNum]. rewrite er_div_fin by auto. cbn [er_div].
    destruct (Rltb_spec s 0) as [S|S]; cbn.
    + left. unfold npmax2. reflexivity.
    + right. exists ((u' - b) / s). split; [reflexivity|]. split; [|split; auto].
      * apply Rmult_le_pos; [lra|]. assert (0 < s) by lra. left; auto.
      * intros K. apply Su in K. apply Rmult_lt_0_compat; [lra|]. apply Is. lra.
  - change (PInf - Fin b)%num with PInf. change (Fin l' - Fin b)%num with (Fin (l' - b)).
    cbn [ndiv ERNum]. rewrite er_div_fin by auto. cbn [er_div].
    destruct (Rltb_spec s 0) as [S|S]; cbn.
    + right. exists ((l' - b) / s). split; [reflexivity|]. specialize (In S). split; [|split; auto].
      * unfold Rdiv. nra.
      * intros K. apply St in K. unfold Rdiv. nra.
    + left. unfold npmax2. reflexivity.
  - change (Fin l' - Fin b)%num with (Fin (l' - b)). change (Fin u' - Fin b)%num with (Fin (u' - b)).
    cbn [ndiv ERNum]. rewrite !er_div_fin by auto. rewrite Mp. right. eexists. split; [reflexivity|].
    destruct (Rlt_dec 0 s) as [S|S].
    + specialize (Is S). split; [|split; auto].
      * apply Rle_trans with ((u' - b) / s); [|apply Rmax_l]. unfold Rdiv. nra.
      * intros K. apply Su in K. apply Rlt_le_trans with ((u' - b) / s); [|apply Rmax_l]. unfold Rdiv. nra.
    + assert (S' : s < 0) by lra. specialize (In S'). split; [|split; auto].
      * apply Rle_trans with ((l' - b) / s); [|apply Rmax_r]. unfold Rdiv. nra.
      * intros K. apply St in K. apply Rlt_le_trans with ((l' - b) / s); [|apply Rmax_r]. unfold Rdiv. nra.
Qed.

Lemma breakpoint_zero b l u : breakpoint b (Fin 0) l u = PInf.
Proof. unfold breakpoint. cbn. rewrite Rabs_R0. destruct (Rltb_spec 0 0); [lra|reflexivity]. Qed.
Lemma breakpoint_nan b l u : breakpoint b NaN l u = PInf.
Proof. reflexivity. Qed.

Section Back.
  Variables (n : nat) (theta : R) (lb ub : list ER).
  Hypothesis Hn : (1 <= n)%nat.
  Hypothesis Ht : 0 < theta <= 1.
  Hypothesis Hlb : length lb = n.
  Hypothesis Hub : length ub = n.

  Definition box_in (y : rvec) : Prop := forall i, (i < n)%nat -> inside (nth i lb NaN) (nth i y 0) (nth i ub NaN).
  Definition box_strict (y : rvec) : Prop := forall i, (i < n)%nat -> strictly_inside (nth i lb NaN) (nth i y 0) (nth i ub NaN).

  Lemma breakpoints_length (y s l u : list ER) k : length y = k -> length s = k -> length l = k -> length u = k ->
    length (breakpoints y s l u) = k.
  Proof.
    revert s l u k. induction y as [|a y IH]; intros s l u k E1 E2 E3 E4; [simpl in E1; subst; reflexivity|].
    destruct s, l, u; simpl in *; try lia. rewrite (IH s l u (Nat.pred k)); lia.
  Qed.
  (** outcome of the step-back computation for a finite start point inside the box and a finite step *)
  Record back (y s : rvec) (br : list ER) (mb al : ER) : Prop := mkBack {
    bk_len : length br = n;
    bk_al : exists a, al = Fin a /\ 0 <= a <= 1
             /\ (mb = PInf /\ a = 1
                 \/ exists m, mb = Fin m /\ 0 <= m /\ a = Rmin 1 (theta * m)
                      /\ (exists i, (i < n)%nat /\ nth i br NaN = Fin m))
             /\ (box_strict y -> 0 < a);
    bk_br : forall i, (i < n)%nat -> nth i br NaN = PInf \/ exists m, nth i br NaN = Fin m /\ 0 <= m /\ nth i s 0 <> 0;
  }.
  Lemma back_real y s br : length y = n -> length s = n -> box_in y ->
    br = breakpoints (fv y) (fv s) lb ub ->
    back y s br (npmin br) (npmin [n1; (Fin theta * npmin br)%num]).
  Proof.
    intros Hy Hs Hin ->.
    set (br := breakpoints (fv y) (fv s) lb ub).
    assert (L : length br = n) by (apply breakpoints_length; rewrite ?fv_length; auto).
    assert (Hi : forall i, (i < n)%nat -> nth i br NaN = breakpoint (Fin (nth i y 0)) (Fin (nth i s 0)) (nth i lb NaN) (nth i ub NaN)).
    { intros i Hi. destruct (nth_breakpoints (fv y) (fv s) lb ub i) as [[E _]|[E _]].
      - fold br in E. rewrite E, !h_nth by lia. reflexivity.
      - fold br in E. lia. }
    assert (Hbr : forall i, (i < n)%nat -> nth i br NaN = PInf \/ exists m, nth i br NaN = Fin m /\ 0 <= m /\ nth i s 0 <> 0
                    /\ (box_strict y -> 0 < m)).
    { intros i Hl. rewrite Hi by auto. destruct (breakpoint_real _ _ _ (nth i s 0) (Hin i Hl)) as [E|(m & E & K1 & K2 & K3)]; auto.
      right. exists m. repeat split; auto. }
    constructor; auto.
    - destruct (npmin_spec br) as [Hle Hm].
      { intros E. rewrite E in L. simpl in L. lia. }
      { apply Forall_forall. intros b Hb. apply (In_nth _ _ NaN) in Hb as (i & Hl & <-). rewrite L in Hl.
        destruct (Hbr i Hl) as [->|(m & -> & _)]; reflexivity. }
      apply (In_nth _ _ NaN) in Hm as (i & Hl & E). rewrite L in Hl.
      destruct (Hbr i Hl) as [E'|(m & E' & Hm0 & _ & Hm1)].
      + rewrite <- E, E'. exists 1. split; [|split; [lra|split; [auto|intros; lra]]].
        cbn [nmul ERNum er_mul]. unfold er_infmul. destruct (Rltb_spec 0 theta); [|lra]. reflexivity.
      + rewrite <- E, E'. exists (Rmin 1 (theta * m)).
        split; [|split; [|split]].
        * cbn [nmul ERNum er_mul]. unfold npmin, npmin2. cbn [fold_left nisnan ERNum er_isnan n1 nofZ nltb er_ltb].
          unfold Rmin. destruct (Rltb_spec (theta * m) 1), (Rle_dec 1 (theta * m)); try reflexivity; try lra; f_equal; lra.
        * split; [apply Rmin_glb; nra|apply Rmin_l].
        * right. exists m. repeat split; auto. exists i. split; auto.
        * intros K. specialize (Hm1 K). apply Rmin_glb_lt; nra.
    - intros i Hl. destruct (Hbr i Hl) as [E|(m & E & K1 & K2 & _)]; auto. right. exists m. auto.
  Qed.
End Back.
