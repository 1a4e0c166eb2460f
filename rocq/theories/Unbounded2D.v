(** Problems without bounds: the step computed in the two-dimensional subspace (proof library for C56) *)
From Coq Require Import String ZArith List Bool Reals Lra Lia Psatz.
From Verif Require Import Num Constants Subproblem HessApprox Steps TrustRegion Minimize
  ER NumFacts MonadFacts MinFacts Spec Run RunInv RVec Ortho SubNd Prop_SubNd RShess Argmin Cand StepFacts Prop_Sub1d Prop_Pred Prop_Box
  Prop_Cand TRErr RealStep Prop_Grad Region Prop_Trunc Prop_TwoD Prop_CG Prop_Run Prop_Nudge Prop_BoxRun Unbounded UnboundedFull.
Import ListNotations.
Local Open Scope R_scope.
Local Open Scope list_scope.

(** the linear algebra routines used by the two-dimensional solver handle the matrix [B] exactly *)
Definition exact_2d (O : StepOracles ER) (n : nat) (B : rmat) : Prop :=
  (exists vals V, eig_decomposition n B vals V /\ so_eig O (fm B) = Some (fv vals, fv (map Rabs vals), fm V))
  /\ (forall g, length g = n -> exists l, so_lstsq O (fm B) (fv g) = Some (fv l) /\ length l = n /\ rmv B l = g)
  /\ (forall u v, length u = n -> length v = n -> orthonormal [u; v] -> solvable (so_sub O) 2 (redB B [u; v])).

(** the Newton step minimizes a convex model *)
Lemma newton_min n B g l y : is_mat n n B -> symmetric B -> posdef n B -> length g = n -> length l = n -> length y = n -> rmv B l = g ->
  qmodel B g (rscale (-1) l) <= qmodel B g y.
Proof.
  intros MB SB PB Lg Ll Ly E. set (z := radd y l). assert (Lz : length z = n) by (unfold z; rlen).
  assert (Ey : y = radd (rscale (-1) l) z).
  { unfold z. apply rvec_ext; [rlen|]. intros i. rewrite !nth_radd by rlen. rewrite nth_rscale. ring. }
  rewrite Ey. unfold qmodel.
  rewrite rform_radd_l, !rform_radd_r, rdot_radd_r by rlen.
  rewrite !rform_rscale_l, !rform_rscale_r.
  rewrite (rform_sym n B l z) by auto.
  assert (Ez : rdot g z = rform B z l) by (unfold rform; rewrite E; apply rdot_comm). rewrite Ez.
  assert (0 <= rform B z z).
  { destruct (nonzero_dec z) as [Hz|Hz]; [left; now apply PB|]. rewrite (all0_zeros z Hz). unfold rform. rewrite rdot_zeros_l. lra. }
  lra.
Qed.
Lemma fold_max_nonneg : forall l a, 0 <= a -> Forall (fun b => 0 <= b) l -> exists m, fold_left npmax2 (fv l) (Fin a) = Fin m /\ 0 <= m.
Proof.
  induction l as [|b l IH]; intros a Ha Hl; [exists a; auto|]. inversion Hl; subst. cbn [fv map fold_left].
  unfold npmax2 at 2. cbn [nisnan ERNum er_isnan nltb er_ltb]. destruct (Rltb a b); apply IH; auto.
Qed.
Lemma npmax_abs l : l <> [] -> exists m, npmax (fv (map Rabs l)) = Fin m /\ 0 <= m.
Proof.
  destruct l as [|a l]; [congruence|]. intros _. cbn [map fv npmax]. apply fold_max_nonneg; [apply Rabs_pos|].
  apply Forall_map, Forall_forall. intros; apply Rabs_pos.
Qed.

Section Free2D.
  Variables (O : StepOracles ER) (n : nat) (x g : rvec) (H : rmat) (delta theta : R).
  Hypothesis Hn : (1 <= n)%nat.
  Hypothesis Lx : length x = n.
  Hypothesis Lg : length g = n.
  Hypothesis MH : is_mat n n H.
  Hypothesis SH : symmetric H.
  Hypothesis Hd : 0 < delta.
  Hypothesis Ht : 0 < theta <= 1.
  Local Notation A := (rA x g H (rones n) (rzeros n) delta theta (no_lb n) (no_ub n)).
  Local Notation start := (start_in n x g H delta theta).

  (** the subspaces chosen *)
  Lemma free_2d_subspace : posdef n H -> nonzero g -> exact_2d O n H ->
    exists l sub pd nw, length l = n /\ rmv H l = g /\ nonzero l /\ tr_step_2d O A = Ok (start "2d" sub pd nw)
      /\ ((n = 1%nat /\ exists a, a <> 0 /\ sub = [[a]])
          \/ (sub = [rnormalize (rscale (-1) l)] /\ rnorm l < delta)
          \/ (sub = [rnormalize (rscale (-1) l)] /\ rnorm (rorth (rnormalize (rscale (-1) l)) g) <= / IZR (2 ^ 52))
          \/ (sub = [rnormalize (rscale (-1) l); rnormalize (rorth (rnormalize (rscale (-1) l)) g)]
              /\ / IZR (2 ^ 52) < rnorm (rorth (rnormalize (rscale (-1) l)) g))).
  Proof using All.
    intros PH Ng ((vals & V & HD & Ee) & Hls & _).
    pose proof (free_problem O n x g H delta theta Hn Lx Lg MH SH Hd Ht) as P.
    destruct (Hls g Lg) as (l & El & Ll & Eg).
    assert (Nl : nonzero l).
    { destruct (nonzero_dec l) as [|Hz]; [auto|]. exfalso. rewrite (all0_zeros l Hz) in Eg. apply nonzero_dot in Ng. rewrite <- Eg in Ng.
      assert (Z : rmv H (rzeros (length l)) = rzeros n).
      { apply rvec_ext; [rewrite rmv_length, rzeros_length; apply MH|]. intros i. rewrite nth_rmv, nth_rzeros. apply rdot_zeros_r. }
      rewrite Z, rdot_zeros_l in Ng. lra. }
    assert (Hpd : (npmin (fv vals) >? (- spacing1) * npmax (fv (map Rabs vals)))%num = true).
    { destruct (posdef_smallest n H vals V) as (m & [(i & Hi & Ei) Hm] & Pm); auto.
      rewrite (npmin_vals n H g vals V) by auto.
      assert (Pmin : 0 < mineig vals).
      { unfold mineig, ev. pose proof (jm_lt n H g vals V Lg Hn HD) as Hj. specialize (Hm _ Hj). lra. }
      destruct (npmax_abs vals) as (b & Eb & Hb); [intros ->; destruct HD as [HD _]; simpl in HD; lia|].
      rewrite Eb, spacing_fin. cbn [nopp ERNum er_opp nmul er_mul nltb er_ltb].
      assert (0 < / IZR (2 ^ 52)) by (apply Rinv_0_lt_compat, IZR_lt; reflexivity).
      destruct (Rltb_spec (- / IZR (2 ^ 52) * b) (mineig vals)); [reflexivity|]. nra. }
    exists l. unfold tr_step_2d. cbv zeta.
    rewrite (rA_shess n x g H (rones n) (rzeros n) delta theta (no_lb n) (no_ub n) P), rA_sg, free_B, free_sg, El, Ee, Hpd by auto.
    cbn [andb]. change (a_delta A) with (Fin delta). rewrite h_vopp.
    assert (Hnz : forall u, normalize (fv u) = fv (rnormalize u)) by (intros u; apply h_normalize).
    destruct g as [|g0 [|g1 grest]] eqn:Egg; [simpl in Lg; lia| |].
    - (* one variable *)
      assert (E1 : n = 1%nat) by (simpl in Lg; lia). destruct MH as [LH FH].
      destruct H as [|[|h [|]] [|]]; try (simpl in LH; lia); try (inversion FH; simpl in *; lia). cbn [fv fm map nth].
      assert (Ph : 0 < h).
      { assert (0 < rform [[h]] [1] [1]); [|unfold rform, rmv, rdot in *; simpl in *; lra]. apply PH; [now rewrite E1|exists 0%nat; simpl; lra]. }
      assert (Eh : (- Fin g0 / Fin h)%num = Fin (- g0 / h)).
      { cbn [nopp ndiv ERNum er_opp er_div]. destruct (Reqb_spec h 0); [lra|reflexivity]. }
      rewrite Eh. exists [[- g0 / h]]. eexists _, _. split; [exact Ll|]. split; [exact Eg|]. split; [exact Nl|]. split; [reflexivity|].
      left. split; [exact E1|]. exists (- g0 / h). split; [|reflexivity].
      destruct Ng as ([|i] & Hi); cbn in Hi; [|destruct i; lra].
      unfold Rdiv. apply Rmult_integral_contrapositive_currified; [lra|]. apply Rinv_neq_0_compat. lra.
    - (* more variables *)
      cbn [fv map]. change (Fin g0 :: Fin g1 :: map Fin grest) with (fv (g0 :: g1 :: grest)). rewrite <- Egg in *.
      rewrite h_norm. replace (rnorm (rscale (-1) l)) with (rnorm l) by (rewrite rnorm_rscale, Rabs_left by lra; ring).
      cbn [nltb ERNum er_ltb]. destruct (Rltb_spec (rnorm l) delta) as [Hl|Hl].
      + exists [rnormalize (rscale (-1) l)]. eexists _, _. split; [exact Ll|]. split; [exact Eg|]. split; [exact Nl|]. rewrite Hnz. split; [reflexivity|].
        right. left. auto.
      + rewrite Hnz, h_dot, h_vscaler, h_vsub, Hnz. fold (rorth (rnormalize (rscale (-1) l)) g).
        rewrite h_norm, spacing_fin. cbn [nltb ERNum er_ltb].
        destruct (Rltb_spec (/ IZR (2 ^ 52)) (rnorm (rorth (rnormalize (rscale (-1) l)) g))) as [Hq|Hq].
        * exists [rnormalize (rscale (-1) l); rnormalize (rorth (rnormalize (rscale (-1) l)) g)]. eexists _, _. split; [exact Ll|]. split; [exact Eg|]. split; [exact Nl|]. split; [reflexivity|]. right. right. right. split; [reflexivity|exact Hq].
        * exists [rnormalize (rscale (-1) l)]. eexists _, _. split; [exact Ll|]. split; [exact Eg|]. split; [exact Nl|]. split; [reflexivity|]. right. right. left. split; [reflexivity|lra].
  Qed.

  Definition e52 : R := / IZR (2 ^ 52).

  (** the step proposed in the two-dimensional subspace: as good as every point of the ball on the line through the gradient or on a
      line that is at most 2^-52 away from the gradient; and it is in the ball, or at most 2^-26 outside and then better than every
      point on the line through the gradient *)
  Lemma free_2d strat : posdef n H -> nonzero g -> exact_2d O n H ->
    exists c w, trust_region O (fv x) (fv g) (fm H) (fv (rones n)) (Fin delta) (fv (rzeros n)) (Fin theta) (no_lb n) (no_ub n) "2D" strat = Ok c
      /\ candidates O A "2D" strat = Ok [c]
      /\ free_step n g H c w /\ rnorm w <= delta + / IZR (2 ^ 26)
      /\ ((forall a, rnorm (rscale a g) <= delta -> qmodel H g w <= qmodel H g (rscale a g))
          \/ exists u, length u = n /\ rnorm u = 1 /\ rnorm (rorth u g) <= e52
                /\ forall a, Rabs a <= delta -> qmodel H g w <= qmodel H g (rscale a u))
      /\ (rnorm w <= delta \/ forall a, qmodel H g w <= qmodel H g (rscale a g)) 
      /\ (forall a t l, length l = n -> rmv H l = g -> rnorm (radd (rscale a w) (rscale t l)) <= delta ->
            qmodel H g w <= qmodel H g (radd (rscale a w) (rscale t l))).
  Proof using All.
    intros PH Ng EX. destruct (free_2d_subspace PH Ng EX) as (l & sub & pd & nw & Ll & El & Nl & Er & Hsub).
    assert (He : 0 < / IZR (2 ^ 26)) by (apply Rinv_0_lt_compat, IZR_lt; reflexivity).
    assert (K : exists c w, calculate O (start "2d" sub pd nw) = Ok c /\ st_alpha c = n1 /\ free_step n g H c w /\ rnorm w <= delta + / IZR (2 ^ 26)
      /\ ((forall a, rnorm (rscale a g) <= delta -> qmodel H g w <= qmodel H g (rscale a g))
          \/ exists u, length u = n /\ rnorm u = 1 /\ rnorm (rorth u g) <= e52
                /\ forall a, Rabs a <= delta -> qmodel H g w <= qmodel H g (rscale a u))
      /\ (rnorm w <= delta \/ forall a, qmodel H g w <= qmodel H g (rscale a g)) 
      /\ (forall a t l, length l = n -> rmv H l = g -> rnorm (radd (rscale a w) (rscale t l)) <= delta ->
            qmodel H g w <= qmodel H g (radd (rscale a w) (rscale t l)))).
    { assert (Nr : nonzero (rscale (-1) l)) by (destruct Nl as (i & Hi); exists i; rewrite nth_rscale; lra).
      pose proof (rnormalize_unit _ Nr) as Un.
      assert (Lu : length (rnormalize (rscale (-1) l)) = n) by (rewrite rnormalize_length; rlen).
      assert (Uq : forall l', length l' = n -> rmv H l' = g -> l' = l).
      { intros l' Ll' El'. set (z := rsub l' l). assert (Lz : length z = n) by (unfold z; rlen).
        assert (Zz : rform H z z = 0).
        { unfold rform. unfold z at 2. rewrite rmv_rsub, El', El by rlen. replace (rsub g g) with (rzeros n); [apply rdot_zeros_r|].
          apply rvec_ext; [rewrite rzeros_length; rlen|]. intros i. rewrite nth_rsub, nth_rzeros by rlen. ring. }
        destruct (nonzero_dec z) as [Hz|Hz]; [specialize (PH z Lz Hz); lra|]. apply rvec_ext; [rlen|]. intros i. specialize (Hz i). unfold z in Hz. rewrite nth_rsub in Hz by rlen. lra. }
      assert (Nl' : rscale (rnorm (rscale (-1) l)) (rnormalize (rscale (-1) l)) = rscale (-1) l).
      { unfold rnormalize. pose proof (nonzero_norm _ Nr). destruct (Rltb_spec 0 (rnorm (rscale (-1) l))); [|lra].
        apply rvec_ext; [rlen|]. intros i. rewrite !nth_rscale. field. lra. }
      assert (Seg1 : forall t0 a t l' v, length v = n -> rnormalize (rscale (-1) l) = v -> length l' = n -> rmv H l' = g ->
                radd (rscale a (rscale t0 v)) (rscale t l') = rscale (a * t0 - t * rnorm (rscale (-1) l)) v).
      { intros t0 a t l' v Lv Ev Ll' El'. rewrite (Uq l' Ll' El'). apply rvec_ext; [rlen|]. intros i.
        pose proof (f_equal (fun q => nth i q 0) Nl') as K. cbn beta in K. rewrite Ev, !nth_rscale in K.
        rewrite nth_radd, !nth_rscale by rlen. replace (nth i l 0) with (- (-1 * nth i l 0)) by ring. rewrite <- K. ring. }
      set (u := rnormalize (rscale (-1) l)) in *.
      assert (Nu : nonzero u) by (apply nonzero_dot; lra).
      assert (Nu1 : rnorm u = 1) by (unfold rnorm; rewrite Un; apply sqrt_1).
      destruct Hsub as [(E1 & a & Ha & ->)|[(-> & Hl)|[(-> & Ho)|(-> & Ho)]]].
      - destruct (start_one O n x g H delta theta Hn Lx Lg MH SH Hd Ht "2d" [a] pd nw) as (c & t & C1 & C2 & C3 & C4 & C5); [now rewrite E1|exists 0%nat; simpl; lra|].
        exists c, (rscale t [a]). split; [exact C1|]. split; [exact C2|]. split; [exact C3|]. split; [lra|]. split; [|split; [left; exact C4|]].
        2:{ intros a' t' l' Ll' _ Hb. rewrite E1 in Ll'. destruct l' as [|l0 [|]]; try discriminate.
            replace (radd (rscale a' (rscale t [a])) (rscale t' [l0])) with (rscale ((a' * t * a + t' * l0) / a) [a]) in Hb |- *; [now apply C5|].
            unfold radd, rscale. cbn. f_equal. field. exact Ha. }
        left. intros b Hb. rewrite E1 in Lg. destruct g as [|g0 [|]]; try discriminate. specialize (C5 (b * g0 / a)).
        replace (rscale (b * g0 / a) [a]) with (rscale b [g0]) in C5; [auto|]. unfold rscale. cbn [map]. f_equal. field. exact Ha.
      - destruct (start_one O n x g H delta theta Hn Lx Lg MH SH Hd Ht "2d" u pd nw) as (c & t & C1 & C2 & C3 & C4 & C5); auto.
        exists c, (rscale t u). split; [exact C1|]. split; [exact C2|]. split; [exact C3|]. split; [lra|]. split; [|split; [left; exact C4|]].
        2:{ intros a' t' l' Ll' El' Hb. rewrite (Seg1 t a' t' l' u) in Hb |- * by auto. now apply C5. }
        left. intros b Hb. specialize (C5 (rnorm (rscale (-1) l))).
        assert (Eu : rscale (rnorm (rscale (-1) l)) u = rscale (-1) l).
        { unfold u, rnormalize. pose proof (nonzero_norm _ Nr). destruct (Rltb_spec 0 (rnorm (rscale (-1) l))); [|lra].
          apply rvec_ext; [rlen|]. intros i. rewrite !nth_rscale. field. lra. }
        rewrite Eu in C5. eapply Rle_trans; [apply C5|].
        + rewrite rnorm_rscale, Rabs_left by lra. lra.
        + apply (newton_min n); auto. rlen.
      - destruct (start_one O n x g H delta theta Hn Lx Lg MH SH Hd Ht "2d" u pd nw) as (c & t & C1 & C2 & C3 & C4 & C5); auto.
        exists c, (rscale t u). split; [exact C1|]. split; [exact C2|]. split; [exact C3|]. split; [lra|]. split; [|split; [left; exact C4|]].
        2:{ intros a' t' l' Ll' El' Hb. rewrite (Seg1 t a' t' l' u) in Hb |- * by auto. now apply C5. }
        right. exists u. split; [exact Lu|]. split; [exact Nu1|]. split; [exact Ho|]. intros b Hb. apply C5. rewrite rnorm_rscale, Nu1. lra.
      - assert (Lo : length (rorth u g) = n) by (unfold rorth; rlen).
        assert (No : nonzero (rorth u g)).
        { apply norm_nonzero. assert (0 < / IZR (2 ^ 52)) by (apply Rinv_0_lt_compat, IZR_lt; reflexivity). lra. }
        pose proof (rnormalize_unit _ No) as U2.
        assert (Lv : length (rnormalize (rorth u g)) = n) by now rewrite rnormalize_length.
        assert (O12 : rdot u (rnormalize (rorth u g)) = 0) by (apply rnormalize_dot, (rorth_orth n); auto).
        set (v := rnormalize (rorth u g)) in *.
        assert (Oo : orthonormal [u; v]).
        { intros [|[|i]] [|[|j]] Hi Hj; cbn [length nth Nat.eqb] in *; try lia; auto. now rewrite rdot_comm. }
        destruct EX as (_ & _ & EX). specialize (EX u v Lu Lv Oo).
        destruct (start_many O n x g H delta theta Hn Lx Lg MH SH Hd Ht "2d" [u; v] pd nw) as (c & r & C1 & C2 & C3 & C4 & C5 & C6 & C7); auto.
        assert (Eg : forall a, rscale a g = rlincomb n [a * rdot u g; a * rnorm (rorth u g)] [u; v]).
        { intros a. cbn [rlincomb]. change (repeat 0 n) with (rzeros n). assert (Lz : length (rzeros n) = n) by apply rzeros_length.
          apply rvec_ext; [rlen|]. intros i. rewrite !nth_radd, nth_rzeros, !nth_rscale by rlen.
          assert (Ev : rnorm (rorth u g) * nth i v 0 = nth i g 0 - rdot u g * nth i u 0).
          { unfold v, rnormalize. pose proof (nonzero_norm _ No). destruct (Rltb_spec 0 (rnorm (rorth u g))); [|lra].
            rewrite nth_rscale. unfold rorth at 3. rewrite nth_rsub, nth_rscale by rlen. field. lra. }
          replace (a * rnorm (rorth u g) * nth i v 0) with (a * (rnorm (rorth u g) * nth i v 0)) by ring. rewrite Ev. ring. }
        exists c, (rlincomb n r [u; v]). split; [exact C1|]. split; [exact C2|]. split; [exact C4|]. split; [exact C5|]. split.
        + left. intros a Ha. rewrite Eg in Ha |- *. now apply C6.
        + split; [destruct C7 as [C7|C7]; [left; exact C7|right]; intros a; rewrite Eg; now apply C7|].
          intros a' t' l' Ll' El' Hb. destruct r as [|r1 [|r2 [|]]]; cbn in C3; try discriminate. set (nl := rnorm (rscale (-1) l)) in *.
          assert (Ec : radd (rscale a' (rlincomb n [r1; r2] [u; v])) (rscale t' l') = rlincomb n [a' * r1 - t' * nl; a' * r2] [u; v]).
          { rewrite (Uq l' Ll' El'). cbn [rlincomb]. change (repeat 0 n) with (rzeros n). assert (Lz : length (rzeros n) = n) by apply rzeros_length.
            apply rvec_ext; [rlen|]. intros i. rewrite nth_radd, !nth_rscale, !nth_radd, nth_rzeros, !nth_rscale by rlen.
            pose proof (f_equal (fun q => nth i q 0) Nl') as K. cbn beta in K. rewrite !nth_rscale in K. replace (nth i l 0) with (- (-1 * nth i l 0)) by ring. rewrite <- K. ring. }
          rewrite Ec in Hb |- *. now apply C6. }
    destruct K as (c & w & K1 & K2 & K3 & K4 & K5 & K6 & K7).
    assert (Km : main_step O A "2D" = Ok c).
    { unfold main_step. cbn [String.eqb Ascii.eqb Bool.eqb]. rewrite Er. exact K1. }
    destruct (free_single O n x g H delta theta "2D" strat c Km K2) as [F1 F2]. exists c, w. auto 10.
  Qed.
End Free2D.
