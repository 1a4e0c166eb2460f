(** C38: the basis of the two-dimensional subspace (exact arithmetic) *)
From Coq Require Import String ZArith List Bool Reals Lra Lia Psatz.
From Verif Require Import Num Subproblem Steps TrustRegion ER NumFacts RVec Ortho SubNd RShess Argmin Cand StepFacts Prop_Sub1d Prop_Pred Prop_Box Prop_Cand TRErr RealStep Prop_Grad GradEx Region Prop_Trunc.
Import ListNotations.
Local Open Scope R_scope.
Local Open Scope list_scope.

Section TwoD.
  Variables (O : StepOracles ER) (n : nat) (x g : rvec) (H : rmat) (D dv : rvec) (delta theta : R) (lb ub : list ER).
  Hypothesis P : problem n x g H D dv delta theta lb ub.
  Local Notation A := (rA x g H D dv delta theta lb ub).
  Local Notation B := (rB n g H D dv).
  Local Notation sg := (rsg g D).

  (** the part of q orthogonal to u *)
  Definition rorth (u q : rvec) : rvec := rsub q (rscale (rdot u q) u).

  (** the subspace chosen, given the outputs of the linear-algebra routines *)
  Lemma twod_cases l re ab V : (1 < n)%nat ->
    so_lstsq O (fm B) (fv sg) = Some (fv l) -> length l = n ->
    so_eig O (fm B) = Some (re, ab, fm V) -> length V = n -> length re = n -> Forall (fun c => length c = n) V ->
    exists w sub pd nw, tr_step_2d O A = Ok (new_step "2d" A (a_x A) (fm sub) (zeros_of A) (zeros_of A) [] [] pd nw)
      /\ length w = n /\ (w = rscale (-1) l \/ In w V)
      /\ (sub = [rnormalize w]
          \/ exists q, length q = n /\ / IZR (2 ^ 52) < rnorm (rorth (rnormalize w) q)
               /\ sub = [rnormalize w; rnormalize (rorth (rnormalize w) q)]).
  Proof.
    intros Hn Els Ll Eeg LV Lre FV. pose proof P as P'. destruct P'.
    pose proof (rsg_length n x g H D dv delta theta lb ub P) as Lsg.
    unfold tr_step_2d. cbv zeta. rewrite (rA_shess n x g H D dv delta theta lb ub P), rA_sg, Els, Eeg.
    assert (Esg : exists a b rest, sg = a :: b :: rest).
    { destruct sg as [|a [|b rest]]; [simpl in Lsg; lia|simpl in Lsg; lia|eauto]. }
    destruct Esg as (sa & sb & rest & Esg). set (sv := sg) in *.
    set (posdef := (npmin re >? _)%num). clearbody posdef.
    assert (R : forall M : res (step ER), (let s_newt := vopp (fv l) in
         if posdef && (norm s_newt <? a_delta A)%num then Ok (new_step "2d" A (a_x A) [normalize s_newt] (zeros_of A) (zeros_of A) [] [] (Some posdef) (Some true))
         else let s_newt := if posdef then s_newt else nth (argmin re) (fm V) [] in
              let s_grad := if posdef then fv sv else vmul (a_scaling A) (map (fun g => npsign g + nofbool (g =? n0))%num (fv sv)) in
              let s_newt := normalize s_newt in
              let s_grad := vsub s_grad (vscaler s_newt (dot s_newt s_grad)) in
              if (norm s_grad >? spacing1)%num
              then Ok (new_step "2d" A (a_x A) [s_newt; normalize s_grad] (zeros_of A) (zeros_of A) [] [] (Some posdef) (Some false))
              else Ok (new_step "2d" A (a_x A) [s_newt] (zeros_of A) (zeros_of A) [] [] (Some posdef) (Some false))) = M -> 
       exists w sub pd nw, M = Ok (new_step "2d" A (a_x A) (fm sub) (zeros_of A) (zeros_of A) [] [] pd nw)
      /\ length w = n /\ (w = rscale (-1) l \/ In w V)
      /\ (sub = [rnormalize w]
          \/ exists q, length q = n /\ / IZR (2 ^ 52) < rnorm (rorth (rnormalize w) q)
               /\ sub = [rnormalize w; rnormalize (rorth (rnormalize w) q)])).
    2:{ specialize (R _ eq_refl). rewrite Esg in R |- *. exact R. }
    intros M <-. cbv zeta. rewrite h_vopp.
    assert (Hnz : forall u, normalize (fv u) = fv (rnormalize u)) by (intros u; apply h_normalize).
    destruct (posdef && _) eqn:Epd.
    - exists (rscale (-1) l), [rnormalize (rscale (-1) l)], (Some posdef), (Some true). rewrite Hnz. split; [reflexivity|]. split; [rlen|]. auto.
    - assert (Hnw : exists u, (if posdef then fv (rscale (-1) l) else nth (argmin re) (fm V) []) = fv u /\ length u = n /\ (u = rscale (-1) l \/ In u V)).
      { destruct posdef; [eexists; split; [reflexivity|split; [rlen|auto]]|].
        assert (Ha : (argmin re < length re)%nat) by (apply argmin_lt; intros ->; simpl in Lre; lia).
        exists (nth (argmin re) V []). split.
        - unfold fm. rewrite (nth_indep _ [] (fv [])) by (rewrite map_length; lia). apply map_nth.
        - assert (Hin : In (nth (argmin re) V []) V) by (apply nth_In; lia). rewrite Forall_forall in FV. auto. }
      destruct Hnw as (u & Eu & Lu & Hu). rewrite Eu. clear Eu.
      assert (Hgr : exists q, (if posdef then fv sv else vmul (a_scaling A) (map (fun g => npsign g + nofbool (g =? n0))%num (fv sv))) = fv q /\ length q = n).
      { destruct posdef; [eexists; split; [reflexivity|exact Lsg]|].
        change (a_scaling A) with (fv D).
        assert (F : exists t, map (fun g : ER => npsign g + nofbool (g =? n0))%num (fv sv) = fv t).
        { apply fin_vec. apply Forall_forall. intros b0 Hb0. apply in_map_iff in Hb0 as (a0 & <- & Ha0). apply in_map_iff in Ha0 as (t & <- & _).
          unfold npsign. cbn [nisnan ERNum er_isnan]. destruct (Fin t <? n0)%num, (n0 <? Fin t)%num, (Fin t =? n0)%num; eexists; reflexivity. }
        destruct F as (t & Et). exists (rmul D t). rewrite Et, h_vmul. split; [reflexivity|]. apply rmul_length; auto.
        apply (f_equal (@length ER)) in Et. rewrite map_length, !fv_length in Et. congruence. }
      destruct Hgr as (q & Eq & Lq). rewrite Eq. clear Eq. rewrite Hnz, h_dot, h_vscaler, h_vsub, Hnz.
      fold (rorth (rnormalize u) q). rewrite h_norm, spacing_fin. cbn [nltb ERNum er_ltb].
      destruct (Rltb_spec (/ IZR (2 ^ 52)) (rnorm (rorth (rnormalize u) q))) as [Hq|Hq].
      + exists u, [rnormalize u; rnormalize (rorth (rnormalize u) q)], (Some posdef), (Some false).
        split; [reflexivity|]. split; [exact Lu|]. split; [exact Hu|]. right. exists q. auto.
      + exists u, [rnormalize u], (Some posdef), (Some false). auto.
  Qed.

  Lemma rnormalize_unit u : nonzero u -> rdot (rnormalize u) (rnormalize u) = 1.
  Proof.
    intros Hu. pose proof (nonzero_norm u Hu) as Np. unfold rnormalize. destruct (Rltb_spec 0 (rnorm u)); [|lra].
    rewrite <- rnorm_sq, (rnorm_unit u Hu). ring.
  Qed.
  Lemma rorth_orth u q : rdot u u = 1 -> length u = n -> length q = n -> rdot u (rorth u q) = 0.
  Proof. intros Hu L1 L2. unfold rorth. rewrite rdot_rsub_r by rlen. rewrite rdot_rscale_r, Hu. ring. Qed.
  Lemma rnormalize_dot u v : rdot u v = 0 -> rdot u (rnormalize v) = 0.
  Proof. intros E. unfold rnormalize. destruct (Rltb 0 (rnorm v)); [rewrite rdot_rscale_r, E; ring|exact E]. Qed.
  Lemma norm_nonzero u : 0 < rnorm u -> nonzero u.
  Proof. intros Hp. apply nonzero_dot. rewrite <- rnorm_sq. nra. Qed.

  (** Whatever the linear-algebra routines return, if the vectors they return are not zero the columns of the subspace
      are orthonormal, so a step has the same length as its coordinates. *)
  Theorem C38_orthonormal_basis : forall l re ab V, (1 < n)%nat ->
    so_lstsq O (fm B) (fv sg) = Some (fv l) -> length l = n -> nonzero l ->
    so_eig O (fm B) = Some (re, ab, fm V) -> length V = n -> length re = n -> Forall (fun c => length c = n /\ nonzero c) V ->
    exists r sub, tr_step_2d O A = Ok r /\ st_subspace r = fm sub
      /\ (length sub = 1 \/ length sub = 2)%nat /\ Forall (fun c => length c = n) sub /\ orthonormal sub
      /\ (forall sc, length sc = length sub -> rnorm (rlincomb n sc sub) = rnorm sc).
  Proof.
    intros l re ab V Hn Els Ll Nl Eeg LV Lre FV.
    assert (FV1 : Forall (fun c => length c = n) V) by (eapply Forall_impl; [|exact FV]; intros c Hc; apply Hc).
    destruct (twod_cases l re ab V Hn Els Ll Eeg LV Lre FV1) as (w & sub & pd & nw & Er & Lw & Hw & Hsub).
    assert (Nw : nonzero w).
    { destruct Hw as [->|Hw].
      - destruct Nl as (i & Hi). exists i. rewrite nth_rscale. lra.
      - rewrite Forall_forall in FV. now apply FV. }
    pose proof (rnormalize_unit w Nw) as U1.
    assert (L1 : length (rnormalize w) = n) by now rewrite rnormalize_length.
    assert (G : Forall (fun c => length c = n) sub /\ orthonormal sub /\ (length sub = 1 \/ length sub = 2)%nat).
    { destruct Hsub as [->|(q & Lq & Hq & ->)].
      - split; [repeat constructor; auto|]. split; [|auto].
        intros [|i] [|j] Hi Hj; cbn [length nth] in *; try lia. exact U1.
      - assert (Lo : length (rorth (rnormalize w) q) = n) by (unfold rorth; rlen).
        assert (No : nonzero (rorth (rnormalize w) q)).
        { apply norm_nonzero. assert (0 < / IZR (2 ^ 52)) by (apply Rinv_0_lt_compat, IZR_lt; reflexivity). lra. }
        pose proof (rnormalize_unit _ No) as U2.
        assert (O12 : rdot (rnormalize w) (rnormalize (rorth (rnormalize w) q)) = 0) by (apply rnormalize_dot, rorth_orth; auto).
        split; [repeat constructor; auto; now rewrite rnormalize_length|]. split; [|auto].
        intros [|[|i]] [|[|j]] Hi Hj; cbn [length nth Nat.eqb] in *; try lia; auto. now rewrite rdot_comm. }
    destruct G as (G1 & G2 & G3). eexists. exists sub. split; [exact Er|]. split; [reflexivity|]. split; [exact G3|]. split; [exact G1|].
    split; [exact G2|]. intros sc Lsc. unfold rnorm. f_equal. apply (dot_lincomb (length sub)); auto. split; auto.
  Qed.
End TwoD.

(** the hypotheses are met: identity Hessian, gradient [1;0], the solution [1;0] of the normal equations, the identity's eigenvectors *)
Example C38_ex : exists r sub, tr_step_2d gx_la gx_A = Ok r /\ st_subspace r = fm sub /\ (length sub = 1 \/ length sub = 2)%nat
  /\ Forall (fun c => length c = 2%nat) sub /\ orthonormal sub /\ (forall sc, length sc = length sub -> rnorm (rlincomb 2 sc sub) = rnorm sc).
Proof.
  apply (C38_orthonormal_basis gx_la 2 _ _ _ _ _ _ _ _ _ gx_problem [1; 0] [Fin 1; Fin 1] [Fin 1; Fin 1] [[1; 0]; [0; 1]]); try reflexivity; auto.
  - exists 0%nat. simpl. lra.
  - repeat constructor; [exists 0%nat|exists 1%nat]; simpl; lra.
Qed.
