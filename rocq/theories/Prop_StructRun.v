(** C49 and C50 for whole runs: what the structured schemes and FX do at an accepted step of minimize, in terms of the
    residuals and Jacobians the objective returned *)
From Coq Require Import String ZArith List Bool Reals Lra Lia.
From Verif Require Import Num Constants Subproblem HessApprox Steps TrustRegion Minimize
  ER NumFacts MonadFacts MinFacts Spec Run RunInv RunFrame HessRun RVec Quasi Prop_Quasi Prop_Quasi2 Prop_Sym Prop_LSQ
  Prop_Run Prop_Run2 Prop_Update Prop_QuasiRun F64 Witness Prop_RunEx.
Import ListNotations.
Local Open Scope R_scope.
Local Open Scope list_scope.

(** ** Vocabulary *)

(** what a residual function returns *)
Definition answers (n : nat) (res : rvec) (J : rmat) : retval ER := RTuple [PVec (fv res); PMat n (fm J)].
(** [H] is J^T J *)
Definition gauss_newton (n : nat) (J H : rmat) : Prop :=
  is_mat n n H /\ forall i j, (i < n)%nat -> (j < n)%nat -> entry H i j = rsum (length J) (fun k => entry J k i * entry J k j).
(** [yb] is (J' - J)^T res' *)
Definition structured_difference (n : nat) (res' : rvec) (J' J : rmat) (yb : rvec) : Prop :=
  length yb = n /\ forall i, (i < n)%nat -> nth i yb 0 = rsum (length res') (fun k => (entry J' k i - entry J k i) * nth k res' 0).
(** [sh] is the scheme [k], possibly after having been used *)
Definition same_scheme (sh k : shapp ER) : Prop :=
  sh_kind sh = sh_kind k /\ sh_phi sh = sh_phi k /\ sh_enforce sh = sh_enforce k.

(** ** Proofs *)

Lemma fin_of_cells n (m : list (list ER)) : square n m ->
  (forall i j, (i < n)%nat -> (j < n)%nat -> er_isfin (cell m i j) = true) -> mfinite m = true.
Proof.
  intros Sq H. pose proof Sq as [H1 H2]. unfold mfinite. apply forallb_forall. intros row Hr.
  apply (In_nth _ _ []) in Hr as (i & Hi & Er). rewrite Forall_forall in H2.
  apply (forallb_row row nnan n); [rewrite <- Er; apply H2, nth_In; lia|].
  intros j Hj. rewrite <- Er. apply (H i j); lia.
Qed.
Lemma fin_add_r a b : er_isfin (er_add a b) = true -> er_isfin b = true.
Proof. destruct a, b; simpl; auto. Qed.
Lemma fin_madd_r n (a b : list (list ER)) : square n a -> square n b -> mfinite (madd a b) = true -> mfinite b = true.
Proof.
  intros Sa Sb H. apply (fin_of_cells n); auto. intros i j Hi Hj.
  assert (Hc : er_isfin (cell (madd a b) i j) = true) by (apply (mfinite_cell n); auto; now apply square_map2).
  unfold madd, vadd in Hc. rewrite (cell_map2 n) in Hc by auto. now apply fin_add_r in Hc.
Qed.
Lemma fin_mscale n c (a : list (list ER)) : square n a -> mfinite (mscale c a) = true -> mfinite a = true.
Proof.
  intros Sa H. apply (fin_of_cells n); auto. intros i j Hi Hj.
  assert (Sq : square n (mscale c a)) by (unfold mscale, vscale; now apply square_map).
  assert (Hc : er_isfin (cell (mscale c a) i j) = true) by (now apply (mfinite_cell n)).
  unfold mscale, vscale in Hc. rewrite (cell_map n) in Hc by auto. now apply fin_mul in Hc.
Qed.
Lemma nth_rlincomb n : forall (J : rmat), Forall (fun row => length row = n) J -> forall r i, (i < n)%nat ->
  length r = length J -> nth i (rlincomb n r J) 0 = rsum (length r) (fun k => entry J k i * nth k r 0).
Proof.
  induction 1 as [|row J Hr HJ IH]; intros [|a r] i Hi Hl; try discriminate.
  - simpl. now rewrite nth_rzeros.
  - simpl length. rewrite rsum_S. simpl rlincomb. rewrite nth_radd.
    + rewrite nth_rscale, IH by (auto; simpl in Hl; lia). cbn [nth entry]. unfold entry. simpl. ring.
    + rewrite rscale_length, rlincomb_length; auto.
Qed.

Section StructRun.
  Variables (E : env ER) (C : cfg ER) (ndim : nat) (x0 : list ER) (sid : option string) (h0 : hess0_arg ER) (st : opt ER).
  Local Notation n := (length x0).
  Local Notation head := (loop_head E C ndim x0 sid h0 st).
  Hypothesis Hres : c_resfun C = true.

  Lemma struct_kept sh0 f s : o_happ st = Some (HStruct sh0) -> head f s ->
    exists sh, o_happ s = Some (HStruct sh) /\ same_scheme sh sh0 /\ square n (sh_A sh)
      /\ o_hess s = hb_hess (sh_base sh)
      /\ (mfinite (o_hess s) = true -> mfinite (sh_A sh) = true).
  Proof using Hres.
    intros Hh HL.
    set (good := fun (hess : list (list ER)) (h : option (happ ER)) => exists sh, h = Some (HStruct sh)
      /\ same_scheme sh sh0 /\ square n (sh_A sh) /\ hess = hb_hess (sh_base sh) /\ (mfinite hess = true -> mfinite (sh_A sh) = true)).
    cut (good (o_hess s) (o_happ s)); [auto|].
    revert HL. apply (run_hess_ind E C ndim x0 sid h0 st good).
    - intros hess h pf fo k Hpf Hty Hph. unfold pr_hess in Hph. rewrite Hh in Hph.
      destruct (pr_hess0 h0 pf) as [arg|] eqn:Ea; [|discriminate]. cbn [h_init] in Hph. unfold sh_init in Hph.
      destruct (hb_init n arg) as [b|] eqn:Eb; [|discriminate]. injection Hph as <- <-.
      eexists. split; [reflexivity|]. split; [repeat split|].
      assert (EA : map (map (fun x : ER => (x * spacing1)%num)) (eye n) = fm (rmscale (/ IZR (2 ^ 52)) (reye n))).
      { rewrite spacing_fin, h_eye. unfold fm, rmscale. rewrite !map_map. apply map_ext. intros row.
        unfold fv, rscale. rewrite !map_map. apply map_ext. intros t. cbn [nmul ERNum er_mul]. f_equal. lra. }
      match goal with |- square n (sh_A ?q) /\ _ => assert (EB : sh_A q = fm (rmscale (/ IZR (2 ^ 52)) (reye n))) by exact EA end.
      rewrite EB. split; [apply square_fm, is_mat_mscale, is_mat_eye|]. split; [reflexivity|]. intros _.
      unfold mfinite, fm. apply forallb_forall. intros row Hr. apply in_map_iff in Hr as (q & <- & _).
      unfold vfinite, fv. apply forallb_forall. intros t Ht. apply in_map_iff in Ht as (u & <- & _). reflexivity.
    - intros hess h sv grad since ninter iter fnew fold k r r' hess' h' (sh & -> & Ks & Sq & -> & Hfa) Hs Hg Hmf Hgf _ Haf [x Hr] Hev Hev' Hst.
      destruct (residual_evaluation E C n fnew r k x Hres Hr Hev Haf) as (rv & J & H & Eo & Er & Es & MJ & Eh & MH & SH & PH & Lg).
      unfold hess_step, happ_update in Hst. rewrite Eh in Hst. injection Hst as <- <-.
      specialize (Hfa Hmf).
      set (y := vsub (fo_grad fnew) grad). set (yb0 := mTvec _ _ _).
      set (yb := match sh_kind sh with SSSM => yb0 | _ => _ end).
      assert (Ly : length y = n) by (unfold y, vsub; rewrite map2_len; congruence).
      assert (Lyb0 : length yb0 = n).
      { unfold yb0, mTvec, vecmat. rewrite Hs. apply lincomb_len.
        apply evaluated_rows in Hev as [_ R1], Hev' as [_ R2]. clear - R1 R2. revert R2. generalize (fo_sres fold).
        induction R1 as [|a l1 Ha _ IH]; intros l2 R2; [constructor|]. destruct R2 as [|b l2 Hb R2]; [constructor|].
        simpl. constructor; [|now apply IH]. unfold vsub. rewrite map2_len; congruence. }
      assert (Lyb : length yb = n) by (unfold yb, vscaler; destruct (sh_kind sh); rewrite ?map_length; exact Lyb0).
      clearbody yb. clear yb0 Lyb0.
      exists (sh_update sh sv y (fo_res fnew) (fm H) yb). split; [reflexivity|].
      destruct Ks as (K1 & K2 & K3).
      assert (Sm : same_scheme (sh_update sh sv y (fo_res fnew) (fm H) yb) sh0).
      { unfold sh_update, same_scheme. cbv zeta. rewrite <- K1, <- K2, <- K3. destruct (sh_kind sh) eqn:Ek; try destruct (_ <? _)%num; cbn [sh_kind sh_phi sh_enforce]; auto. }
      split; [exact Sm|]. clear Sm. cbn [h_mat].
      pose proof (square_fm n H MH) as SqH.
      assert (Lm : length (matvec (fm H) sv) = n) by (unfold matvec; rewrite map_length; apply SqH).
      assert (Lys : forall a b : list ER, length a = n -> length b = n -> length (vadd a b) = n) by (intros a b Ha Hb; unfold vadd; rewrite map2_len; congruence).
      unfold sh_update. cbv zeta. destruct (sh_kind sh).
      + cbn [sh_A sh_base hb_store hb_hess].
        assert (S1 : square n (madd (fm H) (sh_A sh))) by (now apply square_map2).
        assert (S2 : square n (broyden_class_update (vadd yb (matvec (fm H) sv)) sv (madd (fm H) (sh_A sh)) (sh_phi sh) (sh_enforce sh))).
        { apply broyden_square; auto. }
        assert (S3 := square_map2 n nadd _ _ Sq S2). split; [exact S3|]. split; [reflexivity|]. now apply (fin_madd_r n).
      + cbn [sh_A sh_base hb_store hb_hess].
        assert (S0 : square n (mscale (norm (fo_res fnew)) (sh_A sh))) by (unfold mscale, vscale; now apply square_map).
        assert (S1 : square n (madd (fm H) (mscale (norm (fo_res fnew)) (sh_A sh)))) by (now apply square_map2).
        assert (S2 : square n (mdivs (broyden_class_update (vadd (matvec (fm H) sv) yb) sv (madd (fm H) (mscale (norm (fo_res fnew)) (sh_A sh))) (sh_phi sh) (sh_enforce sh)) (norm (fo_res fnew)))).
        { unfold mdivs, vdivs. apply square_map. apply broyden_square; auto. }
        assert (S3 := square_map2 n nadd _ _ Sq S2).
        assert (S4 : forall m, square n m -> square n (mscale (norm (fo_res fnew)) m)) by (intros m Hm; unfold mscale, vscale; now apply square_map).
        split; [exact S3|]. split; [reflexivity|].
        intros Hf. apply (fin_madd_r n) in Hf; auto. now apply (fin_mscale n) in Hf.
      + destruct (_ <? _)%num; cbn [sh_A sh_base hb_store hb_hess].
        * assert (S2 : square n (broyden_class_update yb sv (sh_A sh) (sh_phi sh) (sh_enforce sh))) by (apply broyden_square; auto).
          assert (S3 := square_map2 n nadd _ _ Sq S2). split; [exact S3|]. split; [reflexivity|]. now apply (fin_madd_r n).
        * auto.
  Qed.

  (** what the structured scheme is told, over the reals *)
  Lemma struct_pass sh0 f s s1 f' s' : o_happ st = Some (HStruct sh0) ->
    head f s -> check_continue E C s = (Ok true, s1) -> iteration E C f s1 = (Ok f', s') ->
    exists sp p_old r_old r v g,
      proposes E C s sp
      /\ o_evals s' = o_evals s ++ [(trial_point s sp, r)]
      /\ In (p_old, r_old) (skipn (length (o_evals st)) (o_evals s))
      /\ (deref s (o_x s) = p_old \/ deref s (o_x s) = nudge C p_old)
      /\ value_of C r = Some v /\ gradient_of C r = Some g
      /\ (accepts C s sp v g = true ->
          forall w res J res' J', vadd (st_s sp) (st_s0 sp) = fv w -> r_old = answers n res J -> r = answers n res' J' ->
          length res = length res' -> length w = n ->
          exists sh sh' A H yb y, o_happ s = Some (HStruct sh) /\ same_scheme sh sh0 /\ sh_A sh = fm A /\ is_mat n n A
            /\ gauss_newton n J' H /\ structured_difference n res' J' J yb /\ length y = n
            /\ sh' = sh_update sh (fv w) (fv y) (fv res') (fm H)
                 (match sh_kind sh0 with SSSM => fv yb | _ => map (fun t => t * (norm (fv res') / norm (fv res)))%num (fv yb) end)
            /\ o_happ s' = Some (HStruct sh') /\ o_hess s' = hb_hess (sh_base sh')).
  Proof using Hres.
    intros Hh Hl Hc Hi.
    destruct (C15_update_data E C _ _ _ _ _ _ _ _ _ _ Hl Hc Hi) as (sp & po & ro & r & v & g & U1 & U2 & U3 & U4 & U5 & U6 & U7 & U8).
    exists sp, po, ro, r, v, g. do 6 (split; [assumption|]).
    intros Ha w res J res' J' Ew Eo En El Lw. specialize (U8 Ha).
    destruct (struct_kept sh0 f s Hh Hl) as (sh & K1 & K2 & K3 & K4 & K5). rewrite K1 in U8.
    destruct U8 as (h' & res_o & jac_o & res_n & jac_n & V1 & V2 & V3 & V4 & V5).
    unfold residuals_of in V1, V2. unfold value_of in U5. unfold gradient_of in U6, U7.
    unfold hessian_of in V3. rewrite Hres in *.
    destruct (fun_evaluate (c_nargout C) true ro) as [pfo|] eqn:Fo; [|discriminate].
    destruct (fun_evaluate (c_nargout C) true r) as [pfn|] eqn:Fn; [|discriminate].
    injection V1 as <- <-. injection V2 as <- <-.
    assert (Hshape : forall (q : rvec) (Q : rmat) pf, fun_evaluate (c_nargout C) true (answers n q Q) = Ok pf ->
              is_mat (length q) n Q /\ fun_evaluate 2 true (answers n q Q) = Ok pf).
    { intros q Q pf Hf. unfold fun_evaluate, answers in Hf |- *. cbn [length] in *.
      destruct (Nat.eqb 2 (c_nargout C)) eqn:Ec; cbn [negb] in Hf; [|discriminate]. cbn [Nat.eqb negb].
      destruct (_ && _) eqn:Eb; [|discriminate]. split; [|exact Hf].
      apply andb_true_iff in Eb as [E1 E2]. apply Nat.eqb_eq in E1. rewrite fv_length, fm_length in E1.
      split; [now symmetry|]. rewrite forallb_forall in E2. apply Forall_forall. intros row Hrow.
      specialize (E2 (fv row)). rewrite fv_length in E2. apply Nat.eqb_eq, E2. unfold fm. now apply in_map. }
    subst ro r. destruct (Hshape _ _ _ Fo) as [MJ Fo2]. destruct (Hshape _ _ _ Fn) as [MJ' Fn2].
    destruct (C05_least_squares res J n MJ) as (Go & Ho & Q1 & _). unfold answers in Fo2. rewrite Q1 in Fo2. apply ok_inj in Fo2. subst pfo.
    destruct (C05_least_squares res' J' n MJ') as (Gn & H & P1 & _ & P2 & P3 & P4 & P5 & _). unfold answers in Fn2. rewrite P1 in Fn2. apply ok_inj in Fn2. subst pfn.
    cbn [pf_res pf_sres pf_hess pf_grad pf_fval] in *. injection U6 as <-. injection U7 as U7.
    unfold told in V3. destruct V3 as (H' & EH & Eh'). injection EH as <-.
    assert (Hfin : mfinite (o_hess s) = true).
    { pose proof Hc as Hc'. apply check_continue_true in Hc' as (-> & _). apply iteration_ok in Hi as (sp' & fn & K).
      pose proof (ev_cur _ _ _ _ _ (ik_ev _ _ _ _ _ _ _ _ K)) as Hcur. unfold all_finite in Hcur.
      now apply andb_true_iff in Hcur as [_ Hcur]. }
    specialize (K5 Hfin). destruct (mat_of n _ K3 K5) as (A & EA & MA).
    rewrite Ew, fv_length, Lw in Eh'. rewrite h_msub, h_vecmat in Eh'.
    assert (Ml : length J = length J') by (destruct MJ, MJ'; congruence).
    assert (Md : is_mat (length res') n (rmsub J' J)) by (apply is_mat_msub; auto; now rewrite <- El).
    rewrite <- U7, h_vsub in Eh'.
    exists sh, (sh_update sh (fv w) (fv (rsub Gn Go)) (fv res') (fm H)
       (match sh_kind sh0 with SSSM => fv (rlincomb n res' (rmsub J' J)) | _ => map (fun t => t * (norm (fv res') / norm (fv res)))%num (fv (rlincomb n res' (rmsub J' J))) end)),
      A, H, (rlincomb n res' (rmsub J' J)), (rsub Gn Go).
    split; [exact K1|]. split; [exact K2|]. split; [exact EA|]. split; [exact MA|].
    split; [split; [exact P4|]; intros i j Hi' Hj'; rewrite P5 by auto; now destruct MJ' as [-> _]|].
    split.
    { split; [apply rlincomb_length; apply Md|]. intros i Hi'. rewrite nth_rlincomb; auto; [|apply Md|destruct Md as [-> _]; reflexivity].
      apply rsum_ext. intros k Hk. rewrite (entry_msub (length res') n); auto. now rewrite <- El. }
    split.
    { destruct (C05_least_squares res J n MJ) as (Go2 & Ho2 & R1 & _ & R2 & _). rewrite Q1 in R1. apply ok_inj in R1. injection R1 as R3 _.
      apply fv_inj in R3. rewrite rsub_length; congruence. }
    split; [reflexivity|]. destruct K2 as (K2a & _). rewrite <- K2a.
    split; [rewrite V4, Eh'; reflexivity|rewrite V5, Eh'; reflexivity].
  Qed.

  (** the pass from [s] to [s'] proposed the step [sp], evaluated the objective at the trial point, which answered [r]
      (value [v], gradient [g]), and [r_old] is what the objective answered, earlier in this call of minimize, at the
      point the pass started from *)
  Definition pass_data (s s' : opt ER) (sp : step ER) (r_old r : retval ER) (v : ER) (g : list ER) : Prop :=
    proposes E C s sp
    /\ o_evals s' = o_evals s ++ [(trial_point s sp, r)]
    /\ (exists p_old, In (p_old, r_old) (skipn (length (o_evals st)) (o_evals s))
         /\ (deref s (o_x s) = p_old \/ deref s (o_x s) = nudge C p_old))
    /\ value_of C r = Some v /\ gradient_of C r = Some g.

  Theorem C50_run_SSM : forall sh0 phi enforce f s s1 f' s',
    o_happ st = Some (HStruct sh0) -> same_scheme sh0 (SSM (Fin phi) enforce) ->
    head f s -> check_continue E C s = (Ok true, s1) -> iteration E C f s1 = (Ok f', s') ->
    exists sp r_old r v g, pass_data s s' sp r_old r v g
      /\ (accepts C s sp v g = true ->
          forall w res J res' J', vadd (st_s sp) (st_s0 sp) = fv w -> length w = n ->
          r_old = answers n res J -> r = answers n res' J' -> length res = length res' ->
          exists sh sh' A H yb,
            o_happ s = Some (HStruct sh) /\ sh_A sh = fm A /\ is_mat n n A /\ o_happ s' = Some (HStruct sh')
            /\ gauss_newton n J' H /\ structured_difference n res' J' J yb
            /\ let b := rdot (radd yb (rmv H w)) w in
               ((0 < b \/ enforce = false /\ b <> 0) -> rdot w (rmv (rmadd H A) w) <> 0 ->
                exists A', sh_A sh' = fm A' /\ is_mat n n A' /\ rmv A' w = yb /\ o_hess s' = fm (rmadd H A'))).
  Proof using Hres.
    intros sh0 phi enforce f s s1 f' s' Hh (S1 & S2 & S3) Hl Hc Hi. cbn [SSM sh_kind sh_phi sh_enforce] in *.
    destruct (struct_pass sh0 f s s1 f' s' Hh Hl Hc Hi) as (sp & po & ro & r & v & g & U1 & U2 & U3 & U4 & U5 & U6 & U7).
    exists sp, ro, r, v, g. split; [unfold pass_data; eauto 10|].
    intros Ha w res J res' J' Ew Lw Eo En El.
    destruct (U7 Ha w res J res' J' Ew Eo En El Lw) as (sh & sh' & A & H & yb & y & V1 & (V2 & V3 & V4) & V5 & V6 & V7 & V8 & V9 & V10 & V11 & V12).
    exists sh, sh', A, H, yb. do 6 (split; [assumption|]). cbv zeta. intros Hb Hw.
    rewrite S1 in *. rewrite V12. subst sh'.
    destruct sh as [k ph en A0 d b]. cbn [sh_kind sh_phi sh_enforce sh_A] in *. subst k ph en A0. rewrite S2, S3.
    destruct V8 as [Lyb _]. destruct V7 as [MH _].
    destruct (C50_SSM n phi enforce A d b H w (fv y) (fv res') yb V6 MH Lw Lyb Hb Hw) as (A' & R1 & R2 & R3 & R4).
    exists A'. auto.
  Qed.

  Theorem C50_run_TSSM : forall sh0 phi enforce f s s1 f' s',
    o_happ st = Some (HStruct sh0) -> same_scheme sh0 (TSSM (Fin phi) enforce) ->
    head f s -> check_continue E C s = (Ok true, s1) -> iteration E C f s1 = (Ok f', s') ->
    exists sp r_old r v g, pass_data s s' sp r_old r v g
      /\ (accepts C s sp v g = true ->
          forall w res J res' J', vadd (st_s sp) (st_s0 sp) = fv w -> length w = n ->
          r_old = answers n res J -> r = answers n res' J' -> length res = length res' ->
          nonzero res -> nonzero res' ->
          exists sh sh' A H yb,
            o_happ s = Some (HStruct sh) /\ sh_A sh = fm A /\ is_mat n n A /\ o_happ s' = Some (HStruct sh')
            /\ gauss_newton n J' H /\ structured_difference n res' J' J yb
            /\ let yb1 := rscale (rnorm res' / rnorm res) yb in
               let b := rdot (radd (rmv H w) yb1) w in
               ((0 < b \/ enforce = false /\ b <> 0) -> rdot w (rmv (rmadd H (rmscale (rnorm res') A)) w) <> 0 ->
                exists A', sh_A sh' = fm A' /\ is_mat n n A' /\ rscale (rnorm res') (rmv A' w) = yb1
                  /\ o_hess s' = fm (rmadd H (rmscale (rnorm res') A')))).
  Proof using Hres.
    intros sh0 phi enforce f s s1 f' s' Hh (S1 & S2 & S3) Hl Hc Hi. cbn [TSSM sh_kind sh_phi sh_enforce] in *.
    destruct (struct_pass sh0 f s s1 f' s' Hh Hl Hc Hi) as (sp & po & ro & r & v & g & U1 & U2 & U3 & U4 & U5 & U6 & U7).
    exists sp, ro, r, v, g. split; [unfold pass_data; eauto 10|].
    intros Ha w res J res' J' Ew Lw Eo En El Nr Nr'.
    destruct (U7 Ha w res J res' J' Ew Eo En El Lw) as (sh & sh' & A & H & yb & y & V1 & (V2 & V3 & V4) & V5 & V6 & V7 & V8 & V9 & V10 & V11 & V12).
    exists sh, sh', A, H, yb. do 6 (split; [assumption|]). cbv zeta. intros Hb Hw.
    rewrite S1 in *. rewrite V12. subst sh'.
    assert (Hp : 0 < rnorm res) by now apply rnorm_pos, nonzero_dot.
    assert (Ey : map (fun t : ER => (t * (norm (fv res') / norm (fv res)))%num) (fv yb) = fv (rscale (rnorm res' / rnorm res) yb)).
    { rewrite !h_norm. assert (Ed : (Fin (rnorm res') / Fin (rnorm res))%num = Fin (rnorm res' / rnorm res)).
      { cbn [ndiv ERNum er_div]. destruct (Reqb_spec (rnorm res) 0); [lra|reflexivity]. }
      rewrite Ed. apply h_vscaler. }
    rewrite Ey.
    destruct sh as [k ph en A0 d b]. cbn [sh_kind sh_phi sh_enforce sh_A] in *. subst k ph en A0. rewrite S2, S3.
    destruct V8 as [Lyb _]. destruct V7 as [MH _].
    assert (Ls : length (rscale (rnorm res' / rnorm res) yb) = n) by now rewrite rscale_length.
    destruct (C50_TSSM n phi enforce A d b H w (fv y) res' (rscale (rnorm res' / rnorm res) yb) V6 MH Lw Ls Nr' Hb Hw) as (A' & R1 & R2 & R3 & R4).
    exists A'. auto.
  Qed.

  Theorem C50_run_GNSBFGS : forall sh0 tol enforce f s s1 f' s', 0 <= tol ->
    o_happ st = Some (HStruct sh0) -> same_scheme sh0 (GNSBFGS (Fin tol) enforce) ->
    head f s -> check_continue E C s = (Ok true, s1) -> iteration E C f s1 = (Ok f', s') ->
    exists sp r_old r v g, pass_data s s' sp r_old r v g
      /\ (accepts C s sp v g = true ->
          forall w res J res' J', vadd (st_s sp) (st_s0 sp) = fv w -> length w = n -> nonzero w ->
          r_old = answers n res J -> r = answers n res' J' -> length res = length res' -> nonzero res ->
          exists sh sh' A H yb,
            o_happ s = Some (HStruct sh) /\ sh_A sh = fm A /\ is_mat n n A /\ o_happ s' = Some (HStruct sh')
            /\ gauss_newton n J' H /\ structured_difference n res' J' J yb
            /\ let yb1 := rscale (rnorm res' / rnorm res) yb in
               if Rltb tol (rdot yb1 w / rdot w w) then
                 rdot w (rmv A w) <> 0 ->
                 exists A', sh_A sh' = fm A' /\ is_mat n n A' /\ rmv A' w = yb1 /\ o_hess s' = fm (rmadd H A')
               else sh_A sh' = fm A /\ o_hess s' = fm (rmadd H (rmscale (rnorm res') (reye n)))).
  Proof using Hres.
    intros sh0 tol enforce f s s1 f' s' Ht Hh (S1 & S2 & S3) Hl Hc Hi. cbn [GNSBFGS sh_kind sh_phi sh_enforce] in *.
    destruct (struct_pass sh0 f s s1 f' s' Hh Hl Hc Hi) as (sp & po & ro & r & v & g & U1 & U2 & U3 & U4 & U5 & U6 & U7).
    exists sp, ro, r, v, g. split; [unfold pass_data; eauto 10|].
    intros Ha w res J res' J' Ew Lw Nw Eo En El Nr.
    destruct (U7 Ha w res J res' J' Ew Eo En El Lw) as (sh & sh' & A & H & yb & y & V1 & (V2 & V3 & V4) & V5 & V6 & V7 & V8 & V9 & V10 & V11 & V12).
    exists sh, sh', A, H, yb. do 6 (split; [assumption|]). cbv zeta.
    rewrite S1 in *. rewrite V12. subst sh'.
    assert (Hp : 0 < rnorm res) by now apply rnorm_pos, nonzero_dot.
    assert (Ey : map (fun t : ER => (t * (norm (fv res') / norm (fv res)))%num) (fv yb) = fv (rscale (rnorm res' / rnorm res) yb)).
    { rewrite !h_norm. assert (Ed : (Fin (rnorm res') / Fin (rnorm res))%num = Fin (rnorm res' / rnorm res)).
      { cbn [ndiv ERNum er_div]. destruct (Reqb_spec (rnorm res) 0); [lra|reflexivity]. }
      rewrite Ed. apply h_vscaler. }
    rewrite Ey.
    destruct sh as [k ph en A0 d b]. cbn [sh_kind sh_phi sh_enforce sh_A] in *. subst k ph en A0. rewrite S2, S3.
    destruct V8 as [Lyb _]. destruct V7 as [MH _].
    assert (Ls : length (rscale (rnorm res' / rnorm res) yb) = n) by now rewrite rscale_length.
    exact (C50_GNSBFGS n tol enforce A d b H w y res' (rscale (rnorm res' / rnorm res) yb) V6 MH Lw Ls V9 Nw Ht).
  Qed.
End StructRun.

(** ** FX, any number system *)
Section FXRun.
  Context {T : Type} {N : Num T} {L : NumLaws T}.
  Variables (E : env T) (C : cfg T) (ndim : nat) (x0 : list T) (sid : option string) (h0 : hess0_arg T) (st : opt T).
  Local Open Scope num_scope.

  Lemma fx_kept i0 b0 tol f s : o_happ st = Some (HFX i0 b0 tol) -> loop_head E C ndim x0 sid h0 st f s ->
    exists i b, o_happ s = Some (HFX i b tol) /\ ih_kind i = ih_kind i0.
  Proof using L.
    intros Hh HL. set (good := fun (hess : list (list T)) (h : option (happ T)) => exists i b, h = Some (HFX i b tol) /\ ih_kind i = ih_kind i0).
    cut (good (o_hess s) (o_happ s)); [auto|].
    revert HL. apply (run_hess_ind E C ndim x0 sid h0 st good).
    - intros hess h pf fo k Hpf Hty Hph. unfold pr_hess in Hph. rewrite Hh in Hph.
      destruct (pr_hess0 h0 pf) as [arg|] eqn:Ea; [|discriminate]. cbn [h_init] in Hph.
      unfold ih_init in Hph. destruct (hb_init (List.length x0) arg) as [b|] eqn:Eb; [|discriminate]. injection Hph as <- <-.
      do 2 eexists. split; reflexivity.
    - intros hess h sv grad since ninter iter fnew fold k r r' hess' h' (i & b & -> & Ek) Hs Hg Hmf Hgf _ Haf Hr Hev Hev' Hst.
      unfold hess_step, happ_update in Hst. destruct (fo_hess fnew) as [hs|]; [|discriminate].
      unfold fx_update in Hst. cbv zeta in Hst.
      assert (Kk : forall s y, ih_kind (ih_update i s y) = ih_kind i0).
      { intros s0 y0. rewrite <- Ek. unfold ih_update. cbv zeta. destruct (ih_kind i); reflexivity. }
      destruct (tol <=? _).
      + destruct (ih_set_mat _ _) as [i''|] eqn:Ei; [|discriminate]. injection Hst as <- <-. do 2 eexists. split; [reflexivity|].
        unfold ih_set_mat in Ei. repeat match type of Ei with context [if ?c then _ else _] => destruct c | context [match ?c with _ => _ end] => destruct c end; try discriminate; injection Ei as <-; exact Ek.
      + injection Hst as <- <-. do 2 eexists. split; [reflexivity|]. apply Kk.
  Qed.

  (** after an accepted step FX holds the Gauss-Newton matrix of the new point if the sum of squares fell by at least
      the fraction hybrid_tol, and otherwise the iterative update of its previous matrix with the step and
      J'^T J' step + (J' - J)^T res' *)
  Theorem C49_run : forall i0 b0 tol f s s1 f' s',
    o_happ st = Some (HFX i0 b0 tol) ->
    loop_head E C ndim x0 sid h0 st f s -> check_continue E C s = (Ok true, s1) -> iteration E C f s1 = (Ok f', s') ->
    exists sp p_old r_old r v g,
      proposes E C s sp
      /\ o_evals s' = o_evals s ++ [(trial_point s sp, r)]
      /\ In (p_old, r_old) (skipn (List.length (o_evals st)) (o_evals s))
      /\ (deref s (o_x s) = p_old \/ deref s (o_x s) = nudge C p_old)
      /\ value_of C r = Some v /\ gradient_of C r = Some g
      /\ (accepts C s sp v g = true ->
          exists i b res J res' J' H,
            o_happ s = Some (HFX i b tol) /\ ih_kind i = ih_kind i0
            /\ residuals_of C r_old = Some (res, J) /\ residuals_of C r = Some (res', J') /\ hessian_of C r = Some H
            /\ let w := vadd (st_s sp) (st_s0 sp) in
               let gamma := vadd (matvec H w) (vecmat (List.length w) res' (msub J' J)) in
               o_hess s' = (if tol <=? (dot res res - dot res' res') / dot res res then H else ih_mat (ih_update i w gamma))).
  Proof using L.
    intros i0 b0 tol f s s1 f' s' Hh Hl Hc Hi.
    destruct (C15_update_data E C _ _ _ _ _ _ _ _ _ _ Hl Hc Hi) as (sp & po & ro & r & v & g & U1 & U2 & U3 & U4 & U5 & U6 & U7 & U8).
    exists sp, po, ro, r, v, g. do 6 (split; [assumption|]). intros Ha. specialize (U8 Ha).
    destruct (fx_kept i0 b0 tol f s Hh Hl) as (i & b & Ei & Ek). rewrite Ei in U8.
    destruct U8 as (h' & res & J & res' & J' & V1 & V2 & V3 & V4 & V5). unfold told in V3. destruct V3 as (H & V3 & V6).
    exists i, b, res, J, res', J', H. do 5 (split; [assumption|]). cbv zeta.
    rewrite V5. exact (C49_alternates T N _ _ _ _ _ _ _ _ _ V6).
  Qed.
End FXRun.

(** *** Non-vacuity, in double precision: residuals x - 3 and x^2 - 5 of one variable *)
Definition two_residuals (_ : nat) (x : list F64) : retval F64 :=
  let t := nth 0 x n0 in
  RTuple [PVec [(t - fz 3)%num; (t * t - fz 5)%num]; PMat 1 [[n1]; [(n2 * t)%num]]].
Definition struct1 (h : shapp F64) : cfg F64 * opt F64 := built (fzs [-10]%Z) (fzs [10]%Z) [] (Some (HStruct h)) true.
Definition fx1 (tol : F64) : cfg F64 * opt F64 :=
  built (fzs [-10]%Z) (fzs [10]%Z) [] (Some (HFX (mkIhapp (BFGS true) hb_empty) hb_empty tol)) true.
(** the pass is accepted and updates A: the hypotheses of C50_run_SSM, C50_run_TSSM, C50_run_GNSBFGS hold of a run *)
Definition A_changed (s s' : opt F64) : bool :=
  negb (Nat.eqb (o_x s') (o_x s)) &&
  match o_happ s, o_happ s' with
  | Some (HStruct a), Some (HStruct b) => negb (cell (sh_A b) 0 0 =? cell (sh_A a) 0 0)%num
  | _, _ => false
  end.
Example C50_run_ex :
  one_pass (world two_residuals) (fst (struct1 (SSM n0 true))) (fzs [0]%Z) (snd (struct1 (SSM n0 true))) A_changed = true
  /\ one_pass (world two_residuals) (fst (struct1 (TSSM n0 true))) (fzs [0]%Z) (snd (struct1 (TSSM n0 true))) A_changed = true
  /\ one_pass (world two_residuals) (fst (struct1 (GNSBFGS (nfrac 1 100) true))) (fzs [0]%Z) (snd (struct1 (GNSBFGS (nfrac 1 100) true))) A_changed = true.
Proof. vm_compute. auto. Qed.
(** both branches of C49_run are taken: with tolerance 1/5 the model Hessian after the accepted pass is the
    Gauss-Newton one, with tolerance 2 it is not *)
Definition is_gauss_newton (s s' : opt F64) : bool :=
  negb (Nat.eqb (o_x s') (o_x s)) &&
  let t := nth 0 (deref s' (o_x s')) n0 in (cell (o_hess s') 0 0 =? n1 * n1 + (n2 * t) * (n2 * t))%num.
Example C49_run_ex :
  one_pass (world two_residuals) (fst (fx1 (nfrac 1 5))) (fzs [4]%Z) (snd (fx1 (nfrac 1 5))) is_gauss_newton = true
  /\ one_pass (world two_residuals) (fst (fx1 (fz 2))) (fzs [4]%Z) (snd (fx1 (fz 2)))
       (fun s s' => negb (Nat.eqb (o_x s') (o_x s)) && negb (is_gauss_newton s s')) = true.
Proof. vm_compute. auto. Qed.
