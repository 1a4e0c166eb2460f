(** The model Hessian has one row per variable at every head of the loop (proof library) *)
From Coq Require Import String ZArith List Bool Lia.
From Verif Require Import Num Constants Subproblem HessApprox Steps TrustRegion Minimize
  ER NumFacts MonadFacts MinFacts Spec Run RunInv HessRun Prop_Sym.
Import ListNotations.
Local Open Scope num_scope.
Local Open Scope list_scope.

Section Dim.
  Context {T : Type} {N : Num T} {L : NumLaws T}.
  Local Notation vec := (list T).
  Local Notation mat := (list (list T)).

  Definition rows (n : nat) (m : mat) : Prop := length m = n.
  Lemma rows_map2 n (g : vec -> vec -> vec) a b : rows n a -> rows n b -> rows n (map2 g a b).
  Proof. unfold rows. intros Ha Hb. rewrite map2_len; congruence. Qed.
  Lemma rows_map n (g : vec -> vec) a : rows n a -> rows n (map g a).
  Proof. unfold rows. now rewrite map_length. Qed.
  Lemma rows_outer n (u v : vec) : length u = n -> rows n (outer u v).
  Proof. unfold rows, outer. now rewrite map_length. Qed.
  Lemma rows_eye n : rows n (eye n).
  Proof. unfold rows, eye. now rewrite map_length, seq_length. Qed.
  Lemma rows_zeros n m : rows n m -> rows n (mzeros_like m).
  Proof. unfold mzeros_like. apply rows_map. Qed.
  Lemma rows_matvec n m (v : vec) : rows n m -> length (matvec m v) = n.
  Proof. unfold rows, matvec. now rewrite map_length. Qed.
  Lemma rows_divs n m c : rows n m -> rows n (mdivs m c).
  Proof. unfold mdivs. apply rows_map. Qed.

  Lemma rows_broyden n y s m phi enforce : length y = n -> rows n m -> rows n (broyden_class_update y s m phi enforce).
  Proof.
    intros Hy Hm. unfold broyden_class_update. cbv zeta.
    assert (Hu := rows_matvec n m s Hm).
    destruct (_ && _); [now apply rows_zeros|].
    assert (H1 : rows n (msub (mdivs (outer y y) (dot y s))
                         (mdivs (outer (matvec m s) (matvec m s)) (dot (matvec m s) s)))).
    { apply rows_map2; apply rows_divs; now apply rows_outer. }
    destruct (negb _); auto. apply rows_map2; auto.
    apply rows_map, rows_outer. apply vsub_len; unfold vdivs; now rewrite map_length.
  Qed.

  Lemma rows_ih n i s y : length y = n -> rows n (ih_mat i) -> rows n (ih_mat (ih_update i s y)).
  Proof.
    intros Hy Hm. unfold ih_update. cbv zeta. assert (Hu := rows_matvec n _ s Hm).
    destruct (ih_kind i).
    - apply rows_map2; auto. now apply rows_broyden.
    - apply rows_map2; auto. unfold sr1_diff. cbv zeta. destruct (_ <=? _); [|now apply rows_zeros].
      apply rows_divs, rows_outer. now apply vsub_len.
    - apply rows_map2; auto. unfold bg_diff. cbv zeta. apply rows_divs, rows_outer. now apply vsub_len.
    - exact Hm.
  Qed.

  Definition h_rows (n : nat) (h : happ T) : Prop :=
    match h with
    | HIter i => rows n (ih_mat i)
    | HFixed i b _ _ | HFraction i b _ _ => rows n (ih_mat i) /\ rows n (hb_hess b)
    | HFX i _ _ => rows n (ih_mat i)
    | HStruct h => rows n (sh_A h) /\ rows n (hb_hess (sh_base h))
    end.
  Lemma h_rows_mat n h : h_rows n h -> rows n (h_mat h).
  Proof. intros H. destruct h; simpl in *; tauto. Qed.

  Lemma rows_init n h arg h' : h_init h n arg = Ok h' -> h_rows n h'.
  Proof.
    assert (Hb : forall b, hb_init n arg = Ok b -> rows n (hb_hess b)).
    { unfold hb_init. destruct arg as [m|].
      - destruct (Nat.eqb_spec (length m) n); [|discriminate]. intros b H. injection H as <-. auto.
      - intros b H. injection H as <-. apply rows_eye. }
    assert (Hi : forall i i', ih_init i n arg = Ok i' -> rows n (ih_mat i')).
    { unfold ih_init. intros i i'. destruct hb_init as [b|]; [|discriminate].
      intros H. injection H as <-. apply (Hb b eq_refl). }
    unfold h_init. destruct h as [i|i b0 k sw|i b0 t sw|i b0 t|s].
    - destruct ih_init as [i'|] eqn:Ei; [|discriminate]. intros H. injection H as <-. simpl. eauto.
    - destruct ih_init as [i'|] eqn:Ei; [|discriminate]. destruct hb_init as [b|] eqn:Eb; [|discriminate].
      intros H. injection H as <-. split; eauto.
    - destruct ih_init as [i'|] eqn:Ei; [|discriminate]. destruct hb_init as [b|] eqn:Eb; [|discriminate].
      intros H. injection H as <-. split; eauto.
    - destruct ih_init as [i'|] eqn:Ei; [|discriminate]. destruct hb_init as [b|] eqn:Eb; [|discriminate].
      intros H. injection H as <-. simpl. eauto.
    - unfold sh_init. destruct hb_init as [b|] eqn:Eb; [|discriminate].
      intros H. injection H as <-. split; [|simpl; auto]. apply rows_map, rows_eye.
  Qed.

  Lemma rows_step n h s grad since ninter iter fnew fold h' :
    h_rows n h -> length s = n -> length grad = n -> length (fo_grad fnew) = n ->
    Forall (fun r => length r = n) (fo_sres fnew) ->
    Forall (fun r => length r = n) (fo_sres fold) ->
    (forall m, fo_hess fnew = Some m -> rows n m) ->
    happ_update h s grad since ninter iter fnew fold = Ok h' -> h_rows n h'.
  Proof.
    intros Hh Hs Hg Hgn Hr1 Hr2 Hm H.
    assert (Hy : length (vsub (fo_grad fnew) grad) = n) by now apply vsub_len.
    assert (Hyb : length (mTvec (length s) (msub (fo_sres fnew) (fo_sres fold)) (fo_res fnew)) = n).
    { unfold mTvec, vecmat. rewrite Hs. apply lincomb_len, msub_rows; auto. }
    unfold happ_update in H.
    destruct h as [i|i b k sw|i b t sw|i b t|sh].
    - injection H as <-. now apply rows_ih.
    - destruct (fo_hess fnew) as [hess|]; [|discriminate]. injection H as <-.
      unfold fixed_update, switched_update. cbv iota.
      assert (Hu := rows_ih n i s _ Hy (proj1 Hh)).
      split; [exact Hu|]. destruct sw; [exact Hu|now apply Hm].
    - destruct (fo_hess fnew) as [hess|]; [|discriminate]. injection H as <-.
      unfold fraction_update, switched_update. cbv iota.
      assert (Hu := rows_ih n i s _ Hy (proj1 Hh)).
      split; [exact Hu|]. destruct sw; [exact Hu|now apply Hm].
    - destruct (fo_hess fnew) as [hess|]; [|discriminate].
      specialize (Hm _ eq_refl). unfold fx_update in H. cbv zeta in H. destruct (_ <=? _).
      + unfold ih_set_mat, hb_set_mat in H. destruct shape_eqb; [|discriminate].
        injection H as <-. exact Hm.
      + injection H as <-. simpl. apply rows_ih; auto. apply vadd_len; auto. now apply rows_matvec.
    - destruct (fo_hess fnew) as [hess|]; [|discriminate].
      specialize (Hm _ eq_refl). injection H as <-.
      destruct Hh as [HA Hb].
      set (yb := mTvec _ _ _) in *. set (yb' := match sh_kind sh with SSSM => yb | _ => _ end).
      assert (Hyb' : length yb' = n).
      { unfold yb'. destruct (sh_kind sh); auto; unfold vscaler; now rewrite map_length. }
      clearbody yb'. unfold sh_update. cbv zeta.
      assert (Hhs : length (matvec hess s) = n) by now apply rows_matvec.
      destruct (sh_kind sh).
      + assert (HA' : rows n (madd (sh_A sh) (broyden_class_update (vadd yb' (matvec hess s)) s
                 (madd hess (sh_A sh)) (sh_phi sh) (sh_enforce sh)))).
        { apply rows_map2; auto. apply rows_broyden; [now apply vadd_len|now apply rows_map2]. }
        split; [exact HA'|]. now apply rows_map2.
      + match goal with |- h_rows n (HStruct (mkShapp _ _ _ (madd ?a ?d) _ _)) =>
          assert (HA' : rows n (madd a d)) end.
        { apply rows_map2; auto. apply rows_divs.
          apply rows_broyden; [now apply vadd_len|].
          apply rows_map2; auto. apply rows_map; auto. }
        split; [exact HA'|]. apply rows_map2; auto. apply rows_map; auto.
      + destruct (_ <? _).
        * assert (HA' : rows n (madd (sh_A sh) (broyden_class_update yb' s (sh_A sh) (sh_phi sh) (sh_enforce sh)))).
          { apply rows_map2; auto. now apply rows_broyden. }
          split; [exact HA'|]. now apply rows_map2.
        * split; [exact HA|]. apply rows_map2; auto. apply rows_map. rewrite Hy. apply rows_eye.
  Qed.
End Dim.

Section DimRun.
  Context {T : Type} {N : Num T} {L : NumLaws T}.
  Variables (E : env T) (C : cfg T).

  Lemma head_dims ndim x0 sid h0 st f s : loop_head E C ndim x0 sid h0 st f s ->
    length (o_hess s) = length x0 /\ length (o_grad s) = length x0.
  Proof.
    intros HL. split.
    - assert (HP : rows (length x0) (o_hess s) /\ (forall h, o_happ s = Some h -> h_rows (length x0) h)); [|apply HP].
      revert HL. apply (run_hess_ind E C ndim x0 sid h0 st
         (fun hess h => rows (length x0) hess /\ forall h', h = Some h' -> h_rows (length x0) h')).
      + intros hess h pf fo k Hpf Hty Hh.
        unfold pr_hess in Hh. destruct (o_happ st) as [h1|].
        * destruct (pr_hess0 h0 pf) as [arg|] eqn:Ea; [|discriminate].
          destruct (h_init h1 (length x0) arg) as [h2|] eqn:Ei; [|discriminate]. injection Hh as <- <-.
          apply rows_init in Ei. split; [now apply h_rows_mat|]. intros h' H. now injection H as <-.
        * destruct (pf_hess pf) eqn:Eq; try discriminate. injection Hh as <- <-.
          split; [|discriminate]. apply typed_fout_inv in Hty as (_ & _ & _ & _ & _ & _ & Ht).
          destruct (fo_hess fo) as [m|]; [|congruence]. destruct Ht as (nc' & Ht & Hr).
          rewrite Eq in Ht. injection Ht as <- <-. unfold rect in Hr. apply andb_true_iff in Hr as [Hr _].
          now apply Nat.eqb_eq.
      + intros hess h sv grad since ninter iter fnew fold k r r' hess' h' [Ph Hh'] Hs Hg _ _ _ _ [x Hr] Hev Hev' Hst.
        assert (Hm : forall m, fo_hess fnew = Some m -> rows (length x0) m).
        { intros m Em. destruct Hev as (pf & k' & _ & Hty). apply typed_fout_inv in Hty as (_ & _ & _ & _ & _ & _ & Ht).
          rewrite Em in Ht. destruct Ht as (nc & _ & Hr'). unfold rect in Hr'. apply andb_true_iff in Hr' as [Hr' _].
          now apply Nat.eqb_eq. }
        unfold hess_step in Hst. destruct h as [h|].
        * destruct happ_update as [h1|] eqn:Eu; [|discriminate]. injection Hst as <- <-.
          assert (Hs1 : h_rows (length x0) h1).
          { eapply rows_step; [apply Hh'; reflexivity|exact Hs|exact Hg| | | |exact Hm|exact Eu].
            - destruct Hev as (pf & k' & _ & Hty). apply typed_fout_inv in Hty. apply Hty.
            - now apply evaluated_rows in Hev.
            - now apply evaluated_rows in Hev'. }
          split; [now apply h_rows_mat|]. intros h' H. now injection H as <-.
        * destruct (fo_hess fnew) as [m|]; [|discriminate]. injection Hst as <- <-.
          split; [now apply Hm|discriminate].
    - assert (K : True /\ (exists r, evaluation_of C (length x0) f r) /\ fo_grad f = o_grad s).
      { apply (run_hess_ind_aux E C ndim x0 sid h0 st (fun _ _ => True)); auto. }
      destruct K as (_ & [r (pf & k & _ & Ht)] & Hg).
      rewrite <- Hg. apply typed_fout_inv in Ht. apply Ht.
  Qed.
End DimRun.
