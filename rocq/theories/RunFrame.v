(** What any outcome (exceptions included) of the parts of minimize leaves alone (proof library) *)
From Coq Require Import ZArith List Bool String Lia.
From Verif Require Import Num Constants Subproblem HessApprox Steps TrustRegion Minimize
  ER NumFacts MonadFacts MinFacts Spec Run RunInv TRErr.
Import ListNotations.
Local Open Scope num_scope.

Section Frame.
  Context {T : Type} {N : Num T} {L : NumLaws T}.
  Local Notation vec := (list T).
  Local Notation mat := (list (list T)).
  Local Notation opt := (opt T).
  Variable E : env T.
  Variable C : cfg T.
  Local Notation O := (c_opts C).

  Lemma proposes_it_tr s sp : it_tr E C s = Ok sp <-> proposes E C s sp.
  Proof.
    unfold it_tr, proposes, it_dv, it_theta, it_vdv. cbv zeta. rewrite map_map.
    destruct trust_region as [sp'|e]; cbn [rbind].
    - unfold check_shape. split.
      + destruct (_ && _) eqn:Es; [|discriminate]. intros H; injection H as ->.
        apply andb_true_iff in Es as [E1 E2]. apply Nat.eqb_eq in E1, E2. auto.
      + intros (H & H1 & H2). injection H as ->. now rewrite H1, H2, Nat.eqb_refl.
    - split; [discriminate|]. intros [H _]. discriminate H.
  Qed.

  (** new log entries, new heap cells *)
  Record grown (s s' : opt) (k : nat) : Prop := mkGrown {
    gr_evals : exists new, o_evals s' = o_evals s ++ new /\ (List.length new <= k)%nat;
    gr_heap : exists ext, o_heap s' = o_heap s ++ ext;
    gr_files : o_files s' = o_files s
  }.
  Lemma grown_refl s k : grown s s k.
  Proof.
    constructor; auto; exists []; rewrite app_nil_r; auto. split; auto. simpl; lia.
  Qed.
  Lemma grown_of (s s' : opt) k ne nh : o_evals s' = o_evals s ++ ne -> (List.length ne <= k)%nat ->
    o_heap s' = o_heap s ++ nh -> o_files s' = o_files s -> grown s s' k.
  Proof. intros; constructor; eauto. Qed.
  Lemma grown_trans a b c k m : grown a b k -> grown b c m -> grown a c (k + m).
  Proof.
    intros [(n1 & A1 & A2) (x1 & A3) A4] [(n2 & B1 & B2) (x2 & B3) B4].
    apply (grown_of _ _ _ (n1 ++ n2) (x1 ++ x2)).
    - rewrite B1, A1. now rewrite <- app_assoc.
    - rewrite app_length. lia.
    - rewrite B3, A3. now rewrite <- app_assoc.
    - congruence.
  Qed.

  Lemma iteration_frame fold s r s' :
    iteration E C fold s = (r, s') -> grown s s' 1 /\ o_iter s' = (o_iter s + 1)%Z.
  Proof.
    destruct r as [f'|e].
    - intros H. apply iteration_ok in H as (sp & f & []). split; auto.
      eapply grown_of; eauto.
    - intros H. apply iteration_inv in H.
      inversion H as [Hc Er Es|e' Ht Er Es|sp e' Ht He Er Es|sp pf e' Ht He Hy Er Es
        |sp pf f Ht He Hy H1 H2 Er Es|sp f e' st' Hev Ha Hu Er Es|sp f st' Hev Hu Hh Er Es|];
        clear H; subst.
      + split; [|reflexivity]. apply (grown_of _ _ _ [] []); rewrite ?app_nil_r; auto.
      + split; [|reflexivity]. apply (grown_of _ _ _ [] []); rewrite ?app_nil_r; auto.
      + split; [|reflexivity]. eapply grown_of; reflexivity || auto.
      + split; [|reflexivity]. eapply grown_of; reflexivity || auto.
      + split; [|reflexivity]. eapply grown_of; reflexivity || auto.
      + assert (Hs5 : grown s (it_s5 E C s sp f) 1 /\ o_iter (it_s5 E C s sp f) = (o_iter s + 1)%Z).
        { split; [|apply s5_iter]. eapply grown_of; [apply s5_evals|auto|apply s5_heap|apply s5_files]. }
        rewrite update_run in Hu. destruct new_hess as [[hess h']|e1].
        * cbv zeta in Hu. destruct in_bounds; [discriminate Hu|].
          apply pair_equal_spec in Hu as [_ Hu]. subst s'.
          destruct Hs5 as [[G1 G2 G3] G4]. split; [constructor; assumption|assumption].
        * apply pair_equal_spec in Hu as [_ Hu]. subst s'. auto.
      + assert (Hs5 : grown s (it_s5 E C s sp f) 1 /\ o_iter (it_s5 E C s sp f) = (o_iter s + 1)%Z).
        { split; [|apply s5_iter]. eapply grown_of; [apply s5_evals|auto|apply s5_heap|apply s5_files]. }
        destruct it_acc; [|subst; auto].
        rewrite update_run in Hu. destruct new_hess as [[hess h']|e1]; [|discriminate Hu].
        cbv zeta in Hu. destruct in_bounds; [|discriminate Hu].
        apply pair_equal_spec in Hu as [_ Hu].
        assert (Hx : fo_x f = List.length (o_heap s)).
        { destruct (ev_pf _ _ _ _ _ Hev) as (pf & _ & Ht).
          apply typed_fout_inv in Ht as (_ & _ & Hx & _). exact Hx. }
        rewrite s5_heap, Hx, upd_app in Hu. subst s'.
        destruct Hs5 as [[G1 G2 G3] G4]. split; [constructor; try assumption|assumption].
        eexists; reflexivity.
  Qed.

  Lemma prepare_frame ndim x0 sid h0 s r s' :
    prepare E C ndim x0 sid h0 s = (r, s') -> grown s s' 1 /\ o_iter s' = 0%Z.
  Proof.
    intros H. apply prepare_inv in H.
    assert (Hi : o_iter (pr_s0 E C sid s) = 0%Z) by (unfold pr_s0; destruct (pr_id sid); reflexivity).
    assert (Hf : o_files (pr_s0 E C sid s) = o_files s) by (unfold pr_s0; destruct (pr_id sid); reflexivity).
    assert (He : o_evals (pr_s0 E C sid s) = o_evals s) by (unfold pr_s0; destruct (pr_id sid); reflexivity).
    assert (H4 : forall hess h' f, grown s (pr_s4 E C sid x0 hess h' f s) 1
                  /\ o_iter (pr_s4 E C sid x0 hess h' f s) = 0%Z).
    { intros hess h' f. unfold pr_s4.
      split.
      - apply (grown_of _ _ _ [(nudge C x0, pr_ret E C x0 s)] [nudge C x0]); auto;
        destruct better; try reflexivity; exact Hf.
      - destruct better; exact Hi. }
    inversion H; clear H; subst.
    - split; [|exact Hi]. apply (grown_of _ _ _ [] [x0]); rewrite ?app_nil_r; auto.
    - split; [|exact Hi]. apply (grown_of _ _ _ [] [nudge C x0]); rewrite ?app_nil_r; auto.
    - split; [|exact Hi]. apply (grown_of _ _ _ [(nudge C x0, pr_ret E C x0 s)] [nudge C x0]); auto.
    - split; [|exact Hi]. apply (grown_of _ _ _ [(nudge C x0, pr_ret E C x0 s)] [nudge C x0]); auto.
    - split; [|exact Hi]. apply (grown_of _ _ _ [(nudge C x0, pr_ret E C x0 s)] [nudge C x0]); auto.
    - destruct (H4 hess h' f) as [[G1 G2 G3] G4]. split; [constructor; assumption|assumption].
    - destruct (H4 hess h' f) as [[G1 G2 G3] G4]. split; [constructor; assumption|assumption].
  Qed.

  Lemma loop_head_frame ndim x0 sid h0 st f s :
    loop_head E C ndim x0 sid h0 st f s -> grown st s (S (Z.to_nat (o_iter s))) /\ (0 <= o_iter s)%Z.
  Proof.
    induction 1 as [f s H|f s s1 f' s' Hl IH Hc Hi].
    - apply prepare_frame in H as [H1 H2]. rewrite H2. split; [exact H1|lia].
    - apply check_continue_true in Hc as (-> & _).
      apply iteration_frame in Hi as [G Hit]. destruct IH as [IH Hn].
      change (o_iter (set_o_clk (S (o_clk s)) s)) with (o_iter s) in Hit.
      rewrite Hit. split; [|lia].
      replace (S (Z.to_nat (o_iter s + 1))) with (S (Z.to_nat (o_iter s)) + 1)%nat by lia.
      eapply grown_trans; [exact IH|]. destruct G as [G1 G2 G3]. constructor; assumption.
  Qed.
End Frame.
