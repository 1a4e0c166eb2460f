(** Induction principle for the model Hessian during a run of minimize (proof library) *)
From Coq Require Import ZArith List Bool String Lia.
From Verif Require Import Num Constants Subproblem HessApprox Steps TrustRegion Minimize
  ER NumFacts MonadFacts MinFacts Spec Run RunInv.
Import ListNotations.
Local Open Scope num_scope.

Section HessRun.
  Context {T : Type} {N : Num T} {L : NumLaws T}.
  Local Notation vec := (list T).
  Local Notation mat := (list (list T)).
  Variable E : env T.
  Variable C : cfg T.

  (** [f] is the typed view, for n variables, of the output [r] of a call of the objective *)
  Definition evaluation_of (n : nat) (f : fout T) (r : retval T) : Prop :=
    exists pf k, fun_evaluate (c_nargout C) (c_resfun C) r = Ok pf /\ typed_fout n pf k = Ok f.

  (** one update of the matrix used by the quadratic model (and of the scheme, if any) *)
  Definition hess_step (h : option (happ T)) (s grad : vec) (since ninter iter : Z)
      (fnew fold : fout T) : res (mat * option (happ T)) :=
    match h with
    | Some h =>
        match happ_update h s grad since ninter iter fnew fold with
        | Ok h' => Ok (h_mat h', Some h')
        | Err e => Err e
        end
    | None => match fo_hess fnew with Some hess => Ok (hess, None) | None => Err EAttr end
    end.

  Variables (ndim : nat) (x0 : vec) (sid : option string) (h0 : hess0_arg T) (st : opt T).
  Variable P : mat -> option (happ T) -> Prop.
  Local Notation n := (List.length x0).
  Hypothesis Hinit : forall hess h pf f k,
    fun_evaluate (c_nargout C) (c_resfun C) (pr_ret E C x0 st) = Ok pf ->
    typed_fout n pf k = Ok f ->
    pr_hess (o_happ st) n h0 pf = Ok (hess, h) -> P hess h.
  Hypothesis Hstep : forall hess h s grad since ninter iter fnew fold k r r' hess' h',
    P hess h ->
    List.length s = n -> List.length grad = n ->
    mfinite hess = true -> vfinite grad = true -> fo_grad fold = grad ->
    all_finite (fo_fval fnew) (fo_grad fnew) (fo_hess fnew) = true ->
    (exists x, r = e_obj E k x) -> evaluation_of n fnew r ->
    evaluation_of n fold r' ->
    hess_step h s grad since ninter iter fnew fold = Ok (hess', h') ->
    P hess' h'.

  Lemma run_hess_ind_aux f s : loop_head E C ndim x0 sid h0 st f s ->
    P (o_hess s) (o_happ s) /\ (exists r, evaluation_of n f r) /\ fo_grad f = o_grad s.
  Proof using Hinit Hstep L.
    induction 1 as [f s H|f s s1 f' s' HL IH Hc Hi].
    - apply prepare_inv in H. inversion H as [| | | | | |pf hess h' f' Hd Hb Hpf Hh Hc Ht Hf Ef Es].
      subst f'. clear H. subst s.
      split; [|split].
      + assert (E1 : o_hess (set_o_conv false (pr_s4 E C sid x0 hess h' f st)) = hess)
          by (unfold pr_s4; destruct better; reflexivity).
        assert (E2 : o_happ (set_o_conv false (pr_s4 E C sid x0 hess h' f st)) = h')
          by (unfold pr_s4; destruct better; reflexivity).
        rewrite E1, E2. eapply Hinit; eauto.
      + exists (pr_ret E C x0 st), pf, (List.length (o_heap st)). auto.
      + unfold pr_s4; destruct better; reflexivity.
    - pose proof (loop_head_Inv E C _ _ _ _ _ _ _ HL) as I.
      apply check_continue_true in Hc as (-> & _ & Hlt & _).
      destruct IH as (IP & [r' Ir] & Ig).
      apply iteration_ok in Hi as (sp & fn & K).
      set (s2 := set_o_clk (S (o_clk s)) s) in *.
      assert (EP : o_hess s2 = o_hess s /\ o_happ s2 = o_happ s /\ o_grad s2 = o_grad s) by (repeat split).
      destruct EP as (E1 & E2 & E3).
      pose proof (ev_pf _ _ _ _ _ (ik_ev _ _ _ _ _ _ _ _ K)) as (pf & Hpf & Hty).
      assert (Hlen : List.length (deref s2 (o_x s2)) = n) by exact (iv_len _ _ _ _ _ _ _ I).
      rewrite Hlen in Hty.
      pose proof (ik_hess _ _ _ _ _ _ _ _ K) as Kh. rewrite (ik_f' _ _ _ _ _ _ _ _ K).
      rewrite (ik_grad _ _ _ _ _ _ _ _ K).
      destruct (it_acc E C s2 sp fn) eqn:Ea.
      + split; [|split; [exists (it_ret E s2 sp), pf, (List.length (o_heap s2)); auto|reflexivity]].
        pose proof (ev_cur _ _ _ _ _ (ik_ev _ _ _ _ _ _ _ _ K)) as Hcur.
        unfold all_finite in Hcur. rewrite E1, E3 in Hcur.
        apply andb_true_iff in Hcur as [Hcur Hfh]. apply andb_true_iff in Hcur as [Hfv Hfg].
        assert (Htr := ev_tr _ _ _ _ _ (ik_ev _ _ _ _ _ _ _ _ K)).
        eapply (Hstep (o_hess s) (o_happ s) (vadd (st_s sp) (st_s0 sp)) (o_grad s)
                 (o_since (it_s5 E C s2 sp fn)) (o_ninter (it_s5 E C s2 sp fn))
                 (o_iter (it_s5 E C s2 sp fn)) fn f _ (it_ret E s2 sp) r').
        * exact IP.
        * unfold it_tr in Htr. destruct trust_region as [sp'|e]; simpl in Htr; try discriminate.
          unfold check_shape in Htr. destruct (_ && _) eqn:Es; try discriminate.
          injection Htr as ->. apply andb_true_iff in Es as [H1 H2]. apply Nat.eqb_eq in H1, H2.
          change (o_heap s) with (o_heap s2) in *. rewrite <- Hlen. unfold vadd. rewrite map2_length; [exact H1|congruence].
        * destruct Ir as (pf' & k' & _ & Ht'). apply typed_fout_inv in Ht'.
          rewrite <- Ig. apply Ht'.
        * exact Hfh.
        * exact Hfg.
        * exact Ig.
        * apply (ev_fin _ _ _ _ _ (ik_ev _ _ _ _ _ _ _ _ K)).
          unfold it_acc, tru_acc in Ea. now apply andb_true_iff in Ea.
        * eexists. unfold it_ret. reflexivity.
        * exists pf, (List.length (o_heap s2)). auto.
        * exact Ir.
        * unfold hess_step. unfold new_hess in Kh.
          assert (E4 : o_happ (it_s5 E C s2 sp fn) = o_happ s)
            by (unfold it_s5; destruct better; reflexivity).
          assert (E5 : o_grad (it_s5 E C s2 sp fn) = o_grad s)
            by (unfold it_s5; destruct better; reflexivity).
          rewrite E4, E5 in Kh. exact Kh.
      + destruct Kh as [-> ->]. rewrite E1, E2, E3. split; [exact IP|]. split; [exists r'; exact Ir|exact Ig].
  Qed.

  Lemma run_hess_ind f s : loop_head E C ndim x0 sid h0 st f s -> P (o_hess s) (o_happ s).
  Proof using Hinit Hstep L. intros H. now apply run_hess_ind_aux in H. Qed.
End HessRun.
