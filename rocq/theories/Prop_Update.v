(** C15 (continued): what the Hessian approximation is told after an accepted step *)
From Coq Require Import ZArith List Bool String Lia.
From Verif Require Import Num Constants Subproblem HessApprox Steps TrustRegion Minimize
  ER NumFacts MonadFacts MinFacts Spec Run RunInv RunFrame Prop_Run Prop_Run2 HessRun.
Import ListNotations.
Local Open Scope num_scope.

Section UpdateSpec.
  Context {T : Type} {N : Num T}.
  Local Notation vec := (list T).
  Local Notation mat := (list (list T)).

  (** residuals and their Jacobian, as returned by a residual function *)
  Definition residuals_of (C : cfg T) (r : retval T) : option (vec * mat) :=
    match fun_evaluate (c_nargout C) (c_resfun C) r with
    | Ok p => Some (pf_res p, pf_sres p)
    | Err _ => None
    end.
  (** Hessian as returned by the objective (J^T J for a residual function) *)
  Definition hessian_of (C : cfg T) (r : retval T) : option mat :=
    match fun_evaluate (c_nargout C) (c_resfun C) r with
    | Ok p => match pf_hess p with PMat _ rows => Some rows | _ => None end
    | Err _ => None
    end.

  (** scheme [h] becomes [h'] by being told: the step, the difference of gradients [y], the counters of the trust
      region, the new Hessian [H'], the new and the old residuals [r'], [r] and Jacobians [J'], [J] *)
  Definition told (step y : vec) (since ninter iter : Z) (H' : option mat) (r' r : vec) (J' J : mat)
      (h h' : happ T) : Prop :=
    let yb := vecmat (List.length step) r' (msub J' J) in        (* (J' - J)^T r' *)
    match h with
    | HIter i => h' = HIter (ih_update i step y)
    | HFixed i b k sw => exists H, H' = Some H /\ h' = fixed_update i b k sw step y H since
    | HFraction i b t sw => exists H, H' = Some H /\ h' = fraction_update i b t sw step y H ninter iter
    | HFX i b tol => exists H, H' = Some H
        /\ fx_update i b tol step (vadd (matvec H step) yb) r' r H = Ok h'
    | HStruct sh => exists H, H' = Some H
        /\ h' = HStruct (sh_update sh step y r' H
             (match sh_kind sh with
              | SSSM => yb
              | _ => map (fun t => t * (norm r' / norm r)) yb
              end))
    end.
End UpdateSpec.

Section UpdateProps.
  Context {T : Type} {N : Num T} {L : NumLaws T}.
  Local Notation vec := (list T).
  Local Notation mat := (list (list T)).
  Variable E : env T.
  Variable C : cfg T.
  Variables (ndim : nat) (x0 : vec) (sid : option string) (h0 : hess0_arg T) (st : opt T).
  Local Notation head := (loop_head E C ndim x0 sid h0 st).

  Lemma held_evaluation f s : head f s ->
    exists p r, In (p, r) (skipn (List.length (o_evals st)) (o_evals s))
      /\ evaluation_of C (List.length x0) f r
      /\ (deref s (o_x s) = p \/ deref s (o_x s) = nudge C p).
  Proof.
    intros Hl. induction Hl as [f s Hp|f s s1 f' s' Hl IH Hc Hi].
    - assert (I : Inv E C x0 sid st f s) by (apply loop_head_Inv with ndim h0; now constructor).
      destruct (iv_cur _ _ _ _ _ _ _ I) as (p & r & H1 & H2 & H3 & H4 & H5 & H6).
      apply prepare_inv in Hp. inversion Hp as [| | | | | |pf hess h' f1 D1 D2 D3 D4 D5 D6 D7 Ef Es0]. subst f1. clear Hp.
      assert (Ee : o_evals s = o_evals st ++ [(nudge C x0, pr_ret E C x0 st)]).
      { rewrite <- Es0. unfold pr_s4. destruct better; reflexivity. }
      rewrite Es0. rewrite Ee, skipn_app_exact in H1 |- *. exists p, r. split; auto. split; auto.
      destruct H1 as [H1|H1]; [|now destruct H1]. injection H1 as _ <-. exists pf, (List.length (o_heap st)). auto.
    - destruct IH as (p & r & H1 & H2 & H3).
      destruct (C15_pass _ _ _ _ _ _ _ _ _ _ _ _ Hl Hc Hi) as (sp & r1 & v & g & A1 & A2 & A3 & A4 & A5 & A6).
      pose proof (loop_head_Inv E C _ _ _ _ _ _ _ Hl) as I.
      destruct (iv_log _ _ _ _ _ _ _ I) as (v0 & r0 & rest & B1 & _).
      assert (Hsk : skipn (List.length (o_evals st)) (o_evals s')
                    = skipn (List.length (o_evals st)) (o_evals s) ++ [(trial_point s sp, r1)]).
      { rewrite A2, B1, <- app_assoc, !skipn_app_exact. reflexivity. }
      rewrite Hsk. destruct (accepts C s sp v g) eqn:Ea.
      + destruct A6 as (_ & _ & A6 & _). exists (trial_point s sp), r1.
        split; [apply in_or_app; right; now left|]. split; [|auto].
        apply check_continue_true in Hc as (-> & _).
        apply iteration_ok in Hi as (sp' & fn & K).
        pose proof (ik_evals _ _ _ _ _ _ _ _ K) as Ke.
        change (o_evals (set_o_clk (S (o_clk s)) s)) with (o_evals s) in Ke.
        rewrite A2 in Ke. apply app_inv_head in Ke. injection Ke as Kt Kr.
        destruct (ev_pf _ _ _ _ _ (ik_ev _ _ _ _ _ _ _ _ K)) as (pf & Hpf & Hty).
        pose proof (ev_tr _ _ _ _ _ (ik_ev _ _ _ _ _ _ _ _ K)) as Htr. apply proposes_it_tr in Htr.
        destruct A1 as [A1 _]. destruct Htr as [Htr _].
        assert (Htr2 : trust_region (e_la E) (deref s (o_x s)) (o_grad s) (o_hess s)
           (map (fun p => nsqrt (nabs (fst p))) (affine_scaling (deref s (o_x s)) (o_grad s) (c_lb C) (c_ub C)))
           (o_delta s) (map snd (affine_scaling (deref s (o_x s)) (o_grad s) (c_lb C) (c_ub C)))
           (pymax (op_theta_max (c_opts C)) (n1 - norm_inf (vmul (map fst (affine_scaling (deref s (o_x s)) (o_grad s) (c_lb C) (c_ub C))) (o_grad s))))
           (c_lb C) (c_ub C) (op_subspace_dim (c_opts C)) (op_stepback (c_opts C)) = Ok sp') by exact Htr.
        assert (sp' = sp) as ->.
        { cbv zeta in A1. rewrite A1 in Htr2. now injection Htr2. }
        destruct (value_typed C _ _ _ _ _ Hpf Hty) as [Hv Hg]. rewrite <- Kr in Hv, Hg.
        rewrite A4 in Hv. rewrite A5 in Hg. injection Hv as ->. injection Hg as ->.
        pose proof (ik_f' _ _ _ _ _ _ _ _ K) as Kf. rewrite (it_acc_accepts E C s sp fn (S (o_clk s))), Ea in Kf.
        subst f'. exists pf, (List.length (o_heap s)). rewrite Kr. split; auto.
        rewrite <- (iv_len _ _ _ _ _ _ _ I). exact Hty.
      + destruct A6 as (_ & _ & _ & _ & A6 & A7 & ->). exists p, r.
        split; [apply in_or_app; now left|]. split; auto. rewrite A7. exact H3.
  Qed.

  (** the model Hessian after an accepted step: the objective's own Hessian without a scheme; with a scheme, the matrix of
      the scheme after it was told the step taken, the new gradient minus the old one, the new residuals and Jacobian and
      those of the point it came from *)
  Theorem C15_update_data f s s1 f' s' :
    head f s -> check_continue E C s = (Ok true, s1) -> iteration E C f s1 = (Ok f', s') ->
    exists sp p_old r_old r v g,
      proposes E C s sp
      /\ o_evals s' = o_evals s ++ [(trial_point s sp, r)]
      /\ In (p_old, r_old) (skipn (List.length (o_evals st)) (o_evals s))
      /\ (deref s (o_x s) = p_old \/ deref s (o_x s) = nudge C p_old)
      /\ value_of C r = Some v /\ gradient_of C r = Some g /\ gradient_of C r_old = Some (o_grad s)
      /\ (accepts C s sp v g = true ->
          match o_happ s with
          | None => hessian_of C r = Some (o_hess s') /\ o_happ s' = None
          | Some h => exists h' res_old jac_old res jac,
              residuals_of C r_old = Some (res_old, jac_old) /\ residuals_of C r = Some (res, jac)
              /\ told (vadd (st_s sp) (st_s0 sp)) (vsub g (o_grad s)) (o_since s') (o_ninter s') (o_iter s')
                   (hessian_of C r) res res_old jac jac_old h h'
              /\ o_happ s' = Some h' /\ o_hess s' = h_mat h'
          end).
  Proof.
    intros Hl Hc Hi. destruct (held_evaluation _ _ Hl) as (po & ro & G1 & (pfo & ko & G2 & G3) & G4).
    pose proof (loop_head_Inv E C _ _ _ _ _ _ _ Hl) as I.
    destruct (C15_hessian_after_acceptance _ _ _ _ _ _ _ _ _ _ _ _ Hl Hc Hi) as (sp & r & v & g & pf & A1 & A2 & A3 & A4 & A5 & A6).
    exists sp, po, ro, r, v, g. do 4 (split; auto). split; auto. split; auto.
    destruct (value_typed C _ _ _ _ _ G2 G3) as [Gv Gg].
    destruct (iv_fx _ _ _ _ _ _ _ I) as (_ & _ & F3). rewrite F3 in Gg. split; auto.
    intros Ha. specialize (A6 Ha). destruct (o_happ s) as [h|].
    - destruct A6 as (h' & fn & B1 & B2 & B3 & B4).
      destruct (value_typed C _ _ _ _ _ A3 B2) as [Bv Bg]. rewrite A5 in Bg. injection Bg as Bg.
      pose proof (typed_fout_inv _ _ _ _ B2) as (_ & _ & _ & _ & Br & Bj & Bh).
      pose proof (typed_fout_inv _ _ _ _ G3) as (_ & _ & _ & _ & Gr & Gj & _).
      exists h', (fo_res f), (fo_sres f), (fo_res fn), (fo_sres fn).
      unfold residuals_of, hessian_of. rewrite G2, A3.
      split; [congruence|]. split; [congruence|]. split; [|auto].
      assert (EH : match pf_hess pf with PMat _ rows => Some rows | _ => None end = fo_hess fn).
      { destruct (fo_hess fn); [destruct Bh as (nc & -> & _)|rewrite Bh]; auto. }
      rewrite EH. unfold happ_update in B1. rewrite <- Bg in B1. unfold told, mTvec in *.
      destruct h as [i|i b k sw|i b t sw|i b tol|sh].
      + now injection B1.
      + destruct (fo_hess fn); [|discriminate]. eexists; split; [reflexivity|]. now injection B1.
      + destruct (fo_hess fn); [|discriminate]. eexists; split; [reflexivity|]. now injection B1.
      + destruct (fo_hess fn); [|discriminate]. eexists; split; [reflexivity|]. exact B1.
      + destruct (fo_hess fn); [|discriminate]. eexists; split; [reflexivity|]. injection B1 as <-.
        destruct (sh_kind sh); reflexivity.
    - destruct A6 as (nc & B1 & B2). unfold hessian_of. rewrite A3, B1. auto.
  Qed.
End UpdateProps.
