(** C19  persistent rejection stops the run *)
From Coq Require Import ZArith List Bool String Lia Reals Lra.
From Flocq Require Import Core BinarySingleNaN.
From Verif Require Import Num Constants Subproblem HessApprox Steps TrustRegion Minimize
  ER F64 NumFacts MonadFacts MinFacts Spec Run RunInv TRErr RunFrame Prop_Run.
Import ListNotations.
Local Open Scope num_scope.

Section Reject.
  Context {T : Type} {N : Num T} {L : NumLaws T}.
  Local Notation vec := (list T).
  Variable E : env T.
  Variable C : cfg T.
  Variables (ndim : nat) (x0 : vec) (sid : option string) (h0 : hess0_arg T).
  Variable st : opt T.
  Local Notation O := (c_opts C).
  Local Notation head := (loop_head E C ndim x0 sid h0 st).

  (** from loop head (f, s) the next pass completes in (f', s'), its trial being rejected and its ratio
      being a number *)
  Definition rejected_pass (f : fout T) (s : opt T) (f' : fout T) (s' : opt T) : Prop :=
    exists s1 sp v g,
      check_continue E C s = (Ok true, s1) /\ iteration E C f s1 = (Ok f', s')
      /\ proposes E C s sp
      /\ value_of C (e_obj E (List.length (o_evals s)) (trial_point s sp)) = Some v
      /\ gradient_of C (e_obj E (List.length (o_evals s)) (trial_point s sp)) = Some g
      /\ accepts C s sp v g = false
      /\ nisnan (tr_ratio_of C s sp v g) = false.
  (** k such passes in a row *)
  Inductive rejections : nat -> fout T -> opt T -> fout T -> opt T -> Prop :=
  | rj_0 f s : rejections 0 f s f s
  | rj_S k f s f1 s1 f2 s2 :
      rejections k f s f1 s1 -> rejected_pass f1 s1 f2 s2 -> rejections (S k) f s f2 s2.

  Lemma rejections_head k f s f' s' : head f s -> rejections k f s f' s' -> head f' s'.
  Proof.
    intros Hl H. induction H as [|k f s f1 s1 f2 s2 _ IH (s3 & sp & v & g & H1 & H2 & _)]; auto.
    eapply lh_next; [exact (IH Hl)|exact H1|exact H2].
  Qed.

  Lemma ratio_le_0 s sp v g : accepts C s sp v g = false -> nisnan (tr_ratio_of C s sp v g) = false ->
    tr_ratio_of C s sp v g <=? n0 = true.
  Proof.
    unfold accepts, tr_ratio_of. intros Ha Hn.
    assert (H0 : (n0 : T) <=? n0 = true) by (rewrite emb_leb, emb_0; er_cases).
    destruct (nisfin v); simpl in *; auto.
    destruct (predicted_decrease sp <=? n0) eqn:Ep; auto.
    apply not_lt_le; auto.
    - rewrite emb_isnan, emb_0. reflexivity.
    - apply andb_false_iff in Ha as [Ha|Ha]; auto.
      exfalso. destruct (nisnan (predicted_decrease sp)) eqn:En.
      + rewrite (div_nan_r _ _ En) in Hn. discriminate.
      + apply not_lt_le in Ha; auto; [congruence|]. rewrite emb_isnan, emb_0. reflexivity.
  Qed.

  (** a rejected pass shrinks the radius to min(gamma1 * delta, |step| / 4) *)
  Theorem C19_rejection_shrinks f s f' s' :
    n0 <=? op_mu O = true -> n0 <? op_eta O = true ->
    head f s -> rejected_pass f s f' s' ->
    exists sp, proposes E C s sp
      /\ o_delta s' = nanmin2 (o_delta s * op_gamma1 O) (scaled_length sp / nofZ 4).
  Proof.
    intros Hmu Heta Hl (s1 & sp & v & g & Hc & Hi & Hp & Hv & Hg & Ha & Hn).
    destruct (C14_radius_rule E C _ _ _ _ _ _ _ _ _ _ Hl Hc Hi) as (sp' & r & v' & g' & Hp' & He & Hv' & Hg' & _ & Hd).
    assert (sp' = sp).
    { destruct Hp as [Hp _], Hp' as [Hp' _]. rewrite Hp in Hp'. now injection Hp'. }
    subst sp'. destruct (C15_pass E C _ _ _ _ _ _ _ _ _ _ Hl Hc Hi) as (sp' & r' & v2 & g2 & Hp2 & He2 & Hr2 & _).
    assert (sp' = sp).
    { destruct Hp as [Hp _], Hp2 as [Hp2 _]. rewrite Hp in Hp2. now injection Hp2. }
    subst sp'.
    assert (r = r') as ->.
    { rewrite He in He2. apply app_inv_head in He2. now injection He2. }
    rewrite <- Hr2 in Hv, Hg. rewrite Hv in Hv'. injection Hv' as <-. rewrite Hg in Hg'. injection Hg' as <-.
    exists sp. split; auto. rewrite Hd. unfold radius_rule.
    pose proof (ratio_le_0 _ _ _ _ Ha Hn) as Hr.
    assert (He' : op_eta O <=? tr_ratio_of C s sp v g = false).
    { apply lt_not_le. eapply le_lt_trans; eauto. }
    rewrite He'. simpl. rewrite andb_false_r.
    rewrite (le_trans _ _ _ Hr Hmu). now rewrite orb_true_r.
  Qed.

  Lemma nanmin2_le (a b : T) : nisnan a = false -> nanmin2 a b <=? a = true.
  Proof.
    intros Hn. unfold nanmin2. rewrite Hn. destruct (nisnan b); [now apply le_refl|].
    destruct (b <? a) eqn:El; [now apply lt_le|now apply le_refl].
  Qed.
  Lemma nanmin2_notnan (a b : T) : nisnan a = false -> nisnan (nanmin2 a b) = false.
  Proof. intros Hn. unfold nanmin2. rewrite Hn. destruct (nisnan b) eqn:Eb; auto. destruct (_ <? _); auto. Qed.

  (** a NaN ratio, on the other hand, rejects the step and keeps the radius *)
  Theorem C19_nan_ratio_keeps_radius f s s1 f' s' :
    head f s -> check_continue E C s = (Ok true, s1) -> iteration E C f s1 = (Ok f', s') ->
    nisnan (o_tr_ratio s') = true ->
    o_delta s' = o_delta s /\ o_x s' = o_x s /\ o_fval s' = o_fval s.
  Proof.
    intros Hl Hc Hi Hn.
    destruct (C14_radius_rule E C _ _ _ _ _ _ _ _ _ _ Hl Hc Hi) as (sp & r & v & g & Hp & He & Hv & Hg & Hr & Hd).
    destruct (C15_pass E C _ _ _ _ _ _ _ _ _ _ Hl Hc Hi) as (sp' & r' & v2 & g2 & Hp2 & He2 & _ & Hv2 & Hg2 & Hif).
    assert (sp' = sp).
    { destruct Hp as [Hp _], Hp2 as [Hp2 _]. rewrite Hp in Hp2. now injection Hp2. }
    subst sp'.
    assert (r = r') as <-.
    { rewrite He in He2. apply app_inv_head in He2. now injection He2. }
    rewrite Hv in Hv2. injection Hv2 as <-. rewrite Hg in Hg2. injection Hg2 as <-.
    rewrite Hr in Hn.
    assert (Ha : accepts C s sp v g = false).
    { unfold accepts, tr_ratio_of in *. destruct (nisfin v); simpl in *; auto.
      destruct (predicted_decrease sp <=? n0); [rewrite emb_isnan, emb_0 in Hn; discriminate Hn|].
      rewrite (nan_lt_r _ _ Hn). now rewrite andb_false_r. }
    rewrite Ha in Hif. destruct Hif as (F & _ & _ & _ & X & _).
    split; auto. rewrite Hd. unfold radius_rule.
    rewrite (nan_le_r _ _ Hn), (nan_le_l _ _ Hn). simpl. rewrite andb_false_r, orb_false_r.
    unfold tr_ratio_of in Hn. destruct (nisfin v); auto. simpl in Hn.
    rewrite emb_isnan, emb_0 in Hn. discriminate Hn.
  Qed.

  (** *** bound along a sequence of real numbers that the rounding fixes *)
  Lemma rejections_bound (b : nat -> R) (K : nat) k f s f' s' :
    n0 <=? op_mu O = true -> n0 <? op_eta O = true ->
    (forall i, (i <= K)%nat -> (0 < b i)%R /\ rnd (T := T) (Fin (b i)) = Fin (b i)) ->
    (exists g1, emb (op_gamma1 O) = Fin g1 /\ (0 <= g1)%R /\
       forall i, (S i <= K)%nat -> (b i * g1 <= b (S i))%R) ->
    n0 <=? o_delta s = true -> er_leb (emb (o_delta s)) (Fin (b 0%nat)) = true ->
    head f s -> rejections k f s f' s' -> (k <= K)%nat ->
    n0 <=? o_delta s' = true /\ er_leb (emb (o_delta s')) (Fin (b k)) = true.
  Proof.
    intros Hmu Heta Hb (g1 & Hg1 & Hg0 & Hstep) Hd0 Hd Hl Hrj.
    induction Hrj as [f s|k f s f1 s1 f2 s2 Hrj IH Hp]; intros HK; auto.
    assert (Hl1 : head f1 s1) by (eapply rejections_head; eauto).
    destruct (IH Hd0 Hd Hl ltac:(lia)) as [I1 I2].
    destruct (C19_rejection_shrinks _ _ _ _ Hmu Heta Hl1 Hp) as (sp & _ & ->).
    destruct (emb (o_delta s1)) as [d| | |] eqn:Ed; try discriminate.
    2:{ rewrite emb_leb, Ed, emb_0 in I1. discriminate. }
    simpl in I2. destruct (Rleb_spec d (b k)) as [I2'|]; [|discriminate].
    rewrite emb_leb, emb_0, Ed in I1. simpl in I1. destruct (Rleb_spec 0 d) as [I1'|]; [|discriminate].
    assert (Hm : er_leb (Fin 0) (emb (o_delta s1 * op_gamma1 O)) = true
                 /\ er_leb (emb (o_delta s1 * op_gamma1 O)) (Fin (b (S k))) = true).
    { rewrite emb_mul, Ed, Hg1. simpl.
      assert (Hp1 : (0 <= d * g1)%R) by (apply Rmult_le_pos; auto).
      assert (Hp2 : (d * g1 <= b (S k))%R).
      { eapply Rle_trans; [|apply (Hstep k); lia]. apply Rmult_le_compat_r; auto. }
      split.
      - apply rnd_nonneg. simpl. destruct (Rleb_spec 0 (d * g1)); auto.
      - destruct (Hb (S k)) as [_ Hr]; [lia|]. rewrite <- Hr. apply rnd_mono. simpl.
        destruct (Rleb_spec (d * g1) (b (S k))); auto. }
    destruct Hm as [M1 M2].
    assert (Hn : nisnan (o_delta s1 * op_gamma1 O) = false).
    { rewrite emb_isnan. now apply er_le_nan in M1. }
    split.
    - destruct (nanmin2_cases (o_delta s1 * op_gamma1 O) (scaled_length sp / nofZ 4)) as [Heq| Heq].
      + rewrite Heq. rewrite emb_leb, emb_0. exact M1.
      + assert (Hnn : nn (scaled_length sp / nofZ 4)).
        { apply nn_div; [apply norm_nn|]. rewrite emb_ltb, emb_0, emb_ofZ by (simpl; lia). er_cases. }
        apply nn_emb in Hnn. rewrite <- emb_isnan in Hnn. destruct Hnn as [Hnan|Hle].
        * pose proof (nanmin2_notnan _ (scaled_length sp / nofZ 4) Hn) as Hnn. rewrite Heq in Hnn. congruence.
        * rewrite Heq, emb_leb, emb_0. exact Hle.
    - eapply er_le_trans; [|exact M2]. rewrite <- emb_leb. now apply nanmin2_le.
  Qed.
End Reject.

(** *** exact arithmetic: geometric decrease *)
Section Exact.
  Variable E : env ER.
  Variable C : cfg ER.
  Variables (ndim : nat) (x0 : list ER) (sid : option string) (h0 : hess0_arg ER) (st : opt ER).
  Local Notation O := (c_opts C).
  Local Notation head := (loop_head E C ndim x0 sid h0 st).

  Theorem C19_geometric_decrease k f s f' s' d g1 mu eta :
    op_mu O = Fin mu -> op_eta O = Fin eta -> op_gamma1 O = Fin g1 -> o_delta s = Fin d ->
    (0 <= mu -> 0 < eta -> 0 < g1 -> 0 < d ->
     head f s -> rejections E C k f s f' s' ->
     exists d', o_delta s' = Fin d' /\ 0 <= d' <= d * g1 ^ k)%R.
  Proof.
    intros Hmu Heta Hg Hd Hmu0 Heta0 Hg0 Hd0 Hl Hr.
    destruct (rejections_bound E C ndim x0 sid h0 st (fun i => d * g1 ^ i)%R k k f s f' s') as [B1 B2]; auto.
    - rewrite Hmu. simpl. destruct (Rleb_spec 0 mu); auto.
    - rewrite Heta. simpl. destruct (Rltb_spec 0 eta); auto.
    - intros i _. split; auto. apply Rmult_lt_0_compat; auto. now apply pow_lt.
    - exists g1. split; [exact Hg|]. split; [lra|]. intros i _. simpl. lra.
    - rewrite Hd. simpl. destruct (Rleb_spec 0 d); auto; lra.
    - rewrite Hd. simpl. destruct (Rleb_spec d (d * 1)); auto; lra.
    - simpl in B1, B2. destruct (o_delta s') as [d'| | |]; try discriminate. exists d'. split; auto.
      simpl in *. destruct (Rleb_spec 0 d'), (Rleb_spec d' (d * g1 ^ k)); try discriminate. split; auto.
  Qed.
  (** so the run stops as soon as gamma1^k delta < 2^-52 *)
  Theorem C19_stops k f s f' s' d g1 mu eta :
    op_mu O = Fin mu -> op_eta O = Fin eta -> op_gamma1 O = Fin g1 -> o_delta s = Fin d ->
    (0 <= mu -> 0 < eta -> 0 < g1 -> 0 < d ->
     head f s -> rejections E C k f s f' s' -> d * g1 ^ k < / 2 ^ 52 ->
     exists s1, check_continue E C s' = (Ok false, s1))%R.
  Proof.
    intros Hmu Heta Hg Hd Hmu0 Heta0 Hg0 Hd0 Hl Hr Hs.
    destruct (C19_geometric_decrease k f s f' s' d g1 mu eta) as (d' & Hd' & _ & Hle); auto.
    rewrite check_continue_run. destruct o_conv; eauto. destruct (_ <=? _)%Z; eauto. cbv zeta.
    destruct out_of_time; eauto.
    replace (o_delta s' <? spacing1)%num with true; eauto.
    rewrite Hd'. symmetry.
    change (er_ltb (Fin d') (er_div (Fin 1) (Fin (IZR (2 ^ 52)))) = true).
    replace (er_div (Fin 1) (Fin (IZR (2 ^ 52)))) with (Fin (/ 2 ^ 52)).
    - unfold er_ltb. destruct (Rltb_spec d' (/ 2 ^ 52)) as [|Hnl]; auto. exfalso. apply Hnl. lra.
    - unfold er_div. replace (IZR (2 ^ 52)) with (2 ^ 52)%R by (rewrite pow_IZR; reflexivity).
      destruct (Reqb_spec (2 ^ 52) 0) as [Hz|_].
      + exfalso. revert Hz. apply pow_nonzero. lra.
      + f_equal. unfold Rdiv. now rewrite Rmult_1_l.
  Qed.
End Exact.

(** *** double precision: the same with powers of two, which are represented exactly *)
Lemma f_rnd_bpow m : (-1074 <= m < 1024)%Z -> f_rnd (Fin (bpow radix2 m)) = Fin (bpow radix2 m).
Proof.
  intros Hm. unfold f_rnd, rne.
  rewrite round_generic; auto with typeclass_instances.
  - rewrite Rlt_bool_true; auto. rewrite Rabs_pos_eq by apply bpow_ge_0. apply bpow_lt. unfold emax64. lia.
  - apply generic_format_bpow. unfold SpecFloat.fexp, SpecFloat.emin, prec64, emax64. lia.
Qed.

Section Doubles.
  Variable E : env F64.
  Variable C : cfg F64.
  Variables (ndim : nat) (x0 : list F64) (sid : option string) (h0 : hess0_arg F64) (st : opt F64).
  Local Notation O := (c_opts C).
  Local Notation head := (loop_head E C ndim x0 sid h0 st).

  Theorem C19_halving_doubles k f s f' s' (j : Z) :
    n0 <=? op_mu O = true -> n0 <? op_eta O = true ->
    n0 <=? op_gamma1 O = true -> op_gamma1 O <=? nhalf = true ->
    (0 <= j < 1024)%Z -> n0 <=? o_delta s = true -> (B2R (o_delta s) <= bpow radix2 j)%R ->
    is_finite (o_delta s) = true ->
    head f s -> rejections E C k f s f' s' -> (Z.of_nat k <= j + 1074)%Z ->
    is_finite (o_delta s') = true /\ (0 <= B2R (o_delta s') <= bpow radix2 (j - Z.of_nat k))%R.
  Proof.
    intros Hmu Heta Hg0 Hg Hj Hd0 Hd Hfin Hl Hr Hk.
    assert (Hg1 : exists g1, f_emb (op_gamma1 O) = Fin g1 /\ (0 <= g1)%R /\ (g1 <= / 2)%R).
    { rewrite emb_leb in Hg0, Hg.
      assert (Hh : emb (nhalf : F64) = Fin (/ 2)).
      { unfold nhalf, nfrac. rewrite emb_div; rewrite !emb_ofZ by (simpl; lia).
        - change rnd with f_rnd. simpl er_div. destruct (Reqb_spec 2 0); [exfalso; lra|].
          replace (1 / 2)%R with (bpow radix2 (-1)) by (simpl; lra). rewrite f_rnd_bpow by lia. reflexivity.
        - intros H. injection H. lra. }
      rewrite Hh, emb_0 in *. simpl emb in *.
      destruct (f_emb (op_gamma1 O)) as [g| | |]; try discriminate. exists g.
      simpl in *. destruct (Rleb_spec 0 g), (Rleb_spec g (/ 2)); try discriminate. auto. }
    destruct Hg1 as (g1 & G1 & G2 & G3).
    destruct (rejections_bound E C ndim x0 sid h0 st (fun i => bpow radix2 (j - Z.of_nat i)) k k f s f' s') as [B1 B2]; auto.
    - intros i Hi. split; [apply bpow_gt_0|]. apply f_rnd_bpow. lia.
    - exists g1. split; auto. split; auto. intros i Hi.
      replace (j - Z.of_nat i)%Z with (j - Z.of_nat (S i) + 1)%Z by lia.
      rewrite bpow_plus. change (bpow radix2 1) with 2%R.
      pose proof (bpow_gt_0 radix2 (j - Z.of_nat (S i))). nra.
    - change (er_leb (f_emb (o_delta s)) (Fin (bpow radix2 (j - Z.of_nat 0))) = true).
      rewrite (f_emb_fin _ Hfin). simpl.
      rewrite Z.sub_0_r. destruct (Rleb_spec (B2R (o_delta s)) (bpow radix2 j)); auto.
    - rewrite emb_leb in B1. rewrite emb_0 in B1.
      change (er_leb (Fin 0) (f_emb (o_delta s')) = true) in B1.
      change (er_leb (f_emb (o_delta s')) (Fin (bpow radix2 (j - Z.of_nat k))) = true) in B2.
      assert (Hf' : is_finite (o_delta s') = true).
      { rewrite f_emb_isfin. destruct (f_emb (o_delta s')); try discriminate; auto. }
      split; auto. rewrite (f_emb_fin _ Hf') in *. simpl in B1, B2.
      destruct (Rleb_spec 0 (B2R (o_delta s'))), (Rleb_spec (B2R (o_delta s')) (bpow radix2 (j - Z.of_nat k)));
        try discriminate. split; auto.
  Qed.
  (** with gamma1 <= 1/2 (default 1/4) and delta <= 2^j, a run stops after at most j + 53
      consecutive rejections *)
  Theorem C19_stops_doubles k f s f' s' (j : Z) :
    n0 <=? op_mu O = true -> n0 <? op_eta O = true ->
    n0 <=? op_gamma1 O = true -> op_gamma1 O <=? nhalf = true ->
    (0 <= j < 1024)%Z -> n0 <=? o_delta s = true -> (B2R (o_delta s) <= bpow radix2 j)%R ->
    is_finite (o_delta s) = true ->
    head f s -> rejections E C k f s f' s' -> (Z.of_nat k = j + 53)%Z ->
    exists s1, check_continue E C s' = (Ok false, s1).
  Proof.
    intros Hmu Heta Hg0 Hg Hj Hd0 Hd Hfin Hl Hr Hk.
    destruct (C19_halving_doubles k f s f' s' j) as [Hf' [_ Hle]]; auto; [lia|].
    rewrite check_continue_run. destruct o_conv; eauto. destruct (_ <=? _)%Z; eauto. cbv zeta.
    destruct out_of_time; eauto.
    replace (o_delta s' <? spacing1)%num with true; eauto.
    symmetry. rewrite emb_ltb.
    change (er_ltb (f_emb (o_delta s')) (f_emb (spacing1 : F64)) = true). rewrite (f_emb_fin _ Hf').
    assert (Hs : f_emb (spacing1 : F64) = Fin (bpow radix2 (-52))).
    { change f_emb with (emb (T := F64)). unfold spacing1, nfrac. rewrite emb_div; rewrite !emb_ofZ by (simpl; lia).
      - change rnd with f_rnd.
        replace (er_div (Fin 1) (Fin (IZR (2 ^ 52)))) with (Fin (bpow radix2 (-52))).
        + now rewrite f_rnd_bpow by lia.
        + unfold er_div. destruct (Reqb_spec (IZR (2 ^ 52)) 0) as [Hz|_].
          * exfalso. revert Hz. apply not_0_IZR. discriminate.
          * f_equal. change (/ IZR (2 ^ 52) = 1 / IZR (2 ^ 52))%R. unfold Rdiv. now rewrite Rmult_1_l.
      - intros H. injection H. apply not_0_IZR. discriminate. }
    rewrite Hs. unfold er_ltb. destruct (Rltb_spec (B2R (o_delta s')) (bpow radix2 (-52))) as [|Hnl]; auto.
    exfalso. apply Hnl. eapply Rle_lt_trans; [exact Hle|]. apply bpow_lt. lia.
  Qed.
End Doubles.
