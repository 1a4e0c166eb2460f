(** C42, C46, C51 for whole runs of minimize: the matrix of every quadratic model *)
From Coq Require Import String ZArith List Bool Reals Lra Lia Psatz.
From Verif Require Import Num Constants Subproblem HessApprox Steps TrustRegion Minimize
  ER NumFacts MonadFacts MinFacts Spec Run RunInv HessRun RVec Quasi Prop_Quasi Prop_Quasi2 Prop_Sym Prop_LSQ.
Import ListNotations.
Local Open Scope R_scope.
Local Open Scope list_scope.

(** *** what non-finite entries do *)
Notation nf x := (er_isfin x = false).
Lemma nf_add a b : nf a \/ nf b -> nf (er_add a b).
Proof. destruct a, b; simpl; intros [H|H]; auto; discriminate. Qed.
Lemma infmul_nf p x : nf (er_infmul p x).
Proof. unfold er_infmul. destruct Rltb, p; auto; destruct Rltb; auto. Qed.
Lemma nf_mul a b : nf a \/ nf b -> nf (er_mul a b).
Proof. destruct a, b; simpl; intros [H|H]; auto; try discriminate; apply infmul_nf. Qed.
Lemma nf_div a b : nf a -> nf b -> er_div a b = NaN.
Proof. destruct a, b; simpl; intros H1 H2; auto; discriminate. Qed.
Lemma nf_vsum v : Exists (fun x : ER => nf x) v -> nf (vsum v).
Proof. unfold vsum. induction 1; simpl; apply nf_add; auto. Qed.
Lemma fin_vsum v : er_isfin (vsum v) = true -> vfinite v = true.
Proof.
  intros H. destruct (vfinite v) eqn:E; auto. rewrite nf_vsum in H; [discriminate|].
  clear H. induction v as [|a v IH]; [discriminate|]. simpl in E. apply andb_false_iff in E as [E|E]; auto.
Qed.
Lemma nf_dot a : forall b, length a = length b -> Exists (fun x : ER => nf x) b -> nf (dot a b).
Proof.
  intros b Hl H. apply nf_vsum. revert a Hl. induction H as [x b H|x b H IH]; intros [|y a] Hl; try discriminate; simpl.
  - apply Exists_cons_hd. apply nf_mul. auto.
  - apply Exists_cons_tl. apply IH. simpl in Hl. lia.
Qed.
Lemma nf_dot_l a : forall b, length a = length b -> Exists (fun x : ER => nf x) a -> nf (dot a b).
Proof.
  intros b Hl H. apply nf_vsum. revert b Hl. induction H as [x a H|x a H IH]; intros [|y b] Hl; try discriminate; simpl.
  - apply Exists_cons_hd. apply nf_mul. auto.
  - apply Exists_cons_tl. apply IH. simpl in Hl. lia.
Qed.
Lemma vfinite_false (v : list ER) : vfinite v = false -> exists i, (i < length v)%nat /\ nf (nth i v nnan).
Proof.
  induction v as [|a v IH]; [discriminate|]. simpl. intros H. apply andb_false_iff in H as [H|H].
  - exists 0%nat. simpl. split; [lia|exact H].
  - destruct (IH H) as (i & Hi & E). exists (S i). split; [lia|exact E].
Qed.
Lemma nf_Exists (v : list ER) i : (i < length v)%nat -> nf (nth i v nnan) -> Exists (fun x => nf x) v.
Proof.
  intros Hi H. apply Exists_exists. exists (nth i v nnan). split; auto. now apply nth_In.
Qed.
Lemma mfinite_cell n (m : list (list ER)) i j : square n m -> (i < n)%nat -> (j < n)%nat ->
  mfinite m = true -> er_isfin (cell m i j) = true.
Proof.
  intros Hs Hi Hj H. unfold mfinite, vfinite in H. rewrite forallb_forall in H.
  pose proof (square_row n m i Hs Hi) as Hr. destruct Hs as [Hs _].
  assert (Hin : In (nth i m []) m) by (apply nth_In; lia). apply H in Hin. rewrite forallb_forall in Hin.
  unfold cell. apply (Hin (nth j (nth i m []) nnan)). apply nth_In. lia.
Qed.
Lemma square_fm n A : is_mat n n A -> square n (fm A).
Proof.
  intros [H1 H2]. split; [now rewrite fm_length|]. unfold fm. apply Forall_map. eapply Forall_impl; [|exact H2].
  intros r Hr. now rewrite fv_length.
Qed.
Lemma mat_of n (m : list (list ER)) : square n m -> mfinite m = true -> exists B, m = fm B /\ is_mat n n B.
Proof.
  intros [H1 H2] Hf. apply mfinite_inv in Hf as [B ->]. exists B. split; auto. split; [now rewrite fm_length in H1|].
  unfold fm in H2. rewrite Forall_map in H2. eapply Forall_impl; [|exact H2]. intros r Hr. cbv beta in Hr. unfold fv in Hr. now rewrite map_length in Hr.
Qed.

(** an infinite or NaN entry in the pair poisons the update *)
Lemma broyden_square n y s (m : list (list ER)) phi en : length y = n -> square n m ->
  square n (broyden_class_update y s m phi en).
Proof.
  intros Hy Hm. unfold broyden_class_update. cbv zeta.
  assert (Hu : length (matvec m s) = n) by (unfold matvec; rewrite map_length; apply Hm).
  destruct (_ && _); [now apply square_map|].
  assert (Hd : forall (v : list ER) c, length v = n -> square n (mdivs (outer v v) c)).
  { intros v c Hv. apply (square_map n (fun x => x / c)%num), square_outer, Hv. }
  assert (H1 : square n (msub (mdivs (outer y y) (dot y s)) (mdivs (outer (matvec m s) (matvec m s)) (dot (matvec m s) s)))).
  { apply square_map2; apply Hd; auto. }
  destruct (negb _); auto. apply square_map2; auto.
  apply (square_map n (fun x => _ * x)%num), square_outer. unfold vsub, vdivs. rewrite map2_len, map_length; auto.
  rewrite !map_length. congruence.
Qed.
Lemma broyden_poison n y s (m : list (list ER)) phi en i : length y = n -> square n m -> (i < n)%nat ->
  ((dot y s <=? n0) && en)%num = false ->
  (nf (nth i y nnan) /\ nf (dot y s)) \/ (nf (nth i (matvec m s) nnan) /\ nf (dot (matvec m s) s)) ->
  cell (broyden_class_update y s m phi en) i i = NaN.
Proof.
  intros Hy Hm Hi Hg Hc. unfold broyden_class_update. cbv zeta. rewrite Hg.
  assert (Hu : length (matvec m s) = n) by (unfold matvec; rewrite map_length; apply Hm).
  assert (Hd : forall (v : list ER) c, length v = n -> square n (mdivs (outer v v) c)).
  { intros v c Hv. apply (square_map n (fun x => x / c)%num), square_outer, Hv. }
  set (u := matvec m s) in *.
  assert (H1 : cell (msub (mdivs (outer y y) (dot y s)) (mdivs (outer u u) (dot u s))) i i = NaN).
  { unfold msub, vsub. rewrite (cell_map2 n) by auto.
    change (mdivs (outer y y) (dot y s)) with (map (map (fun x => (x / dot y s)%num)) (outer y y)).
    change (mdivs (outer u u) (dot u s)) with (map (map (fun x => (x / dot u s)%num)) (outer u u)).
    rewrite !(cell_map n), !(cell_outer n) by (auto; apply square_outer; auto).
    cbn [ndiv nsub nmul ERNum].
    destruct Hc as [[C1 C2]|[C1 C2]].
    - rewrite (nf_div (er_mul _ _)) by (auto; apply nf_mul; auto). reflexivity.
    - rewrite (nf_div (er_mul (nth i u nnan) _)) by (auto; apply nf_mul; auto). now destruct er_div. }
  destruct (negb _); auto. unfold madd, vadd. rewrite (cell_map2 n); auto.
  - rewrite H1. reflexivity.
  - apply square_map2; auto.
  - apply (square_map n (fun x => _ * x)%num), square_outer. unfold vsub, vdivs. rewrite map2_len, map_length; auto.
    rewrite !map_length. congruence.
Qed.
Lemma nf_matvec n (m : list (list ER)) s i : square n m -> length s = n -> vfinite s = false -> (i < n)%nat ->
  nf (nth i (matvec m s) nnan).
Proof.
  intros Hm Hs Hf Hi. unfold matvec. rewrite (nth_map_in _ m i [] nnan) by (destruct Hm; lia).
  apply vfinite_false in Hf as (k & Hk & Ek). apply nf_dot; [rewrite (square_row n); auto|].
  now apply (nf_Exists _ k).
Qed.
Lemma zeros_add n B : is_mat n n B -> madd (fm B) (mzeros_like (fm B)) = fm B.
Proof. intros H. rewrite h_mzeros, h_madd. f_equal. now apply (rmadd_zero n). Qed.

(** the matrix the optimizer starts with: the identity, or the caller's hess0 *)
Definition starts_spd (n : nat) (h0 : hess0_arg ER) : Prop :=
  h0 = H0None \/ exists B, h0 = H0Mat (fm B) /\ is_mat n n B /\ symmetric B /\ posdef n B.

Lemma hb_init_spd n h0 pf arg b : starts_spd n h0 -> pr_hess0 h0 pf = Ok arg -> hb_init n arg = Ok b ->
  exists B, hb_hess b = fm B /\ is_mat n n B /\ symmetric B /\ posdef n B.
Proof.
  intros [-> | (B & -> & H1 & H2 & H3)] Ha Hb; cbn [pr_hess0] in Ha; apply ok_inj in Ha; subst arg; unfold hb_init in Hb.
  - apply ok_inj in Hb. subst b. exists (reye n). split; [apply h_eye|]. split; [apply is_mat_eye|]. split; [apply symmetric_eye|apply posdef_eye].
  - destruct Nat.eqb; [|discriminate]. apply ok_inj in Hb. subst b. exists B. auto.
Qed.

Section Runs.
  Variable E : env ER.
  Variable C : cfg ER.

  (** Every quadratic model of a run with BFGS, DFP or Broyden's class (phi in [0,1], curvature condition
      enforced) has a symmetric positive definite matrix, whatever the objective and the subproblem solver do.
      (A matrix with an infinite or NaN entry makes the next pass raise, C18.) *)
  Theorem C42_run_positive_definite : forall ndim x0 sid h0 st f s i phi,
    0 <= phi <= 1 -> o_happ st = Some (HIter i) -> ih_kind i = IBroyden (Fin phi) true ->
    starts_spd (length x0) h0 ->
    loop_head E C ndim x0 sid h0 st f s -> mfinite (o_hess s) = true ->
    exists B, o_hess s = fm B /\ is_mat (length x0) (length x0) B /\ symmetric B /\ posdef (length x0) B.
  Proof.
    intros ndim x0 sid h0 st f s i phi Hphi Hh Hk H0 HL. set (n := length x0) in *.
    assert (HP : exists j, o_happ s = Some (HIter j) /\ ih_kind j = IBroyden (Fin phi) true /\ o_hess s = ih_mat j
      /\ (mfinite (o_hess s) = true -> exists B, o_hess s = fm B /\ is_mat n n B /\ symmetric B /\ posdef n B)).
    2:{ destruct HP as (j & _ & _ & _ & HP). exact HP. }
    revert HL. apply (run_hess_ind E C ndim x0 sid h0 st (fun hess h => exists j, h = Some (HIter j)
      /\ ih_kind j = IBroyden (Fin phi) true /\ hess = ih_mat j
      /\ (mfinite hess = true -> exists B, hess = fm B /\ is_mat n n B /\ symmetric B /\ posdef n B))).
    - intros hess h pf fo k Hpf Hty Hp. fold n in Hp. unfold pr_hess in Hp. rewrite Hh in Hp.
      destruct (pr_hess0 h0 pf) as [arg|] eqn:Ea; [|discriminate]. cbn [h_init] in Hp. unfold ih_init in Hp.
      destruct (hb_init n arg) as [b|] eqn:Eb; [|discriminate]. injection Hp as <- <-.
      exists (mkIhapp (ih_kind i) b). split; [reflexivity|]. split; [exact Hk|]. split; [reflexivity|]. intros _.
      exact (hb_init_spd n h0 pf arg b H0 Ea Eb).
    - intros hess h sv grad since ninter iter fnew fold k r r' hess' h' (j & -> & Kj & -> & Hspd) Hs Hg Hmf Hgf _ Haf _ Hev _ Hst.
      fold n in Hs, Hg, Hev. unfold hess_step, happ_update in Hst. injection Hst as <- <-.
      destruct (Hspd Hmf) as (B & EB & MB & SB & PB).
      eexists. split; [reflexivity|].
      assert (Ky : exists y, vsub (fo_grad fnew) grad = fv y /\ length y = n).
      { unfold all_finite in Haf. apply andb_true_iff in Haf as [Haf _]. apply andb_true_iff in Haf as [_ Hfg].
        apply vfinite_inv in Hfg as [g1 E1], Hgf as [g2 E2].
        destruct Hev as (pf & k' & _ & Hty). apply typed_fout_inv in Hty as (_ & _ & _ & Hlg & _).
        assert (L1 : length g1 = n) by (rewrite <- (fv_length g1), <- E1; apply Hlg).
        assert (L2 : length g2 = n) by (rewrite <- (fv_length g2), <- E2; exact Hg).
        rewrite E1, E2, h_vsub. eexists. split; [reflexivity|]. rlen. }
      destruct Ky as (y & -> & Ly).
      assert (Ej : j = holding (IBroyden (Fin phi) true) B (ih_diff j)).
      { destruct j as [kj [bj dj]]. cbn [ih_kind] in Kj. unfold ih_mat in EB. cbn [ih_base hb_hess] in EB. subst kj bj. reflexivity. }
      split; [|split; [reflexivity|]].
      { rewrite Ej. reflexivity. }
      destruct (vfinite sv) eqn:Fs.
      + apply vfinite_inv in Fs as [s1 ->]. rewrite fv_length in Hs.
        destruct (C42_step n phi B (ih_diff j) s1 y) as (B' & D' & EB' & H1 & H2 & H3); auto.
        rewrite Ej. cbn [h_mat]. rewrite EB'. intros _. exists B'. split; [reflexivity|]. auto.
      + rewrite Ej. unfold ih_update, holding, ih_mat. cbn [h_mat ih_kind ih_base hb_hess].
        destruct ((dot (fv y) sv <=? n0) && true)%num eqn:Eg.
        * unfold broyden_class_update. cbv zeta. rewrite Eg. cbn [ih_base hb_hess ih_mat]. rewrite (zeros_add n) by auto. intros _. exists B. auto.
        * intros Hfin. exfalso. cbn [ih_base hb_hess ih_mat] in Hfin.
          pose proof (square_fm n B MB) as Sq.
          pose proof (vfinite_false sv Fs) as (i0 & Hi0 & Ei0). rewrite Hs in Hi0.
          assert (K : cell (broyden_class_update (fv y) sv (fm B) (Fin phi) true) i0 i0 = NaN).
          { apply (broyden_poison n); auto; [now rewrite fv_length|]. right.
            split; [now apply (nf_matvec n)|]. apply nf_dot.
            - unfold matvec. rewrite map_length, Hs. apply Sq.
            - apply (nf_Exists _ i0); auto. now rewrite Hs. }
          assert (Sb : square n (broyden_class_update (fv y) sv (fm B) (Fin phi) true)) by (apply broyden_square; auto; now rewrite fv_length).
          assert (Sq2 : square n (madd (fm B) (broyden_class_update (fv y) sv (fm B) (Fin phi) true))) by (apply square_map2; auto).
          pose proof (mfinite_cell n _ i0 i0 Sq2 Hi0 Hi0 Hfin) as Hc.
          unfold madd, vadd in Hc. rewrite (cell_map2 n) in Hc by auto. rewrite K in Hc. cbn [nadd ERNum] in Hc. now destruct (cell (fm B) i0 i0).
  Qed.
End Runs.

(** Broyden's bad method: the matrix of the quadratic model never changes during a run, in any number system *)
Theorem C46_run_never_updates : forall (T : Type) (N : Num T) (L : NumLaws T) (E : env T) (C : cfg T)
  ndim x0 sid h0 st f s f0 s0 i,
  o_happ st = Some (HIter i) -> ih_kind i = IBB ->
  prepare E C ndim x0 sid h0 st = (Ok f0, s0) ->
  loop_head E C ndim x0 sid h0 st f s -> o_hess s = o_hess s0.
Proof.
  intros T N L E C ndim x0 sid h0 st f s f0 s0 i Hh Hk Hp HL.
  assert (HP : (exists b, o_happ s = Some (HIter (mkIhapp IBB b)) /\ hb_hess b = o_hess s0) /\ o_hess s = o_hess s0).
  2:{ apply HP. }
  revert HL. apply (run_hess_ind E C ndim x0 sid h0 st (fun hess h => (exists b, h = Some (HIter (mkIhapp IBB b)) /\ hb_hess b = o_hess s0) /\ hess = o_hess s0)).
  - intros hess h pf fo k Hpf Hty Hph.
    assert (Es : o_hess s0 = hess).
    { apply prepare_inv in Hp. inversion Hp as [| | | | | |pf' hess' h' f' D1 D2 D3 D4 D5 D6 D7 Ef Es0].
      rewrite D3 in Hpf. injection Hpf as <-. rewrite Hph in D4. injection D4 as <- <-.
      unfold pr_s4; destruct better; reflexivity. }
    unfold pr_hess in Hph. rewrite Hh in Hph.
    destruct (pr_hess0 h0 pf) as [arg|]; [|discriminate]. cbn [h_init] in Hph. unfold ih_init in Hph.
    destruct (hb_init _ arg) as [b|]; [|discriminate]. injection Hph as <- <-. rewrite Hk. split; [|symmetry; exact Es].
    exists b. split; [reflexivity|]. rewrite Es. reflexivity.
  - intros hess h sv grad since ninter iter fnew fold k r r' hess' h' [(b & -> & Eb) ->] _ _ _ _ _ _ _ _ _ Hst.
    unfold hess_step, happ_update in Hst. injection Hst as <- <-. split; [|exact Eb].
    eexists. split; [reflexivity|]. exact Eb.
Qed.

(** *** GNSBFGS during a run *)
Lemma fin_mul a b : er_isfin (er_mul a b) = true -> er_isfin a = true /\ er_isfin b = true.
Proof.
  intros H. split.
  - destruct (er_isfin a) eqn:Ea; auto. rewrite nf_mul in H; auto.
  - destruct (er_isfin b) eqn:Eb; auto. rewrite nf_mul in H; auto.
Qed.
Lemma fin_dot_self (v : list ER) : er_isfin (dot v v) = true -> vfinite v = true.
Proof.
  intros H. destruct (vfinite v) eqn:E; auto. apply vfinite_false in E as (i & Hi & E).
  rewrite nf_dot in H; [discriminate|reflexivity|]. now apply (nf_Exists v i).
Qed.
Lemma forallb_row (l : list ER) d n : length l = n -> (forall j, (j < n)%nat -> er_isfin (nth j l d) = true) -> vfinite l = true.
Proof.
  intros Hl H. unfold vfinite. apply forallb_forall. intros x Hx. apply (In_nth _ _ d) in Hx as (j & Hj & <-). apply H. lia.
Qed.
(** a residual evaluation with finite value and Hessian consists of finite residuals and a finite Jacobian *)
Lemma residual_evaluation E (C : cfg ER) n fn r k x : c_resfun C = true -> r = e_obj E k x -> evaluation_of C n fn r ->
  all_finite (fo_fval fn) (fo_grad fn) (fo_hess fn) = true ->
  exists (rv : rvec) (J H : rmat), e_obj E k x = RTuple [PVec (fv rv); PMat n (fm J)]
    /\ fo_res fn = fv rv /\ fo_sres fn = fm J /\ is_mat (length rv) n J
    /\ fo_hess fn = Some (fm H) /\ is_mat n n H /\ symmetric H /\ possemidef n H /\ length (fo_grad fn) = n.
Proof.
  intros Hrf Hr (pf & k' & Hpf & Hty) Hfin. rewrite Hrf in Hpf.
  unfold all_finite in Hfin. apply andb_true_iff in Hfin as [Hfin Hfh]. apply andb_true_iff in Hfin as [Hfv _].
  pose proof Hty as Hty'. apply typed_fout_inv in Hty' as (T1 & T2 & T3 & T4 & T5 & T6 & T7).
  unfold fun_evaluate in Hpf. destruct r as [l| |]; try discriminate.
  destruct (negb _) eqn:Eb; try discriminate. apply negb_false_iff, Nat.eqb_eq in Eb.
  destruct l as [|[| |v| |] [|[| | |nc rows|] []]]; try discriminate.
  destruct (_ && _) eqn:Ec; try discriminate. injection Hpf as <-. cbn [pf_fval pf_grad pf_hess pf_res pf_sres] in *.
  destruct (fo_hess fn) as [m|] eqn:Em; [|discriminate].
  destruct T7 as (nc' & E7 & R7). injection E7 as <- E7.
  pose proof R7 as R7'. unfold rect in R7'. apply andb_true_iff in R7' as [R1 _]. apply Nat.eqb_eq in R1.
  rewrite <- E7, !map_length, seq_length in R1. subst nc.
  apply andb_true_iff in Ec as [Ec1 Ec2]. apply Nat.eqb_eq in Ec1. rewrite forallb_forall in Ec2.
  injection T1 as T1. rewrite <- T1 in Hfv. cbn [nisfin nmul ERNum] in Hfv. apply fin_mul in Hfv as [_ Hfv].
  apply fin_dot_self in Hfv. apply vfinite_inv in Hfv as [rv ->].
  assert (HJ : mfinite rows = true).
  { unfold mfinite. apply forallb_forall. intros row Hrow. apply (forallb_row row n0 n).
    - now apply Nat.eqb_eq, Ec2.
    - intros j Hj. 
      assert (Hc : vfinite (map (fun row => nth j row n0) rows) = true).
      { apply fin_dot_self. rewrite <- E7 in Hfh. unfold mfinite in Hfh. rewrite forallb_forall in Hfh.
        set (cols := map (fun i => map (fun row => nth i row n0) rows) (seq 0 n)) in *.
        assert (Hin : In (map (fun row => nth j row n0) rows) cols).
        { apply in_map_iff. exists j. split; auto. apply in_seq. lia. }
        assert (Hv : vfinite (map (fun b => dot (map (fun row => nth j row n0) rows) b) cols) = true).
        { apply Hfh. apply in_map_iff. exists (map (fun row => nth j row n0) rows). auto. }
        unfold vfinite in Hv. rewrite forallb_forall in Hv. apply (Hv (dot _ _)). apply in_map_iff. eexists. split; [reflexivity|exact Hin]. }
      unfold vfinite in Hc. rewrite forallb_forall in Hc. apply (Hc (nth j row n0)). apply in_map_iff. exists row. auto. }
  apply mfinite_inv in HJ as [J ->]. rewrite fv_length, fm_length in Ec1.
  assert (MJ : is_mat (length rv) n J).
  { split; [now symmetry|]. apply Forall_forall. intros row Hrow. specialize (Ec2 (fv row)). rewrite fv_length in Ec2.
    apply Nat.eqb_eq, Ec2. unfold fm. now apply in_map. }
  destruct (C05_least_squares rv J n MJ) as (G & H & E0 & _ & LG & _ & MH & _ & SH & PH).
  unfold fun_evaluate in E0. cbn [length Nat.eqb negb] in E0.
  destruct (_ && _) in E0; [|discriminate]. apply ok_inj in E0. injection E0 as _ _ E0.
  exists rv, J, H. split; [now symmetry|]. split; [now rewrite T5|]. split; [now rewrite T6|]. split; [exact MJ|].
  split; [|split; [exact MH|split; [exact SH|split; [|exact T4]]]].
  - f_equal. rewrite <- E7. exact E0.
  - intros z Hz. now apply PH.
Qed.

Lemma lincomb_len (n : nat) : forall (c : list ER) cols, Forall (fun col => length col = n) cols -> length (lincomb n c cols) = n.
Proof.
  induction c as [|a c IH]; intros [|col cols] H; simpl; try (unfold vzeros; apply repeat_length).
  inversion H; subst. unfold vadd, vscale. rewrite map2_len; rewrite map_length; auto. now rewrite IH.
Qed.
Lemma possemidef_shift n H c : is_mat n n H -> possemidef n H -> 0 <= c -> possemidef n (rmadd H (rmscale c (reye n))).
Proof.
  intros MH PH Hc x Hx. rewrite (rform_madd n n); auto; [|apply is_mat_mscale, is_mat_eye].
  rewrite rform_mscale. specialize (PH x Hx).
  assert (0 <= rform (reye n) x x).
  { unfold rform. rewrite rmv_eye by auto. apply rdot_self_nonneg. }
  nra.
Qed.

(** hypothesis "no residual vector the objective returns is zero" *)
Definition residuals_never_vanish (E : env ER) : Prop :=
  forall k x r nc j, e_obj E k x = RTuple [PVec r; PMat nc j] -> Exists (fun t => t <> Fin 0) r.

(** Every quadratic model of a least-squares run with GNSBFGS has a symmetric positive semidefinite matrix, positive
    definite if the residuals never vanish; whatever the objective returns and whatever the subproblem solver does *)
Theorem C51_run_positive_definite : forall (E : env ER) (C : cfg ER) ndim x0 sid h0 st f s sh tol,
  0 <= tol -> o_happ st = Some (HStruct sh) -> sh_kind sh = SGNSBFGS (Fin tol) -> sh_phi sh = Fin 0 ->
  c_resfun C = true -> starts_spd (length x0) h0 ->
  loop_head E C ndim x0 sid h0 st f s -> mfinite (o_hess s) = true ->
  exists B, o_hess s = fm B /\ is_mat (length x0) (length x0) B /\ symmetric B /\ possemidef (length x0) B
    /\ (residuals_never_vanish E -> posdef (length x0) B).
Proof.
  intros E C ndim x0 sid h0 st f s sh0 tol Ht Hh Hk Hp Hrf H0 HL. set (n := length x0) in *.
  set (good := fun (hess : list (list ER)) (h : option (happ ER)) => exists sh, h = Some (HStruct sh)
      /\ sh_kind sh = SGNSBFGS (Fin tol) /\ sh_phi sh = Fin 0 /\ hess = hb_hess (sh_base sh)
      /\ (mfinite hess = true -> (exists A, sh_A sh = fm A /\ is_mat n n A /\ symmetric A /\ posdef n A)
          /\ exists B, hess = fm B /\ is_mat n n B /\ symmetric B /\ possemidef n B
             /\ (residuals_never_vanish E -> posdef n B))).
  assert (HP : good (o_hess s) (o_happ s)).
  2:{ destruct HP as (j & _ & _ & _ & _ & HP). intros Hf. now apply HP. }
  revert HL. apply (run_hess_ind E C ndim x0 sid h0 st good).
  - intros hess h pf fo k Hpf Hty Hph. fold n in Hph. unfold pr_hess in Hph. rewrite Hh in Hph.
    destruct (pr_hess0 h0 pf) as [arg|] eqn:Ea; [|discriminate]. cbn [h_init] in Hph. unfold sh_init in Hph.
    destruct (hb_init n arg) as [b|] eqn:Eb; [|discriminate]. injection Hph as <- <-.
    eexists. split; [reflexivity|]. split; [exact Hk|]. split; [exact Hp|]. split; [reflexivity|]. intros _.
    split.
    + assert (Hpos : 0 < / IZR (2 ^ 52)) by (apply Rinv_0_lt_compat; apply IZR_lt; reflexivity).
      exists (rmscale (/ IZR (2 ^ 52)) (reye n)). split; [|split; [apply is_mat_mscale, is_mat_eye|
        split; [apply symmetric_mscale, symmetric_eye|now apply posdef_scaled]]].
      transitivity (map (map (fun x : ER => (x * spacing1)%num)) (eye n)); [reflexivity|]. rewrite spacing_fin, h_eye. unfold fm, rmscale. rewrite !map_map. apply map_ext. intros row.
      unfold fv, rscale. rewrite !map_map. apply map_ext. intros t. cbn [nmul ERNum er_mul]. f_equal. lra.
    + destruct (hb_init_spd n h0 pf arg b H0 Ea Eb) as (B & E1 & E2 & E3 & E4). exists B. repeat (split; auto).
      intros z Hz. destruct (nonzero_dec z) as [Hn|Hn]; [left; now apply E4|].
      rewrite (all0_zeros z Hn). unfold rform. rewrite rdot_comm, rdot_zeros_r. lra.
  - intros hess h sv grad since ninter iter fnew fold k r r' hess' h' (sh & -> & Kj & Kp & -> & Hspd) Hs Hg Hmf Hgf _ Haf [x Hr] Hev Hev' Hst.
    fold n in Hs, Hg, Hev, Hev'.
    destruct (residual_evaluation E C n fnew r k x Hrf Hr Hev Haf) as (rv & J & H & Eo & Er & Es & MJ & Eh & MH & SH & PH & Lg).
    unfold hess_step, happ_update in Hst. rewrite Eh, Kj in Hst. injection Hst as <- <-.
    destruct (Hspd Hmf) as ((A & EA & MA & SA & PA) & _).
    set (y := vsub (fo_grad fnew) grad). set (yb := vscaler _ _).
    assert (Ly : length y = n) by (unfold y, vsub; rewrite map2_len; congruence).
    assert (Lyb : length yb = n).
    { unfold yb, vscaler. rewrite map_length. unfold mTvec, vecmat. rewrite Hs. apply lincomb_len.
      apply evaluated_rows in Hev as [_ R1], Hev' as [_ R2]. clear - R1 R2. revert R2. generalize (fo_sres fold). 
      induction R1 as [|a l1 Ha _ IH]; intros l2 R2; [constructor|]. destruct R2 as [|b l2 Hb R2]; [constructor|].
      simpl. constructor; [|now apply IH]. unfold vsub. rewrite map2_len; congruence. }
    clearbody yb.
    exists (sh_update sh sv y (fo_res fnew) (fm H) yb). split; [reflexivity|].
    assert (Kk : sh_kind (sh_update sh sv y (fo_res fnew) (fm H) yb) = SGNSBFGS (Fin tol)
              /\ sh_phi (sh_update sh sv y (fo_res fnew) (fm H) yb) = Fin 0).
    { unfold sh_update. cbv zeta. rewrite Kj. destruct (_ <? _)%num; auto. }
    destruct Kk as [Kk1 Kk2]. split; [exact Kk1|]. split; [exact Kk2|]. split; [reflexivity|]. cbn [h_mat].
    unfold sh_update. cbv zeta. rewrite Kj, EA, Kp. 
    destruct (Fin tol <? dot yb sv / dot sv sv)%num eqn:Eq.
    + (* structured BFGS update *)
      cbn [sh_base hb_store hb_hess sh_A]. intros Hfin.
      assert (Fs : vfinite sv = true).
      { destruct (vfinite sv) eqn:Fs; auto. exfalso. apply vfinite_false in Fs as (i & Hi & Ei).
        assert (X : Exists (fun x => nf x) sv) by now apply (nf_Exists sv i).
        cbn [ndiv ERNum] in Eq. rewrite nf_div in Eq; [discriminate| |]; apply nf_dot; auto. congruence. }
      apply vfinite_inv in Fs as [s1 ->]. rewrite fv_length in Hs.
      assert (Hb : (dot yb (fv s1) <=? n0 = false)%num).
      { rewrite h_dot in Eq. cbn [nltb ndiv ERNum] in Eq. destruct (dot yb (fv s1)) as [b| | |]; cbn [nleb ERNum er_leb n0 nofZ]; auto.
        - cbn [er_div] in Eq. destruct (Reqb_spec (rdot s1 s1) 0) as [Ez|Ez].
          + unfold er_infmul in Eq. destruct (Rltb_spec 0 b); [|destruct (Rltb_spec b 0); discriminate].
            destruct (Rleb_spec b 0); [lra|reflexivity].
          + cbn [er_ltb] in Eq. destruct (Rltb_spec tol (b / rdot s1 s1)) as [Hlt|]; [|discriminate].
            pose proof (rdot_self_nonneg s1). assert (0 < rdot s1 s1) by lra.
            assert (0 < b). { replace b with (b / rdot s1 s1 * rdot s1 s1) by (field; lra). apply Rmult_lt_0_compat; lra. }
            destruct (Rleb_spec b 0); [lra|reflexivity].
        - cbn [er_div] in Eq. destruct (Rltb_spec (rdot s1 s1) 0) as [Hlt|]; [|discriminate]. pose proof (rdot_self_nonneg s1). lra. }
      destruct (vfinite yb) eqn:Fy.
      * apply vfinite_inv in Fy as [y1 ->]. rewrite fv_length in Lyb.
        assert (Hb' : 0 < rdot y1 s1). { rewrite h_dot in Hb. cbn [nleb ERNum er_leb n0 nofZ] in Hb. destruct (Rleb_spec (rdot y1 s1) 0); [discriminate|lra]. }
        assert (Ns : nonzero s1).
        { destruct (nonzero_dec s1) as [N|N]; auto. rewrite (all0_zeros s1 N), rdot_zeros_r in Hb'. lra. }
        assert (Hc : 0 < rdot (rmv A s1) s1) by (rewrite rdot_comm; apply PA; auto).
        rewrite (h_broyden n) by (auto; lra). rewrite !h_madd.
        assert (MA' := is_mat_new n A y1 s1 0 MA Lyb).
        assert (SA' : symmetric (rmadd A (rbroyden y1 s1 A 0))) by now apply (rbroyden_symmetric n).
        assert (PA' : posdef n (rmadd A (rbroyden y1 s1 A 0))) by (apply rbroyden_posdef; auto; lra).
        assert (PB : posdef n (rmadd H (rmadd A (rbroyden y1 s1 A 0)))) by now apply posdef_add.
        split; [eexists; split; [reflexivity|auto]|].
        exists (rmadd H (rmadd A (rbroyden y1 s1 A 0))). split; [reflexivity|].
        split; [now apply is_mat_madd|]. split; [now apply (symmetric_madd n n)|].
        split; [|auto]. intros z Hz. destruct (nonzero_dec z) as [Hn|Hn]; [left; now apply PB|].
        rewrite (all0_zeros z Hn). unfold rform. rewrite rdot_comm, rdot_zeros_r. lra.
      * exfalso. pose proof (vfinite_false yb Fy) as (i0 & Hi0 & Ei0). rewrite Lyb in Hi0.
        assert (K : cell (broyden_class_update yb (fv s1) (fm A) (Fin 0) (sh_enforce sh)) i0 i0 = NaN).
        { apply (broyden_poison n); auto; [now apply square_fm|now rewrite Hb|]. left. split; auto.
          apply nf_dot_l; [rewrite fv_length; congruence|]. apply (nf_Exists _ i0); auto. now rewrite Lyb. }
        pose proof (square_fm n A MA) as SqA. pose proof (square_fm n H MH) as SqH.
        assert (Sb : square n (broyden_class_update yb (fv s1) (fm A) (Fin 0) (sh_enforce sh))) by (apply broyden_square; auto).
        assert (Sq1 : square n (madd (fm A) (broyden_class_update yb (fv s1) (fm A) (Fin 0) (sh_enforce sh)))) by (apply square_map2; auto).
        assert (Sq2 : square n (madd (fm H) (madd (fm A) (broyden_class_update yb (fv s1) (fm A) (Fin 0) (sh_enforce sh))))) by (apply square_map2; auto).
        pose proof (mfinite_cell n _ i0 i0 Sq2 Hi0 Hi0 Hfin) as Hc.
        unfold madd, vadd in Hc. rewrite (cell_map2 n) in Hc by auto. rewrite (cell_map2 n) in Hc by auto.
        rewrite K in Hc. cbn [nadd ERNum] in Hc.
        destruct (cell (fm A) i0 i0), (cell (fm H) i0 i0); discriminate Hc.
    + (* Gauss-Newton plus a multiple of the identity *)
      cbn [sh_base hb_store hb_hess sh_A]. intros _. rewrite Er, Ly, h_norm, h_eye, h_mscale, h_madd.
      split; [exists A; auto|]. exists (rmadd H (rmscale (rnorm rv) (reye n))). split; [reflexivity|].
      assert (MI : is_mat n n (rmscale (rnorm rv) (reye n))) by apply is_mat_mscale, is_mat_eye.
      split; [now apply is_mat_madd|]. split; [apply (symmetric_madd n n); auto; apply symmetric_mscale, symmetric_eye|].
      split; [apply possemidef_shift; auto; unfold rnorm; apply sqrt_pos|].
      intros Hnz. apply posdef_add; auto. apply posdef_scaled. apply rnorm_pos, nonzero_dot.
      specialize (Hnz _ _ _ _ _ Eo). apply Exists_exists in Hnz as (t & Hin & Hne). unfold fv in Hin.
      apply in_map_iff in Hin as (q & <- & Hin). apply (In_nth _ _ 0) in Hin as (i & Hi & Ei). exists i. rewrite Ei.
      intros ->. now apply Hne.
Qed.
