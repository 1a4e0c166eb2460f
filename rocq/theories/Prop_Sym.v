(** C41: every scheme except Broyden's good method keeps a symmetric matrix symmetric, exactly,
    in any number system with commutative multiplication (exact arithmetic and binary64) *)
From Coq Require Import ZArith List Bool String Lia Reals.
From Flocq Require Import Core BinarySingleNaN.
From Verif Require Import Num Constants Subproblem HessApprox Steps TrustRegion Minimize
  ER F64 NumFacts MonadFacts MinFacts Spec Run RunInv HessRun Witness Prop_RunEx.
Import ListNotations.
Local Open Scope num_scope.

(** multiplication commutes, bit for bit *)
Class MulComm (T : Type) {N : Num T} := mul_comm : forall x y : T, x * y = y * x.

#[global] Instance ER_MulComm : MulComm ER.
Proof.
  intros [x| | |] [y| | |]; simpl; try reflexivity. now rewrite Rmult_comm.
Qed.
#[global] Instance F64_MulComm : MulComm F64.
Proof.
  intros x y. apply B2SF_inj.
  destruct x as [sx|sx| |sx mx ex Hx], y as [sy|sy| |sy my ey Hy]; simpl; try reflexivity;
    rewrite ?(xorb_comm sx sy); try reflexivity.
  rewrite !B2SF_SF2B, (xorb_comm sx sy), (Pos.mul_comm mx my), (Z.add_comm ex ey). reflexivity.
Qed.

Section Sym.
  Context {T : Type} {N : Num T}.
  Local Notation vec := (list T).
  Local Notation mat := (list (list T)).

  (** n x n array; entry; symmetric n x n array *)
  Definition square (n : nat) (m : mat) : Prop :=
    List.length m = n /\ Forall (fun r => List.length r = n) m.
  Definition cell (m : mat) (i j : nat) : T := nth j (nth i m []) nnan.
  Definition sym (n : nat) (m : mat) : Prop :=
    square n m /\ forall i j, (i < n)%nat -> (j < n)%nat -> cell m i j = cell m j i.

  Lemma square_row n m i : square n m -> (i < n)%nat -> List.length (nth i m []) = n.
  Proof. intros [H1 H2] Hi. rewrite Forall_forall in H2. apply H2. apply nth_In. lia. Qed.

  Lemma map2_len {A B D} (g : A -> B -> D) a : forall b,
    List.length a = List.length b -> List.length (map2 g a b) = List.length a.
  Proof. induction a; intros [|y b]; simpl; intros; try lia. rewrite IHa; lia. Qed.
  Lemma nth_map2 {A B D} (g : A -> B -> D) a : forall b i da db dd,
    (i < List.length a)%nat -> (i < List.length b)%nat ->
    nth i (map2 g a b) dd = g (nth i a da) (nth i b db).
  Proof.
    induction a as [|x a IH]; intros [|y b] i da db dd Ha Hb; simpl in *; try lia.
    destruct i; auto. apply IH; lia.
  Qed.
  Lemma nth_map_in {A B} (g : A -> B) a : forall i da db, (i < List.length a)%nat ->
    nth i (map g a) db = g (nth i a da).
  Proof. induction a; intros i da db H; simpl in *; [lia|]. destruct i; auto. apply IHa. lia. Qed.

  Lemma square_map2 n g (a b : mat) : square n a -> square n b -> square n (map2 (map2 g) a b).
  Proof.
    intros [A1 A2] [B1 B2]. split; [rewrite map2_len; congruence|].
    clear A1 B1. revert b B2. induction A2 as [|r a Hr _ IH]; intros b B2; simpl; [constructor|].
    destruct B2 as [|q b Hq B2]; constructor; auto. rewrite map2_len; congruence.
  Qed.
  Lemma cell_map2 n g (a b : mat) i j : square n a -> square n b -> (i < n)%nat -> (j < n)%nat ->
    cell (map2 (map2 g) a b) i j = g (cell a i j) (cell b i j).
  Proof.
    intros Ha Hb Hi Hj. unfold cell.
    pose proof (square_row n a i Ha Hi). pose proof (square_row n b i Hb Hi).
    destruct Ha as [Ha _], Hb as [Hb _].
    rewrite (nth_map2 (map2 g) a b i [] [] []) by lia.
    now rewrite (nth_map2 g _ _ j nnan nnan nnan) by lia.
  Qed.
  Lemma sym_map2 n g a b : sym n a -> sym n b -> sym n (map2 (map2 g) a b).
  Proof.
    intros [Ha Sa] [Hb Sb]. split; [now apply square_map2|].
    intros i j Hi Hj. rewrite !(cell_map2 n) by auto. now rewrite Sa, Sb.
  Qed.
  Lemma square_map n g (a : mat) : square n a -> square n (map (map g) a).
  Proof.
    intros [A1 A2]. split; [now rewrite map_length|]. apply Forall_map.
    eapply Forall_impl; [|exact A2]. intros r Hr. now rewrite map_length.
  Qed.
  Lemma cell_map n g (a : mat) i j : square n a -> (i < n)%nat -> (j < n)%nat ->
    cell (map (map g) a) i j = g (cell a i j).
  Proof.
    intros Ha Hi Hj. unfold cell. pose proof (square_row n a i Ha Hi). destruct Ha as [Ha _].
    rewrite (nth_map_in (map g) a i [] []) by lia. now rewrite (nth_map_in g _ j nnan nnan) by lia.
  Qed.
  Lemma sym_map n g a : sym n a -> sym n (map (map g) a).
  Proof.
    intros [Ha Sa]. split; [now apply square_map|].
    intros i j Hi Hj. rewrite !(cell_map n) by auto. now rewrite Sa.
  Qed.
  Lemma square_outer n u : List.length u = n -> square n (outer u u).
  Proof.
    intros Hu. split; [unfold outer; now rewrite map_length|]. apply Forall_map.
    apply Forall_forall. intros x _. now rewrite map_length.
  Qed.
  Lemma cell_outer n u v i j : List.length u = n -> List.length v = n -> (i < n)%nat -> (j < n)%nat ->
    cell (outer u v) i j = nth i u nnan * nth j v nnan.
  Proof.
    intros Hu Hv Hi Hj. unfold cell, outer.
    rewrite (nth_map_in _ u i nnan []) by lia. now rewrite (nth_map_in _ v j nnan nnan) by lia.
  Qed.
  Lemma sym_eye n : sym n (eye n).
  Proof.
    assert (Hs : square n (eye n)).
    { split; [unfold eye; now rewrite map_length, seq_length|]. apply Forall_map, Forall_forall.
      intros i _. now rewrite map_length, seq_length. }
    split; auto. intros i j Hi Hj. unfold cell, eye.
    rewrite !(nth_map_in _ (seq 0 n) _ 0%nat []) by (rewrite seq_length; lia).
    rewrite !(nth_map_in _ (seq 0 n) _ 0%nat nnan) by (rewrite seq_length; lia).
    rewrite !seq_nth by lia. simpl. now rewrite (Nat.eqb_sym i j).
  Qed.

  Context {MC : MulComm T}.
  Lemma sym_outer n u : List.length u = n -> sym n (outer u u).
  Proof.
    intros Hu. split; [now apply square_outer|].
    intros i j Hi Hj. rewrite !(cell_outer n) by auto. apply mul_comm.
  Qed.
  Lemma vsub_len n (a b : vec) : List.length a = n -> List.length b = n -> List.length (vsub a b) = n.
  Proof. intros. unfold vsub. rewrite map2_len; congruence. Qed.
  Lemma vadd_len n (a b : vec) : List.length a = n -> List.length b = n -> List.length (vadd a b) = n.
  Proof. intros. unfold vadd. rewrite map2_len; congruence. Qed.
  Lemma sym_broyden n y s m phi enforce : List.length y = n -> sym n m ->
    sym n (broyden_class_update y s m phi enforce).
  Proof.
    intros Hy Hm. unfold broyden_class_update. cbv zeta.
    assert (Hu : List.length (matvec m s) = n) by (unfold matvec; rewrite map_length; apply Hm).
    destruct (_ && _); [now apply sym_map|].
    assert (Hd : forall v c, List.length v = n -> sym n (mdivs (outer v v) c)).
    { intros v c Hv. apply (sym_map n (fun x => x / c)), sym_outer, Hv. }
    assert (H1 : sym n (msub (mdivs (outer y y) (dot y s))
                         (mdivs (outer (matvec m s) (matvec m s)) (dot (matvec m s) s)))).
    { apply sym_map2; auto. }
    destruct (negb _); auto. apply sym_map2; auto.
    apply (sym_map n (fun x => _ * x)), sym_outer. apply vsub_len; unfold vdivs; now rewrite map_length.
  Qed.

  Definition uses_BG (i : ihapp T) : bool := match ih_kind i with IBG => true | _ => false end.
  (** the scheme is, or contains, Broyden's good method, whose matrices are not symmetric *)
  Definition h_uses_BG (h : happ T) : bool :=
    match h with
    | HIter i => uses_BG i
    | HFixed i _ _ _ | HFraction i _ _ _ | HFX i _ _ => uses_BG i
    | HStruct _ => false
    end.
  Lemma kind_update i s y : ih_kind (ih_update i s y) = ih_kind i.
  Proof. destruct i as [[] b]; reflexivity. Qed.

  Lemma sym_ih_update n i s y : uses_BG i = false -> List.length y = n -> List.length s = n ->
    sym n (ih_mat i) -> sym n (ih_mat (ih_update i s y)).
  Proof.
    intros Hk Hy Hs Hm. unfold uses_BG in Hk. unfold ih_update. cbv zeta.
    destruct (ih_kind i); try discriminate.
    - apply sym_map2; auto. apply sym_broyden; auto.
    - apply sym_map2; auto. unfold sr1_diff. cbv zeta. destruct (_ <=? _); [|now apply sym_map].
      apply (sym_map n (fun x => x / _)), sym_outer.
      apply vsub_len; auto. unfold matvec. rewrite map_length. apply Hm.
    - exact Hm.
  Qed.

  (** what the scheme holds is symmetric *)
  Definition h_sym (n : nat) (h : happ T) : Prop :=
    h_uses_BG h = false /\
    match h with
    | HIter i => sym n (ih_mat i)
    | HFixed i b _ _ | HFraction i b _ _ => sym n (ih_mat i) /\ sym n (hb_hess b)
    | HFX i _ _ => sym n (ih_mat i)
    | HStruct h => sym n (sh_A h) /\ sym n (hb_hess (sh_base h))
    end.
  Lemma h_sym_mat n h : h_sym n h -> sym n (h_mat h).
  Proof. intros [_ H]. destruct h; simpl in *; tauto. Qed.

  Lemma sym_init n h arg h' : h_uses_BG h = false -> (forall m, arg = Some m -> sym n m) ->
    h_init h n arg = Ok h' -> h_sym n h'.
  Proof.
    intros Hk Ha.
    assert (Hb : forall b, hb_init n arg = Ok b -> sym n (hb_hess b)).
    { unfold hb_init. destruct arg as [m|].
      - destruct (Nat.eqb _ _); [|discriminate]. intros b H. injection H as <-. auto.
      - intros b H. injection H as <-. apply sym_eye. }
    assert (Hi : forall i i', ih_init i n arg = Ok i' -> ih_kind i' = ih_kind i /\ sym n (ih_mat i')).
    { unfold ih_init. intros i i'. destruct hb_init as [b|]; [|discriminate].
      intros H. injection H as <-. split; [reflexivity|]. apply (Hb b eq_refl). }
    unfold h_init. destruct h as [i|i b0 k sw|i b0 t sw|i b0 t|s]; cbn [h_uses_BG] in Hk.
    - destruct ih_init as [i'|] eqn:Ei; [|discriminate]. intros H. injection H as <-.
      apply Hi in Ei as [E1 E2]. split; auto. cbn [h_uses_BG]. unfold uses_BG in *. now rewrite E1.
    - destruct ih_init as [i'|] eqn:Ei; [|discriminate]. destruct hb_init as [b|] eqn:Eb; [|discriminate].
      intros H. injection H as <-. apply Hi in Ei as [E1 E2]. split; auto.
      cbn [h_uses_BG]. unfold uses_BG in *. now rewrite E1.
    - destruct ih_init as [i'|] eqn:Ei; [|discriminate]. destruct hb_init as [b|] eqn:Eb; [|discriminate].
      intros H. injection H as <-. apply Hi in Ei as [E1 E2]. split; auto.
      cbn [h_uses_BG]. unfold uses_BG in *. now rewrite E1.
    - destruct ih_init as [i'|] eqn:Ei; [|discriminate]. destruct hb_init as [b|] eqn:Eb; [|discriminate].
      intros H. injection H as <-. apply Hi in Ei as [E1 E2]. split; auto.
      cbn [h_uses_BG]. unfold uses_BG in *. now rewrite E1.
    - unfold sh_init. destruct hb_init as [b|] eqn:Eb; [|discriminate].
      intros H. injection H as <-. split; [reflexivity|]. split; auto. apply sym_map, sym_eye.
  Qed.

  Lemma lincomb_len n c : forall cols : mat, Forall (fun r => List.length r = n) cols ->
    List.length (lincomb n c cols) = n.
  Proof.
    induction c as [|a c IH]; intros cols H; simpl; [apply repeat_length|].
    destruct H as [|r cols Hr H]; [apply repeat_length|].
    apply vadd_len; [unfold vscale; now rewrite map_length|auto].
  Qed.
  Lemma msub_rows n (a b : mat) : Forall (fun r => List.length r = n) a ->
    Forall (fun r => List.length r = n) b -> Forall (fun r => List.length r = n) (msub a b).
  Proof.
    intros Ha. revert b. induction Ha as [|r a Hr _ IH]; intros b Hb; simpl; [constructor|].
    destruct Hb as [|q b Hq Hb]; constructor; [now apply vsub_len|now apply IH].
  Qed.

  Lemma sym_step n h s grad since ninter iter fnew fold h' :
    h_sym n h -> List.length s = n -> List.length grad = n -> List.length (fo_grad fnew) = n ->
    Forall (fun r => List.length r = n) (fo_sres fnew) ->
    Forall (fun r => List.length r = n) (fo_sres fold) ->
    (forall m, fo_hess fnew = Some m -> sym n m) ->
    happ_update h s grad since ninter iter fnew fold = Ok h' -> h_sym n h'.
  Proof.
    intros [Hk Hh] Hs Hg Hgn Hr1 Hr2 Hm H.
    assert (Hy : List.length (vsub (fo_grad fnew) grad) = n) by now apply vsub_len.
    assert (Hyb : List.length (mTvec (List.length s) (msub (fo_sres fnew) (fo_sres fold)) (fo_res fnew)) = n).
    { unfold mTvec, vecmat. rewrite Hs. apply lincomb_len, msub_rows; auto. }
    unfold happ_update in H.
    destruct h as [i|i b k sw|i b t sw|i b t|sh]; cbn [h_uses_BG] in Hk.
    - injection H as <-. split; [|now apply sym_ih_update].
      cbn [h_uses_BG]. unfold uses_BG in *. now rewrite kind_update.
    - destruct (fo_hess fnew) as [hess|]; [|discriminate]. injection H as <-.
      unfold fixed_update, switched_update. cbv iota.
      assert (Hu := sym_ih_update n i s _ Hk Hy Hs (proj1 Hh)).
      split; [cbn [h_uses_BG]; unfold uses_BG in *; now rewrite kind_update|].
      split; [exact Hu|]. destruct sw; [exact Hu|now apply Hm].
    - destruct (fo_hess fnew) as [hess|]; [|discriminate]. injection H as <-.
      unfold fraction_update, switched_update. cbv iota.
      assert (Hu := sym_ih_update n i s _ Hk Hy Hs (proj1 Hh)).
      split; [cbn [h_uses_BG]; unfold uses_BG in *; now rewrite kind_update|].
      split; [exact Hu|]. destruct sw; [exact Hu|now apply Hm].
    - destruct (fo_hess fnew) as [hess|]; [|discriminate].
      specialize (Hm _ eq_refl). unfold fx_update in H. cbv zeta in H. destruct (_ <=? _).
      + unfold ih_set_mat, hb_set_mat in H. destruct shape_eqb; [|discriminate].
        injection H as <-. split; [exact Hk|exact Hm].
      + injection H as <-. split; [cbn [h_uses_BG]; unfold uses_BG in *; now rewrite kind_update|].
        apply sym_ih_update; auto. apply vadd_len; auto.
        unfold matvec. rewrite map_length. apply Hm.
    - destruct (fo_hess fnew) as [hess|]; [|discriminate].
      specialize (Hm _ eq_refl). injection H as <-. split; [reflexivity|].
      destruct Hh as [HA Hb].
      set (yb := mTvec _ _ _) in *. set (yb' := match sh_kind sh with SSSM => yb | _ => _ end).
      assert (Hyb' : List.length yb' = n).
      { unfold yb'. destruct (sh_kind sh); auto; unfold vscaler; now rewrite map_length. }
      clearbody yb'. unfold sh_update. cbv zeta.
      assert (Hhs : List.length (matvec hess s) = n) by (unfold matvec; rewrite map_length; apply Hm).
      destruct (sh_kind sh).
      + assert (HA' : sym n (madd (sh_A sh) (broyden_class_update (vadd yb' (matvec hess s)) s
                 (madd hess (sh_A sh)) (sh_phi sh) (sh_enforce sh)))).
        { apply sym_map2; auto. apply sym_broyden; [now apply vadd_len|now apply sym_map2]. }
        split; [exact HA'|]. now apply sym_map2.
      + match goal with |- sym n (sh_A (mkShapp _ _ _ (madd ?a ?d) _ _)) /\ _ =>
          assert (HA' : sym n (madd a d)) end.
        { apply sym_map2; auto. apply (sym_map n (fun x => x / _)).
          apply sym_broyden; [now apply vadd_len|].
          apply sym_map2; auto. apply (sym_map n (fun x => _ * x)); auto. }
        split; [exact HA'|]. apply sym_map2; auto. apply (sym_map n (fun x => _ * x)); auto.
      + destruct (_ <? _).
        * assert (HA' : sym n (madd (sh_A sh) (broyden_class_update yb' s (sh_A sh) (sh_phi sh) (sh_enforce sh)))).
          { apply sym_map2; auto. now apply sym_broyden. }
          split; [exact HA'|]. now apply sym_map2.
        * split; [exact HA|]. apply sym_map2; auto.
          apply (sym_map n (fun x => _ * x)). rewrite Hy. apply sym_eye.
  Qed.

  (** *** statement: sequences of updates *)
  (** [history n h h']: [h'] results from [h] by initialization for n variables with a symmetric
      matrix (or none) followed by any number of updates, with arrays of matching sizes and
      symmetric objective Hessians *)
  Inductive history (n : nat) (h : happ T) : happ T -> Prop :=
  | hist_init arg h1 :
      (forall m, arg = Some m -> sym n m) -> h_init h n arg = Ok h1 -> history n h h1
  | hist_update h1 s grad since ninter iter fnew fold h2 :
      history n h h1 ->
      List.length s = n -> List.length grad = n -> List.length (fo_grad fnew) = n ->
      Forall (fun r => List.length r = n) (fo_sres fnew) ->
      Forall (fun r => List.length r = n) (fo_sres fold) ->
      (forall m, fo_hess fnew = Some m -> sym n m) ->
      happ_update h1 s grad since ninter iter fnew fold = Ok h2 ->
      history n h h2.

  Theorem C41_updates_preserve_symmetry : forall n h h',
    h_uses_BG h = false -> history n h h' -> sym n (h_mat h').
  Proof.
    intros n h h' Hk Hh. apply h_sym_mat.
    induction Hh as [arg h1 Ha Hi|h1 s grad a b c fnew fold h2 _ IH H1 H2 H3 H4 H5 H6 H7].
    - eapply sym_init; eauto.
    - exact (sym_step n h1 s grad a b c fnew fold h2 IH H1 H2 H3 H4 H5 H6 H7).
  Qed.
End Sym.

Section SymRun.
  Context {T : Type} {N : Num T} {L : NumLaws T} {MC : MulComm T}.
  Local Notation mat := (list (list T)).
  Variable E : env T.
  Variable C : cfg T.

  (** objectives whose Hessians, when they return one, are symmetric *)
  Definition symmetric_objective (n : nat) : Prop :=
    forall k x f g nc m, e_obj E k x = RTuple [f; g; PMat nc m] -> square n m -> sym n m.

  Lemma gram_sym (cols : mat) : sym (List.length cols)
     (map (fun a => map (fun b => dot a b) cols) cols).
  Proof.
    assert (Hs : square (List.length cols) (map (fun a => map (fun b => dot a b) cols) cols)).
    { split; [now rewrite map_length|]. apply Forall_map, Forall_forall. intros. now rewrite map_length. }
    split; auto. intros i j Hi Hj. unfold cell.
    rewrite !(nth_map_in _ cols _ [] []) by auto. rewrite !(nth_map_in _ cols _ [] nnan) by auto.
    generalize (nth i cols []), (nth j cols []). intros a. induction a as [|x a IH]; intros [|y b]; simpl; auto.
    unfold dot in *. simpl. rewrite (mul_comm x y). f_equal. apply IH.
  Qed.

  Lemma evaluated_sym n fn r k x : symmetric_objective n -> r = e_obj E k x ->
    evaluation_of C n fn r -> forall m, fo_hess fn = Some m -> sym n m.
  Proof.
    intros Hso Hr (pf & k' & Hpf & Hty) m Hm.
    apply typed_fout_inv in Hty as (_ & _ & _ & _ & _ & _ & Hh). rewrite Hm in Hh.
    destruct Hh as (nc & Hh & Hrect).
    unfold rect in Hrect. apply andb_true_iff in Hrect as [R1 R2]. apply Nat.eqb_eq in R1.
    assert (Hsq : square n m).
    { split; auto. rewrite forallb_forall in R2. apply Forall_forall. intros a Ha.
      apply Nat.eqb_eq. auto. }
    unfold fun_evaluate in Hpf. destruct r; try discriminate.
    destruct (negb _); try discriminate. destruct (c_resfun C).
    - destruct l as [|[] [|[] []]]; try discriminate. destruct (_ && _); try discriminate.
      injection Hpf as <-. simpl in Hh. injection Hh as <- <-.
      match goal with |- sym n ?m => match m with map _ ?c => pose proof (gram_sym c) as G end end.
      match type of G with sym ?k _ => replace k with n in G; [exact G|] end.
      rewrite map_length in R1. now rewrite R1.
    - destruct l as [|f [|g [|h []]]]; try discriminate; injection Hpf as <-; simpl in Hh; try discriminate.
      subst h. eapply Hso; eauto.
  Qed.
  Lemma evaluated_rows n fn r : evaluation_of C n fn r -> (c_resfun C = false -> fo_sres fn = [])
    /\ Forall (fun row => List.length row = n) (fo_sres fn).
  Proof.
    intros (pf & k' & Hpf & Hty).
    apply typed_fout_inv in Hty as (_ & _ & _ & _ & _ & Hs & Hh). rewrite Hs. 
    unfold fun_evaluate in Hpf. destruct r; try discriminate.
    destruct (negb _); try discriminate. destruct (c_resfun C).
    - split; [discriminate|]. destruct l as [|[] [|[] []]]; try discriminate.
      destruct (_ && _) eqn:Ec; try discriminate.
      injection Hpf as <-. simpl in *. destruct (fo_hess fn) as [m|]; [|discriminate].
      destruct Hh as (nc' & Hh & Hrect). injection Hh as E1 E2. rewrite <- E2 in Hrect.
      unfold rect in Hrect. apply andb_true_iff in Hrect as [R1 R2]. apply Nat.eqb_eq in R1.
      rewrite !map_length, seq_length in R1. rewrite R1 in Ec.
      apply andb_true_iff in Ec as [_ Ec]. rewrite forallb_forall in Ec.
      apply Forall_forall. intros a Ha. apply Nat.eqb_eq. auto.
    - destruct l as [|f [|g [|h []]]]; try discriminate; injection Hpf as <-; simpl; auto.
  Qed.

  (** At every head of the loop of minimize (so for every quadratic model ever used, and for the
      returned matrix) the Hessian is symmetric, provided the objective's Hessians are, the
      caller's hess0 is, and the scheme does not use Broyden's good method *)
  Theorem C41_model_hessian_symmetric : forall ndim x0 sid h0 st f s,
    symmetric_objective (List.length x0) ->
    (forall m, h0 = H0Mat m -> sym (List.length x0) m) ->
    (forall h, o_happ st = Some h -> h_uses_BG h = false) ->
    loop_head E C ndim x0 sid h0 st f s ->
    sym (List.length x0) (o_hess s).
  Proof.
    intros ndim x0 sid h0 st f s Hso Hh0 Hk HL.
    set (n := List.length x0) in *.
    assert (HP : sym n (o_hess s) /\ (forall h, o_happ s = Some h -> h_sym n h)); [|apply HP].
    revert HL. apply (run_hess_ind E C ndim x0 sid h0 st
       (fun hess h => sym n hess /\ forall h', h = Some h' -> h_sym n h')).
    - intros hess h pf fo k Hpf Hty Hh. fold n in Hty, Hh.
      assert (Hev : forall m, fo_hess fo = Some m -> sym n m).
      { eapply evaluated_sym; [exact Hso|reflexivity|]. exists pf, k. split; [exact Hpf|exact Hty]. }
      assert (Hph : forall nc rows, pf_hess pf = PMat nc rows -> sym n rows).
      { intros nc rows Er. apply typed_fout_inv in Hty as (_ & _ & _ & _ & _ & _ & Ht).
        destruct (fo_hess fo) as [m|]; [|congruence]. destruct Ht as (nc' & Ht & _).
        rewrite Er in Ht. injection Ht as <- <-. auto. }
      unfold pr_hess in Hh. destruct (o_happ st) as [h1|].
      + destruct (pr_hess0 h0 pf) as [arg|] eqn:Ea; [|discriminate].
        destruct (h_init h1 n arg) as [h2|] eqn:Ei; [|discriminate]. injection Hh as <- <-.
        assert (Hs2 : h_sym n h2).
        { eapply sym_init; [apply Hk; reflexivity| |exact Ei]. intros m ->.
          unfold pr_hess0 in Ea. destruct h0; try discriminate.
          - injection Ea as ->. auto.
          - destruct (pf_hess pf) eqn:Eq; try discriminate. injection Ea as ->. eauto. }
        split; [now apply h_sym_mat|]. intros h' H. now injection H as <-.
      + destruct (pf_hess pf) eqn:Eq; try discriminate. injection Hh as <- <-.
        split; [eauto|discriminate].
    - intros hess h sv grad since ninter iter fnew fold k r r' hess' h' [Ph Hh'] Hs Hg _ _ _ _ [x Hr] Hev Hev' Hst.
      fold n in Hs, Hg, Hev, Hev'.
      assert (Hm := evaluated_sym n fnew r k x Hso Hr Hev).
      unfold hess_step in Hst. destruct h as [h|].
      + destruct happ_update as [h1|] eqn:Eu; [|discriminate]. injection Hst as <- <-.
        assert (Hs1 : h_sym n h1).
        { eapply sym_step; [apply Hh'; reflexivity|exact Hs|exact Hg| | | |exact Hm|exact Eu].
          - destruct Hev as (pf & k' & _ & Hty). apply typed_fout_inv in Hty. apply Hty.
          - now apply evaluated_rows in Hev.
          - now apply evaluated_rows in Hev'. }
        split; [now apply h_sym_mat|]. intros h' H. now injection H as <-.
      + destruct (fo_hess fnew) as [m|]; [|discriminate]. injection Hst as <- <-.
        split; [now apply Hm|discriminate].
  Qed.
End SymRun.

(** *** Non-vacuity *)
(** x.x without Hessian *)
Definition sumsq2 (_ : nat) (x : list F64) : retval F64 :=
  RTuple [PScal (dot x x + nth 0 x n0 * nth 1 x n0);
          PVec (vadd (vscale n2 x) [nth 1 x n0; nth 0 x n0])].
Definition bfgs2 : cfg F64 * opt F64 :=
  built (fzs [-10; -10]%Z) (fzs [10; 10]%Z) []
    (Some (HIter (mkIhapp (BFGS true) hb_empty))) false.
(** C41_model_hessian_symmetric on a double-precision BFGS run: the hypotheses hold and after one
    pass the model Hessian has non-zero off-diagonal entries *)
Example C41_bfgs_run :
  symmetric_objective (world sumsq2) 2
  /\ (forall h, o_happ (snd bfgs2) = Some h -> h_uses_BG h = false)
  /\ exists f s, loop_head (world sumsq2) (fst bfgs2) 1 (fzs [3; 4]%Z) None H0None (snd bfgs2) f s
       /\ (cell (o_hess s) 0 1 =? n0) = false.
Proof.
  split; [|split].
  - intros k x f g nc m H. discriminate.
  - intros h H. vm_compute in H. injection H as <-. reflexivity.
  - assert (H : one_pass (world sumsq2) (fst bfgs2) (fzs [3; 4]%Z) (snd bfgs2)
      (fun s s' => negb (cell (o_hess s') 0 1 =? n0)) = true) by (vm_compute; reflexivity).
    apply one_pass_head in H.
    destruct H as (f & s & s1 & f' & s' & H1 & H2 & H3 & H4).
    exists f', s'. split; [eapply lh_next; eauto|]. now apply negb_true_iff in H4.
Qed.
(** the exclusion of Broyden's good method is necessary *)
Example C41_BG_not_symmetric :
  let h := ih_update (mkIhapp IBG (mkHbase (eye 2) (eye 2))) (fzs [1; 0]%Z) (fzs [1; 1]%Z) in
  sym 2 (eye 2 : list (list F64)) /\ ~ sym 2 (ih_mat h).
Proof.
  split; [apply sym_eye|]. intros [_ H]. specialize (H 0 1 ltac:(lia) ltac:(lia))%nat.
  apply (f_equal (fun x => x =? n0)) in H. vm_compute in H. discriminate.
Qed.
