(** C05: residual objectives *)
From Coq Require Import String ZArith List Bool Reals Lra Lia Psatz.
From Verif Require Import Num Constants Subproblem HessApprox Steps TrustRegion Minimize
  ER NumFacts MonadFacts MinFacts Spec Run RunInv RVec Prop_Sym.
Import ListNotations.
Local Open Scope R_scope.
Local Open Scope list_scope.

(** a residual function returning the residuals r and the Jacobian J (one row per residual, one column per variable),
    in exact arithmetic *)
Theorem C05_least_squares : forall (r : rvec) (J : rmat) (n : nat), is_mat (length r) n J ->
  exists (G : rvec) (H : rmat),
    fun_evaluate 2 true (RTuple [PVec (fv r); PMat n (fm J)])
      = Ok (mkPyfun (PScal (Fin (/ 2 * rsum (length r) (fun k => nth k r 0 * nth k r 0)))) (PVec (fv G)) (PMat n (fm H)) (fv r) (fm J))
    /\ (* the value is not negative *) 0 <= / 2 * rsum (length r) (fun k => nth k r 0 * nth k r 0)
    /\ (* the gradient is J^T r *)
       length G = n /\ (forall i, (i < n)%nat -> nth i G 0 = rsum (length r) (fun k => entry J k i * nth k r 0))
    /\ (* the Hessian is J^T J *)
       is_mat n n H /\ (forall i j, (i < n)%nat -> (j < n)%nat -> entry H i j = rsum (length r) (fun k => entry J k i * entry J k j))
    /\ (* which is symmetric and positive semidefinite *)
       symmetric H /\ (forall z, length z = n -> rform H z z = rdot (rmv J z) (rmv J z) /\ 0 <= rform H z z).
Proof.
  intros r J n HJ. pose proof HJ as [HJ1 HJ2].
  set (cols := map (fun i => map (fun row => nth i row 0) J) (seq 0 n)).
  set (H := map (fun a => map (fun b => rdot a b) cols) cols).
  exists (rlincomb n r J), H.
  assert (Lc : length cols = n) by (unfold cols; now rewrite map_length, seq_length).
  assert (Nc : forall i, (i < n)%nat -> nth i cols [] = map (fun row => nth i row 0) J).
  { intros i Hi. unfold cols. rewrite (nth_map_in _ (seq 0 n) i 0%nat) by now rewrite seq_length. now rewrite seq_nth by auto. }
  assert (Nk : forall i k, nth k (map (fun row => nth i row 0) J) 0 = entry J k i).
  { intros i k. unfold entry. destruct (Nat.ltb_spec k (length J)) as [Hk|Hk].
    - now rewrite (nth_map_in (fun row => nth i row 0) J k []) by auto.
    - rewrite (nth_overflow (map _ J)) by now rewrite map_length. rewrite (nth_overflow J) by auto. destruct i; reflexivity. }
  assert (MH : is_mat n n H).
  { split; [unfold H; now rewrite map_length|]. apply Forall_forall. intros row Hr. unfold H in Hr. apply in_map_iff in Hr as (a & <- & _).
    now rewrite map_length. }
  assert (EH : forall i j, (i < n)%nat -> (j < n)%nat -> entry H i j = rdot (nth i cols []) (nth j cols [])).
  { intros i j Hi Hj. unfold entry, H.
    rewrite (nth_map_in _ cols i []) by (now rewrite Lc).
    now rewrite (nth_map_in _ cols j []) by (now rewrite Lc). }
  assert (ES : forall i j, (i < n)%nat -> (j < n)%nat -> entry H i j = rsum (length r) (fun k => entry J k i * entry J k j)).
  { intros i j Hi Hj. rewrite EH, !Nc by auto. rewrite (rdot_sum (length r)) by (rewrite map_length; auto).
    apply rsum_ext. intros k _. now rewrite !Nk. }
  assert (SH : symmetric H).
  { intros i j. destruct (Nat.ltb_spec i n) as [Hi|Hi], (Nat.ltb_spec j n) as [Hj|Hj].
    - rewrite !ES by auto. apply rsum_ext. intros k _. ring.
    - rewrite !(entry_oob n n H) by (auto; lia). reflexivity.
    - rewrite !(entry_oob n n H) by (auto; lia). reflexivity.
    - rewrite !(entry_oob n n H) by (auto; lia). reflexivity. }
  split.
  { unfold fun_evaluate. cbn [length Nat.eqb negb]. rewrite fv_length, fm_length, HJ1, Nat.eqb_refl.
    replace (forallb (fun row : list ER => Nat.eqb (length row) n) (fm J)) with true.
    2:{ symmetry. apply forallb_forall. intros row Hr. unfold fm in Hr. apply in_map_iff in Hr as (a & <- & Ha).
        rewrite Forall_forall in HJ2. rewrite fv_length, (HJ2 _ Ha). apply Nat.eqb_refl. }
    cbn [andb]. rewrite h_dot, half_fin, h_vecmat. cbn [nmul ERNum er_mul].
    rewrite (rdot_sum (length r)) by auto.
    do 2 f_equal.
    f_equal. unfold H, fm. rewrite !map_map. unfold cols. rewrite !map_map. apply map_ext. intros i.
    unfold fv. rewrite !map_map. apply map_ext. intros j.
    assert (Em : forall k, map (fun row : list R => nth k (map Fin row) n0) J = fv (map (fun row => nth k row 0) J)).
    { intros k. unfold fv. rewrite !map_map. apply map_ext. intros row. change (n0 : ER) with (Fin 0). now rewrite map_nth. }
    rewrite Em, ?map_map, Em. apply h_dot. }
  split; [assert (0 <= rsum (length r) (fun k => nth k r 0 * nth k r 0)) by (apply rsum_nonneg; intros; nra); lra|].
  split; [apply rlincomb_length; auto|].
  split.
  { intros i Hi. rewrite <- HJ1. clear - HJ2 Hi. revert r. induction HJ2 as [|row J Hr HJ IH]; intros r; simpl length.
    - destruct r; simpl; now rewrite nth_rzeros.
    - destruct r as [|a r].
      + simpl rlincomb. rewrite nth_rzeros. rewrite (rsum_ext _ _ (fun _ => 0)); [now rewrite rsum_0|].
        intros k _. destruct k; simpl; ring.
      + rewrite rsum_S. simpl rlincomb. rewrite nth_radd.
        * rewrite nth_rscale, IH. cbn [nth entry]. unfold entry. simpl. ring.
        * rewrite rscale_length, rlincomb_length; auto. }
  split; [exact MH|]. split; [exact ES|]. split; [exact SH|].
  intros z Hz.
  assert (K : rform H z z = rdot (rmv J z) (rmv J z)); [|rewrite K; split; auto; apply rdot_self_nonneg].
  rewrite (rform_sum n n H z z MH Hz).
  rewrite (rdot_sum (length r)) by (rewrite rmv_length; auto).
  assert (Ek : forall k, (k < length r)%nat -> nth k (rmv J z) 0 = rsum n (fun i => entry J k i * nth i z 0)).
  { intros k Hk. rewrite nth_rmv. rewrite (rdot_sum n); [reflexivity|]. apply (is_mat_row (length r) n); auto. }
  rewrite (rsum_ext (length r) _ (fun k => rsum n (fun i => rsum n (fun j => nth i z 0 * (entry J k i * entry J k j) * nth j z 0)))).
  2:{ intros k Hk. rewrite Ek by auto.
      set (S := rsum n (fun i => entry J k i * nth i z 0)) at 1.
      rewrite <- rsum_scal. apply rsum_ext. intros i Hi. unfold S. rewrite Rmult_comm, <- rsum_scal.
      apply rsum_ext. intros; ring. }
  rewrite (rsum_swap (length r)). apply rsum_ext. intros i Hi.
  rewrite (rsum_swap (length r)). apply rsum_ext. intros j Hj. rewrite ES by auto.
  rewrite (rsum_ext (length r) (fun k => nth i z 0 * (entry J k i * entry J k j) * nth j z 0)
                                (fun k => (nth i z 0 * nth j z 0) * (entry J k i * entry J k j))) by (intros; ring).
  rewrite rsum_scal. ring.
Qed.

Section Generic.
  Context {T : Type} {N : Num T} {L : NumLaws T} {MC : MulComm T}.
  (** in every number system satisfying the laws, doubles included: when the call succeeds the value is not negative
      (or NaN) and the Hessian is exactly symmetric *)
  Theorem C05_value_not_negative : forall l (p : pyfun T), fun_evaluate 2 true (RTuple l) = Ok p ->
    exists v nc m, pf_fval p = PScal v /\ (v <? n0)%num = false /\ pf_hess p = PMat nc m /\ sym nc m.
  Proof.
    intros l p. unfold fun_evaluate. destruct (negb _); [discriminate|].
    destruct l as [|[] [|[] [|]]]; try discriminate. destruct (_ && _); [|discriminate].
    intros Hp. injection Hp as <-. cbn [pf_fval pf_hess].
    eexists _, _, _. split; [reflexivity|]. split.
    - apply nn_mul; [apply nn_half|]. unfold dot. apply nn_vsum.
match goal with |- context [map2 _ ?v _] => generalize v | |- context [vmul ?v _] => generalize v end.
      intros vv. induction vv as [|a vv IH]; simpl; constructor; auto. 
      (* a square *)
      unfold nn. apply nn_emb. rewrite emb_mul, rnd_isnan.
      assert (K : er_isnan (er_mul (emb a) (emb a)) = true \/ er_leb (Fin 0) (er_mul (emb a) (emb a)) = true).
      { destruct (emb a); simpl; auto; right; er_bool; nra. }
      destruct K as [K|K]; auto. right. now apply rnd_nonneg.
    - split; [reflexivity|]. match goal with |- sym _ (map _ ?c) => pose proof (gram_sym c) as G end.
      rewrite map_length, seq_length in G. exact G.
  Qed.
  (** a Jacobian that does not fit the residuals is rejected with ValueError, and so is any other kind of return value *)
  Theorem C05_bad_shapes : forall (v : list T) nc (j : list (list T)),
    ~ (length j = length v /\ Forall (fun row => length row = nc) j) ->
    fun_evaluate 2 true (RTuple [PVec v; PMat nc j]) = Err EValue.
  Proof.
    intros v nc j Hn. unfold fun_evaluate. cbn [length Nat.eqb negb].
    destruct (Nat.eqb_spec (length v) (length j)); [|reflexivity].
    destruct (forallb _ j) eqn:F; [|reflexivity]. exfalso. apply Hn. split; auto.
    apply Forall_forall. intros row Hr. rewrite forallb_forall in F. now apply Nat.eqb_eq, F.
  Qed.
End Generic.

(** two residuals, three variables *)
Example C05_ex : is_mat (length [1; 2]) 3 [[1; 0; 2]; [0; 1; -1]]
  /\ exists p : pyfun ER, fun_evaluate 2 true (RTuple [PVec (fv [1; 2]); PMat 3 (fm [[1; 0; 2]; [0; 1; -1]])]) = Ok p
       /\ pf_fval p = PScal (Fin (5 / 2)).
Proof.
  assert (M : is_mat (length [1; 2]) 3 [[1; 0; 2]; [0; 1; -1]]) by (split; [reflexivity|repeat constructor]).
  split; auto. destruct (C05_least_squares _ _ _ M) as (G & H & E & _). eexists. split; [exact E|].
  cbn [pf_fval]. do 2 f_equal. simpl. lra.
Qed.
