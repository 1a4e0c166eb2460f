(** C66, C67: moving the problem, and adding a constant to the objective (exact arithmetic) *)
From Coq Require Import ZArith String List Bool Reals Lra Lia.
From Verif Require Import Num Constants Subproblem HessApprox Steps TrustRegion Minimize ER NumFacts
  Prop_Local Translate.
Import ListNotations.
Local Open Scope R_scope.

(** ** Specification: what "the same problem, moved by c and with k added to the values" means *)
(** a value with k added *)
Definition shk (k : R) (t : ER) : ER := er_add t (Fin k).
(** what the objective returns, with k added to the function value *)
Definition shr (k : R) (r : retval ER) : retval ER :=
  match r with
  | RTuple (PScal t :: l) => RTuple (PScal (shk k t) :: l)
  | r => r
  end.
(** a history, with k added to the values of the series fval *)
Definition shhv (k : R) (v : hval ER) : hval ER := match v with HNum t => HNum (shk k t) | v => v end.
Definition shser (k : R) (kv : string * list (hval ER)) : string * list (hval ER) :=
  (fst kv, if String.eqb (fst kv) "fval" then map (shhv k) (snd kv) else snd kv).
Definition shh (k : R) (h : history ER) : history ER := map (shser k) h.
Definition shfile (k : R) (g : h5group ER) : h5group ER := (fst g, shh k (snd g)).
Definition sheval (c : list R) (k : R) (e : list ER * retval ER) : list ER * retval ER := (shv c (fst e), shr k (snd e)).
(** an optimizer, with every array of points moved by c and k added to every function value; everything else
    (gradients, Hessians, radius, counters, flags, times, other history series) is the same *)
Definition sho (c : list R) (k : R) (r : opt ER) : opt ER :=
  mkOpt (map (shv c) (o_heap r)) (o_x r) (shk k (o_fval r)) (o_grad r) (o_hess r) (o_xmin r) (shk k (o_fval_min r)) (o_grad_min r) (o_delta r) (o_delta_iter r) (o_tr_ratio r) (o_happ r) (o_since r) (o_ninter r) (o_starttime r) (o_iter r) (o_conv r) (o_flag r) (shh k (o_hist r)) (o_start_id r) (map (shfile k) (o_files r)) (o_clk r) (o_nid r) (map (sheval c k) (o_evals r)).
(** the configuration with the bounds moved by c *)
Definition shc (c : list R) (C : cfg ER) : cfg ER :=
  mkCfg (c_opts C) (shv c (c_lb C)) (shv c (c_ub C)) (c_nargout C) (c_resfun C).

(** ** Proof *)
Lemma sho_set_heap c k v s : set_o_heap (map (shv c) v) (sho c k s) = sho c k (set_o_heap v s). Proof. reflexivity. Qed.
Lemma sho_set_o_x c k v s : set_o_x v (sho c k s) = sho c k (set_o_x v s). Proof. reflexivity. Qed.
Lemma sho_set_fval c k v s : set_o_fval (shk k v) (sho c k s) = sho c k (set_o_fval v s). Proof. reflexivity. Qed.
Lemma sho_set_o_grad c k v s : set_o_grad v (sho c k s) = sho c k (set_o_grad v s). Proof. reflexivity. Qed.
Lemma sho_set_o_hess c k v s : set_o_hess v (sho c k s) = sho c k (set_o_hess v s). Proof. reflexivity. Qed.
Lemma sho_set_o_xmin c k v s : set_o_xmin v (sho c k s) = sho c k (set_o_xmin v s). Proof. reflexivity. Qed.
Lemma sho_set_fval_min c k v s : set_o_fval_min (shk k v) (sho c k s) = sho c k (set_o_fval_min v s). Proof. reflexivity. Qed.
Lemma sho_set_o_grad_min c k v s : set_o_grad_min v (sho c k s) = sho c k (set_o_grad_min v s). Proof. reflexivity. Qed.
Lemma sho_set_o_delta c k v s : set_o_delta v (sho c k s) = sho c k (set_o_delta v s). Proof. reflexivity. Qed.
Lemma sho_set_o_delta_iter c k v s : set_o_delta_iter v (sho c k s) = sho c k (set_o_delta_iter v s). Proof. reflexivity. Qed.
Lemma sho_set_o_tr_ratio c k v s : set_o_tr_ratio v (sho c k s) = sho c k (set_o_tr_ratio v s). Proof. reflexivity. Qed.
Lemma sho_set_o_happ c k v s : set_o_happ v (sho c k s) = sho c k (set_o_happ v s). Proof. reflexivity. Qed.
Lemma sho_set_o_since c k v s : set_o_since v (sho c k s) = sho c k (set_o_since v s). Proof. reflexivity. Qed.
Lemma sho_set_o_ninter c k v s : set_o_ninter v (sho c k s) = sho c k (set_o_ninter v s). Proof. reflexivity. Qed.
Lemma sho_set_o_starttime c k v s : set_o_starttime v (sho c k s) = sho c k (set_o_starttime v s). Proof. reflexivity. Qed.
Lemma sho_set_o_iter c k v s : set_o_iter v (sho c k s) = sho c k (set_o_iter v s). Proof. reflexivity. Qed.
Lemma sho_set_o_conv c k v s : set_o_conv v (sho c k s) = sho c k (set_o_conv v s). Proof. reflexivity. Qed.
Lemma sho_set_o_flag c k v s : set_o_flag v (sho c k s) = sho c k (set_o_flag v s). Proof. reflexivity. Qed.
Lemma sho_set_hist c k v s : set_o_hist (shh k v) (sho c k s) = sho c k (set_o_hist v s). Proof. reflexivity. Qed.
Lemma sho_set_o_start_id c k v s : set_o_start_id v (sho c k s) = sho c k (set_o_start_id v s). Proof. reflexivity. Qed.
Lemma sho_set_files c k v s : set_o_files (map (shfile k) v) (sho c k s) = sho c k (set_o_files v s). Proof. reflexivity. Qed.
Lemma sho_set_o_clk c k v s : set_o_clk v (sho c k s) = sho c k (set_o_clk v s). Proof. reflexivity. Qed.
Lemma sho_set_o_nid c k v s : set_o_nid v (sho c k s) = sho c k (set_o_nid v s). Proof. reflexivity. Qed.
Lemma sho_set_evals c k v s : set_o_evals (map (sheval c k) v) (sho c k s) = sho c k (set_o_evals v s). Proof. reflexivity. Qed.

Definition shfo (k : R) (f : fout ER) : fout ER :=
  mkFout (shk k (fo_fval f)) (fo_grad f) (fo_hess f) (fo_x f) (fo_res f) (fo_sres f).
Definition shpv (k : R) (v : pyval ER) : pyval ER := match v with PScal t => PScal (shk k t) | v => v end.
Definition shpf (k : R) (p : pyfun ER) : pyfun ER :=
  mkPyfun (shpv k (pf_fval p)) (pf_grad p) (pf_hess p) (pf_res p) (pf_sres p).

Lemma shr_0 r : shr 0 r = r.
Proof. destruct r as [[|[] l]| |]; simpl; auto. unfold shk. now rewrite sh_0. Qed.
Lemma shpf_0 p : shpf 0 p = p.
Proof. destruct p as [[] g h r s]; unfold shpf; simpl; auto. unfold shk. now rewrite sh_0. Qed.

Lemma fun_evaluate_sh k na rf r : k = 0 \/ rf = false ->
  fun_evaluate na rf (shr k r) = rmap (shpf k) (fun_evaluate na rf r).
Proof.
  intros [-> | ->].
  - rewrite shr_0. destruct (fun_evaluate na rf r); cbn [rmap]; auto. now rewrite shpf_0.
  - destruct r as [l| |]; [|reflexivity|reflexivity].
    destruct l as [|[] l]; simpl; try reflexivity;
    destruct (negb _); try reflexivity; destruct l as [|b [|d [|e l]]]; reflexivity.
Qed.
Lemma checkdims_sh k n p : checkdims n (shpf k p) = checkdims n p.
Proof. destruct p as [[] g h r s]; reflexivity. Qed.
Lemma typed_fout_sh k n p x : typed_fout n (shpf k p) x = rmap (shfo k) (typed_fout n p x).
Proof.
  destruct p as [[] [] h r s]; unfold typed_fout; simpl; try reflexivity.
  destruct (Nat.eqb _ _); [|reflexivity]. destruct h; try reflexivity. destruct (rect _ _ _); reflexivity.
Qed.
Lemma hist_append_sh k h key v : hist_append (shh k h) key (if String.eqb key "fval" then shhv k v else v)
  = shh k (hist_append h key v).
Proof.
  induction h as [|[k' vs] h IH]; simpl.
  - unfold shh, shser. simpl. now destruct (String.eqb key "fval").
  - destruct (String.eqb_spec key k') as [-> |Hn].
    + unfold shh, shser. simpl. destruct (String.eqb k' "fval"); auto. now rewrite map_app.
    + unfold shh in *. simpl. now rewrite IH.
Qed.
Lemma hist_append_all_sh k l h :
  hist_append_all (map (fun kv => (fst kv, if String.eqb (fst kv) "fval" then shhv k (snd kv) else snd kv)) l) (shh k h)
  = shh k (hist_append_all l h).
Proof.
  revert h. induction l as [|[key v] l IH]; intros h; [reflexivity|].
  unfold hist_append_all in *. cbn [map fold_left fst snd]. now rewrite hist_append_sh, IH.
Qed.

Lemma existsb_files k (p : string * string -> bool) l :
  existsb (fun g => p (fst g)) (map (shfile k) l) = existsb (fun g => p (fst g)) l.
Proof. induction l as [|g l IH]; simpl; auto. now rewrite IH. Qed.

Section Sim.
  Variables (c : list R) (k : R) (E : env ER) (C : cfg ER) (obj : nat -> list ER -> retval ER).
  Hypothesis Hobj : forall i x, obj i (shv c x) = shr k (e_obj E i x).
  Hypothesis Hk : k = 0 \/ (c_resfun C = false /\ op_frtol (c_opts C) = Fin 0 /\ op_grtol (c_opts C) = Fin 0).
  Local Notation E' := (with_objective obj E).
  Local Notation C' := (shc c C).
  Local Notation S := (sho c k).

  Definition comm {A B : Type} (f : A -> B) (m : M ER A) (m' : M ER B) : Prop :=
    forall s, m' (S s) = (rmap f (fst (m s)), S (snd (m s))).

  Lemma comm_ret {A B} (f : A -> B) a b : b = f a -> comm f (ret a) (ret b).
  Proof using. intros -> s. reflexivity. Qed.
  Lemma comm_raise {A B} (f : A -> B) e : comm f (raise e) (raise e).
  Proof using. intros s. reflexivity. Qed.
  Lemma comm_get : comm S get get.
  Proof using. intros s. reflexivity. Qed.
  Lemma comm_modify g g' : (forall s, g' (S s) = S (g s)) -> comm (fun u : unit => u) (modify g) (modify g').
  Proof using. intros H s. unfold modify. now rewrite H. Qed.
  Lemma comm_lift {A B} (f : A -> B) r r' : r' = rmap f r -> comm f (lift r) (lift r').
  Proof using. intros -> s. destruct r; reflexivity. Qed.
  Lemma comm_bind {A B A' B'} (f : A -> A') (g : B -> B') m m' q q' :
    comm f m m' -> (forall a, comm g (q a) (q' (f a))) -> comm g (bind m q) (bind m' q').
  Proof using.
    intros Hm Hq s. unfold bind. rewrite Hm. destruct (m s) as [[a|e] s1]; cbn [fst snd rmap]; [apply Hq|reflexivity].
  Qed.
  Lemma comm_seq {B B'} (g : B -> B') m m' q q' :
    comm (fun u : unit => u) m m' -> comm g q q' -> comm g (bind m (fun _ => q)) (bind m' (fun _ => q')).
  Proof using. intros Hm Hq. apply (comm_bind _ _ _ _ _ _ Hm). intros a. exact Hq. Qed.
  Lemma comm_when b m m' : comm (fun u : unit => u) m m' -> comm (fun u : unit => u) (when b m) (when b m').
  Proof using. intros H. destruct b; [exact H|]. now apply comm_ret. Qed.
  Lemma comm_getk {B B'} (g : B -> B') q q' : (forall s, comm g (q s) (q' (S s))) -> comm g (bind get q) (bind get q').
  Proof using. intros H. apply (comm_bind S g _ _ _ _ comm_get). exact H. Qed.

  Lemma deref_sh s r : deref (S s) r = shv c (deref s r).
  Proof using. unfold deref. change (o_heap (S s)) with (map (shv c) (o_heap s)). exact (map_nth (shv c) (o_heap s) [] r). Qed.
  Lemma comm_alloc v : comm (fun r => r) (alloc v) (alloc (shv c v)).
  Proof using.
    intros s. unfold alloc. cbn [fst snd rmap]. change (o_heap (S s)) with (map (shv c) (o_heap s)).
    rewrite map_length. f_equal.
    change [shv c v] with (map (shv c) [v]). rewrite <- map_app. apply sho_set_heap.
  Qed.
  Lemma upd_map {A B} (g : A -> B) l i a : upd (map g l) i (g a) = map g (upd l i a).
  Proof using. revert i. induction l as [|b l IH]; intros [|i]; simpl; auto. now rewrite IH. Qed.
  Lemma comm_store r v : comm (fun u => u) (store r v) (store r (shv c v)).
  Proof using.
    apply comm_modify. intros s. change (o_heap (S s)) with (map (shv c) (o_heap s)).
    rewrite upd_map. apply sho_set_heap.
  Qed.
  Lemma comm_now : comm (fun t => t) (now E) (now E').
  Proof using.
    intros s. unfold now. cbn [fst snd rmap]. change (o_clk (S s)) with (o_clk s).
    change (e_clock E') with (e_clock E). now rewrite sho_set_o_clk.
  Qed.
  Lemma comm_evaluate x : comm (shpf k) (evaluate E C x) (evaluate E' C' x).
  Proof using Hobj Hk.
    intros s. unfold evaluate. cbv zeta. cbn [fst snd]. rewrite deref_sh.
    change (o_evals (S s)) with (map (sheval c k) (o_evals s)). rewrite map_length.
    change (e_obj E') with obj. rewrite Hobj.
    change (c_nargout C') with (c_nargout C). change (c_resfun C') with (c_resfun C).
    f_equal.
    - apply fun_evaluate_sh. tauto.
    - change [(shv c (deref s x), shr k (e_obj E (length (o_evals s)) (deref s x)))]
        with (map (sheval c k) [(deref s x, e_obj E (length (o_evals s)) (deref s x))]).
      rewrite <- map_app. apply sho_set_evals.
  Qed.
  Lemma comm_reset sid : comm (fun u => u) (reset E C sid) (reset E' C' sid).
  Proof using.
    unfold reset. apply (comm_bind (fun t => t) _ _ _ _ _ comm_now). intros t.
    apply comm_seq.
    { apply comm_modify. intros s. change (c_opts C') with (c_opts C).
      change (@ninf ER _) with (shk k ninf) at 1.
      rewrite sho_set_fval_min, sho_set_o_delta_iter, sho_set_o_delta, sho_set_o_conv, sho_set_o_ninter, sho_set_o_since,
        sho_set_o_iter, sho_set_o_starttime. reflexivity. }
    apply comm_seq.
    { assert (K : comm (fun u => u)
        (modify (fun st => set_o_nid (Datatypes.S (o_nid st)) (set_o_start_id (e_uuid E (o_nid st)) st)))
        (modify (fun st => set_o_nid (Datatypes.S (o_nid st)) (set_o_start_id (e_uuid E' (o_nid st)) st)))).
      { apply comm_modify. intros s. change (o_nid (S s)) with (o_nid s). change (e_uuid E') with (e_uuid E).
        now rewrite sho_set_o_start_id, sho_set_o_nid. }
      destruct sid as [s0|]; [|exact K]. destruct (String.eqb s0 ""); [exact K|].
      apply comm_modify. intros s. apply sho_set_o_start_id. }
    apply comm_modify. intros s. exact (sho_set_hist c k [] s).
  Qed.

  Lemma nudge1_sh x l u d : nudge1 (er_add x (Fin d)) (er_add l (Fin d)) (er_add u (Fin d)) = er_add (nudge1 x l u) (Fin d).
  Proof using.
    unfold nudge1. cbv zeta.
    change (nsub (er_add u (Fin d)) (er_add x (Fin d))) with (er_sub (er_add u (Fin d)) (er_add x (Fin d))).
    change (nsub (er_add x (Fin d)) (er_add l (Fin d))) with (er_sub (er_add x (Fin d)) (er_add l (Fin d))).
    rewrite !sh_sub.
    change (nsub (er_add x (Fin d)) nondeg_eps) with (er_sub (er_add x (Fin d)) nondeg_eps). rewrite sh_sub_r.
    change (nsub u x) with (er_sub u x). change (nsub x l) with (er_sub x l). change (nsub x nondeg_eps) with (er_sub x nondeg_eps).
    destruct (nltb (er_sub u x) nondeg_eps), (nltb (er_sub x l) nondeg_eps); try reflexivity; apply sh_add.
  Qed.
  Lemma nudge_sh x : nudge C' (shv c x) = shv c (nudge C x).
  Proof using.
    unfold nudge. change (c_ub C') with (shv c (c_ub C)). change (c_lb C') with (shv c (c_lb C)).
    rewrite !vsub_shv. destruct (_ || _); [|reflexivity].
    generalize (c_lb C) (c_ub C). clear. revert c.
    induction x as [|a x IH]; intros c [|l lb] [|u ub]; simpl; auto. rewrite nudge1_sh. f_equal. apply IH.
  Qed.
  Lemma comm_nondeg : comm (fun u => u) (make_non_degenerate C) (make_non_degenerate C').
  Proof using.
    unfold make_non_degenerate. apply comm_getk. intros s. change (o_x (S s)) with (o_x s).
    rewrite deref_sh, nudge_sh. apply comm_store.
  Qed.
  Lemma in_bounds_sh x : in_bounds C' (shv c x) = in_bounds C x.
  Proof using.
    unfold in_bounds. change (c_ub C') with (shv c (c_ub C)). change (c_lb C') with (shv c (c_lb C)).
    now rewrite !vsub_shv.
  Qed.
  Lemma comm_flag_raise fl e : comm (fun u : unit => u) (bind (modify (set_o_flag fl)) (fun _ => raise e))
    (bind (modify (set_o_flag fl)) (fun _ => raise e)).
  Proof using. apply comm_seq; [|apply comm_raise]. apply comm_modify. intros s. apply sho_set_o_flag. Qed.
  Lemma comm_check_in_bounds x : comm (fun u => u) (check_in_bounds C x) (check_in_bounds C' (shv c x)).
  Proof using.
    unfold check_in_bounds. rewrite in_bounds_sh. destruct (in_bounds C x); [now apply comm_ret|apply comm_flag_raise].
  Qed.
  Lemma shk_fin t : nisfin (shk k t) = nisfin t.
  Proof using. apply sh_fin. Qed.
  Lemma comm_check_finite f g h : comm (fun u => u) (check_finite f g h) (check_finite (shk k f) g h).
  Proof using.
    unfold check_finite. cbv zeta. rewrite shk_fin.
    destruct (negb (nisfin f)); [apply comm_flag_raise|]. destruct (negb (vfinite g)); [apply comm_flag_raise|].
    destruct h as [h|]; [|now apply comm_ret]. destruct (mfinite h); [now apply comm_ret|apply comm_flag_raise].
  Qed.
  Lemma comm_check_finite_self : comm (fun u => u) check_finite_self check_finite_self.
  Proof using. unfold check_finite_self. apply comm_getk. intros s. exact (comm_check_finite (o_fval s) (o_grad s) (Some (o_hess s))). Qed.
  Lemma comm_track_minimum f : comm (fun u => u) (track_minimum f) (track_minimum (shfo k f)).
  Proof using.
    apply comm_modify. intros s. change (fo_fval (shfo k f)) with (shk k (fo_fval f)).
    change (o_fval_min (S s)) with (shk k (o_fval_min s)). rewrite shk_fin.
    change (nltb (shk k (fo_fval f)) (shk k (o_fval_min s)))
      with (er_ltb (er_add (fo_fval f) (Fin k)) (er_add (o_fval_min s) (Fin k))). rewrite sh_ltb.
    change (er_ltb (fo_fval f) (o_fval_min s)) with (nltb (fo_fval f) (o_fval_min s)).
    destruct (_ && _); [|reflexivity].
    change (fo_grad (shfo k f)) with (fo_grad f). change (fo_x (shfo k f)) with (fo_x f).
    now rewrite sho_set_o_grad_min, sho_set_fval_min, sho_set_o_xmin.
  Qed.
  Lemma affine_sh x g : affine_scaling (shv c x) g (shv c (c_lb C)) (shv c (c_ub C)) = affine_scaling x g (c_lb C) (c_ub C).
  Proof using.
    generalize (c_lb C) (c_ub C). clear. revert c g.
    induction x as [|a x IH]; intros c [|b g] [|l lb] [|u ub]; simpl; auto. rewrite IH. f_equal.
    unfold affine1. cbv zeta. destruct (nltb b n0); rewrite sh_fin.
    - change (nsub (er_add a (Fin (hd 0 c))) (er_add u (Fin (hd 0 c)))) with (er_sub (er_add a (Fin (hd 0 c))) (er_add u (Fin (hd 0 c)))).
      rewrite sh_sub. reflexivity.
    - change (nsub (er_add a (Fin (hd 0 c))) (er_add l (Fin (hd 0 c)))) with (er_sub (er_add a (Fin (hd 0 c))) (er_add l (Fin (hd 0 c)))).
      rewrite sh_sub. reflexivity.
  Qed.
  Lemma comm_update_tr f sp dv : comm (fun b => b) (update_tr_radius C f sp dv) (update_tr_radius C' (shfo k f) (shstep c sp) dv).
  Proof using.
    unfold update_tr_radius. apply comm_getk. intros s. cbv zeta.
    change (c_opts C') with (c_opts C).
    change (fo_fval (shfo k f)) with (shk k (fo_fval f)). change (fo_grad (shfo k f)) with (fo_grad f).
    change (st_ss (shstep c sp)) with (st_ss sp). change (st_ss0 (shstep c sp)) with (st_ss0 sp).
    change (st_qpval (shstep c sp)) with (st_qpval sp).
    change (o_delta (S s)) with (o_delta s). change (o_since (S s)) with (o_since s).
    change (o_delta_iter (S s)) with (o_delta_iter s). change (o_fval (S s)) with (shk k (o_fval s)).
    rewrite shk_fin.
    change (nsub (shk k (o_fval s)) (shk k (fo_fval f))) with (er_sub (er_add (o_fval s) (Fin k)) (er_add (fo_fval f) (Fin k))).
    rewrite sh_sub. change (er_sub (o_fval s) (fo_fval f)) with (nsub (o_fval s) (fo_fval f)).
    apply comm_seq.
    { apply comm_modify. intros s1. apply sho_set_o_since. }
    destruct (negb _).
    { apply comm_seq; [|now apply comm_ret]. apply comm_modify. intros s1.
      now rewrite sho_set_o_since, sho_set_o_delta, sho_set_o_tr_ratio. }
    apply comm_seq.
    { apply comm_modify. intros s1. apply sho_set_o_tr_ratio. }
    apply comm_seq; [|now apply comm_ret].
    destruct (_ && negb _).
    { apply comm_modify. intros s1. change (o_delta (S s1)) with (o_delta s1). now rewrite sho_set_o_since, sho_set_o_delta. }
    destruct (nleb _ (op_mu (c_opts C))).
    { apply comm_modify. intros s1. now rewrite sho_set_o_since, sho_set_o_delta. }
    destruct (_ && _).
    { apply comm_modify. intros s1. change (o_ninter (S s1)) with (o_ninter s1). now rewrite sho_set_o_ninter. }
    now apply comm_ret.
  Qed.
  Lemma rel_tol t : k = 0 \/ t = Fin 0 -> forall v, nmul t (nabs (shk k v)) = nmul t (nabs v).
  Proof using.
    intros [Hk0 | ->] v; unfold shk.
    - rewrite Hk0. now rewrite sh_0.
    - destruct v as [r| | |]; try reflexivity. simpl. f_equal. lra.
  Qed.
  Lemma comm_check_convergence sp f :
    comm (fun u => u) (check_convergence C sp f) (check_convergence C' (shstep c sp) (shfo k f)).
  Proof using Hk.
    apply comm_modify. intros s. cbv zeta.
    change (c_opts C') with (c_opts C).
    change (fo_fval (shfo k f)) with (shk k (fo_fval f)). change (fo_grad (shfo k f)) with (fo_grad f).
    change (st_ss (shstep c sp)) with (st_ss sp). change (st_ss0 (shstep c sp)) with (st_ss0 sp).
    change (o_tr_ratio (S s)) with (o_tr_ratio s). change (o_iter (S s)) with (o_iter s).
    change (o_fval (S s)) with (shk k (o_fval s)).
    rewrite !rel_tol by tauto.
    change (nsub (shk k (fo_fval f)) (shk k (o_fval s))) with (er_sub (er_add (fo_fval f) (Fin k)) (er_add (o_fval s) (Fin k))).
    rewrite sh_sub. change (er_sub (fo_fval f) (o_fval s)) with (nsub (fo_fval f) (o_fval s)).
    destruct (_ && _); [now rewrite sho_set_o_flag, sho_set_o_conv|].
    destruct (_ && _); [now rewrite sho_set_o_flag, sho_set_o_conv|].
    destruct (nleb _ _); [now rewrite sho_set_o_flag, sho_set_o_conv|].
    destruct (nleb _ _); [now rewrite sho_set_o_flag, sho_set_o_conv|].
    apply sho_set_o_conv.
  Qed.
  Lemma comm_flag_ret fl (b : bool) : comm (fun b => b) (bind (modify (set_o_flag fl)) (fun _ => ret b))
    (bind (modify (set_o_flag fl)) (fun _ => ret b)).
  Proof using. apply comm_seq; [|now apply comm_ret]. apply comm_modify. intros s. apply sho_set_o_flag. Qed.
  Lemma comm_check_continue : comm (fun b => b) (check_continue E C) (check_continue E' C').
  Proof using.
    unfold check_continue. apply comm_getk. intros s. change (c_opts C') with (c_opts C).
    change (o_conv (S s)) with (o_conv s). change (o_iter (S s)) with (o_iter s).
    change (o_starttime (S s)) with (o_starttime s). change (o_delta (S s)) with (o_delta s).
    destruct (o_conv s); [now apply comm_ret|].
    destruct (Z.leb _ _); [apply comm_flag_ret|].
    apply (comm_bind (fun t => t) _ _ _ _ _ comm_now). intros t. cbv zeta.
    destruct (nltb _ _); [apply comm_flag_ret|].
    destruct (nltb _ _); [apply comm_flag_ret|]. now apply comm_ret.
  Qed.
  Lemma happ_update_sh h s g a b d fn fo :
    happ_update h s g a b d (shfo k fn) (shfo k fo) = happ_update h s g a b d fn fo.
  Proof using. destruct h; reflexivity. Qed.
  Lemma comm_update sp fn fo : comm (fun u => u) (update C sp fn fo) (update C' (shstep c sp) (shfo k fn) (shfo k fo)).
  Proof using.
    unfold update. apply comm_getk. intros s.
    change (o_happ (S s)) with (o_happ s). change (st_s (shstep c sp)) with (st_s sp). change (st_s0 (shstep c sp)) with (st_s0 sp).
    change (o_grad (S s)) with (o_grad s). change (o_since (S s)) with (o_since s). change (o_ninter (S s)) with (o_ninter s).
    change (o_iter (S s)) with (o_iter s).
    change (fo_hess (shfo k fn)) with (fo_hess fn). change (fo_x (shfo k fn)) with (fo_x fn).
    change (fo_grad (shfo k fn)) with (fo_grad fn). change (fo_fval (shfo k fn)) with (shk k (fo_fval fn)).
    apply comm_seq.
    { destruct (o_happ s) as [h|].
      - rewrite happ_update_sh. apply (comm_bind (fun h => h)).
        + apply comm_lift. destruct happ_update; reflexivity.
        + intros h'. apply comm_modify. intros s1. now rewrite sho_set_o_happ, sho_set_o_hess.
      - destruct (fo_hess fn) as [h|]; [|apply comm_raise]. apply comm_modify. intros s1. apply sho_set_o_hess. }
    apply comm_seq.
    { rewrite deref_sh. apply comm_check_in_bounds. }
    apply comm_seq; [|apply comm_nondeg].
    apply comm_modify. intros s1. now rewrite sho_set_o_grad, sho_set_o_x, sho_set_fval.
  Qed.
  Lemma comm_id_lift {A} (r : res A) : comm (fun a => a) (lift r) (lift r).
  Proof using. apply comm_lift. destruct r; reflexivity. Qed.
  Lemma comm_track_history a sp f : comm (fun u => u) (track_history E a sp f) (track_history E' a (shstep c sp) (shfo k f)).
  Proof using.
    unfold track_history. apply comm_getk. intros s. cbv zeta.
    change (st_s (shstep c sp)) with (st_s sp). change (st_s0 (shstep c sp)) with (st_s0 sp).
    change (st_shess (shstep c sp)) with (st_shess sp).
    change (o_grad (S s)) with (o_grad s). change (o_hess (S s)) with (o_hess s). change (o_happ (S s)) with (o_happ s).
    change (e_minmax E') with (e_minmax E). change (e_cond E') with (e_cond E).
    apply (comm_bind (fun a => a)); [apply comm_id_lift|]. intros ev.
    apply (comm_bind (fun a => a)); [apply comm_id_lift|]. intros up.
    apply (comm_bind (fun a => a)); [apply comm_id_lift|]. intros sup.
    apply (comm_bind (fun a => a)); [apply comm_id_lift|]. intros ch.
    apply (comm_bind (fun a => a)); [apply comm_id_lift|]. intros cs.
    apply comm_modify. intros s1.
    rewrite <- sho_set_hist. f_equal. rewrite <- hist_append_all_sh. reflexivity.
  Qed.
  Lemma comm_iteration f : comm (shfo k) (iteration E C f) (iteration E' C' (shfo k f)).
  Proof using Hobj Hk.
    unfold iteration. apply comm_seq.
    { apply comm_modify. intros s. change (o_iter (S s)) with (o_iter s). apply sho_set_o_iter. }
    apply comm_seq.
    { apply comm_modify. intros s. change (o_delta (S s)) with (o_delta s). apply sho_set_o_delta_iter. }
    apply comm_getk. intros s. cbv zeta. change (o_x (S s)) with (o_x s). rewrite deref_sh.
    change (o_grad (S s)) with (o_grad s). change (o_hess (S s)) with (o_hess s). change (o_delta_iter (S s)) with (o_delta_iter s).
    change (c_lb C') with (shv c (c_lb C)). change (c_ub C') with (shv c (c_ub C)). change (c_opts C') with (c_opts C).
    change (e_la E') with (e_la E).
    rewrite affine_sh, trust_region_sh, shv_length.
    apply comm_seq; [apply comm_check_finite_self|].
    apply (comm_bind (shstep c)).
    { apply comm_lift. destruct (trust_region _ _ _ _ _ _ _ _ _ _ _ _) as [sp|e]; [|reflexivity]. cbn [rmap rbind].
      unfold check_shape. change (st_s (shstep c sp)) with (st_s sp). change (st_s0 (shstep c sp)) with (st_s0 sp).
      rewrite shv_length. destruct (_ && _); reflexivity. }
    intros sp. change (st_s (shstep c sp)) with (st_s sp). change (st_s0 (shstep c sp)) with (st_s0 sp).
    rewrite !vadd_shv.
    apply (comm_bind (fun r => r)); [apply comm_alloc|]. intros xn.
    apply (comm_bind (shpf k)); [apply comm_evaluate|]. intros pf.
    apply (comm_bind (shfo k)); [apply comm_lift, typed_fout_sh|]. intros fn.
    change (fo_fval (shfo k fn)) with (shk k (fo_fval fn)). rewrite shk_fin.
    apply comm_seq; [apply comm_when; exact (comm_check_finite (fo_fval fn) (fo_grad fn) (fo_hess fn))|].
    apply (comm_bind (fun b => b)); [apply comm_update_tr|]. intros acc.
    apply comm_seq; [apply comm_check_convergence|].
    apply comm_seq; [apply comm_track_minimum|].
    apply comm_seq; [apply comm_when, comm_update|].
    change (has_history C') with (has_history C).
    apply comm_seq; [apply comm_when, comm_track_history|].
    apply comm_ret. now destruct acc.
  Qed.
  Lemma comm_loop fuel : forall f, comm (fun u => u) (loop E C fuel f) (loop E' C' fuel (shfo k f)).
  Proof using Hobj Hk.
    induction fuel as [|m IH]; intros f; cbn [loop]; [apply comm_raise|].
    apply (comm_bind (fun b => b)); [apply comm_check_continue|]. intros [].
    - apply (comm_bind (shfo k)); [apply comm_iteration|]. exact IH.
    - now apply comm_ret.
  Qed.
  Lemma comm_write : comm (fun u => u) (write_history C) (write_history C').
  Proof using.
    unfold write_history. change (c_opts C') with (c_opts C). destruct (op_history (c_opts C)) as [file|]; [|now apply comm_ret].
    apply comm_getk. intros s. change (o_files (S s)) with (map (shfile k) (o_files s)). change (o_start_id (S s)) with (o_start_id s).
    rewrite (existsb_files k (fun a => String.eqb (fst a) file && String.eqb (snd a) (o_start_id s))).
    destruct (existsb _ _); [apply comm_raise|]. apply comm_modify. intros s1.
    change (o_files (S s1)) with (map (shfile k) (o_files s1)). change (o_start_id (S s1)) with (o_start_id s1).
    change (o_hist (S s1)) with (shh k (o_hist s1)).
    change [((file, o_start_id s1), shh k (o_hist s1))] with (map (shfile k) [((file, o_start_id s1), o_hist s1)]).
    rewrite <- map_app. apply sho_set_files.
  Qed.
  Lemma comm_init_hess n h0 pf : comm (fun u => u) (init_hess n h0 pf) (init_hess n h0 (shpf k pf)).
  Proof using.
    unfold init_hess. apply comm_getk. intros s. change (o_happ (S s)) with (o_happ s).
    change (pf_hess (shpf k pf)) with (pf_hess pf).
    destruct (o_happ s) as [h|].
    - apply (comm_bind (fun a => a)); [apply comm_id_lift|]. intros arg.
      apply (comm_bind (fun a => a)); [apply comm_id_lift|]. intros h'.
      apply comm_modify. intros s1. now rewrite sho_set_o_happ, sho_set_o_hess.
    - destruct (pf_hess pf); try apply comm_raise. apply comm_modify. intros s1. apply sho_set_o_hess.
  Qed.
  Lemma comm_prepare ndim x0 sid h0 : comm (shfo k) (prepare E C ndim x0 sid h0) (prepare E' C' ndim (shv c x0) sid h0).
  Proof using Hobj Hk.
    unfold prepare. apply comm_seq; [apply comm_reset|].
    apply (comm_bind (fun r => r)); [apply comm_alloc|]. intros x.
    apply comm_seq; [apply comm_modify; intros s; apply sho_set_o_x|].
    destruct (Nat.ltb 1 ndim); [apply comm_raise|].
    change (c_lb C') with (shv c (c_lb C)). change (c_ub C') with (shv c (c_ub C)). rewrite !shv_length.
    destruct (_ || _); [apply comm_raise|].
    apply comm_seq; [apply comm_nondeg|].
    apply comm_getk. intros s. change (o_x (S s)) with (o_x s). rewrite deref_sh.
    apply comm_seq; [apply comm_check_in_bounds|].
    apply (comm_bind (shpf k)); [apply comm_evaluate|]. intros pf.
    apply comm_seq; [apply comm_init_hess|].
    rewrite checkdims_sh. apply comm_seq; [apply comm_id_lift|].
    apply (comm_bind (shfo k)); [apply comm_lift, typed_fout_sh|]. intros f.
    apply comm_seq.
    { apply comm_modify. intros s1. change (fo_fval (shfo k f)) with (shk k (fo_fval f)). change (fo_grad (shfo k f)) with (fo_grad f).
      now rewrite sho_set_o_grad, sho_set_fval. }
    apply comm_seq; [apply comm_track_minimum|].
    apply comm_seq; [exact (comm_check_finite (fo_fval f) (fo_grad f) (fo_hess f))|].
    apply comm_seq; [apply comm_modify; intros s1; apply sho_set_o_conv|].
    now apply comm_ret.
  Qed.
  Definition shres (r : ER * nat * list ER * list (list ER)) : ER * nat * list ER * list (list ER) :=
    let '(v, x, g, h) := r in (shk k v, x, g, h).
  Lemma comm_minimize fuel ndim x0 sid h0 :
    comm shres (minimize E C fuel ndim x0 sid h0) (minimize E' C' fuel ndim (shv c x0) sid h0).
  Proof using Hobj Hk.
    unfold minimize. apply (comm_bind (shfo k)); [apply comm_prepare|]. intros f.
    apply comm_seq; [apply comm_loop|]. apply comm_seq; [apply comm_write|].
    apply comm_getk. intros s. now apply comm_ret.
  Qed.
End Sim.

(** ** C66: moving the problem *)
(** the optimizer s with all stored and all evaluated points moved by c, nothing else changed *)
Definition moved (c : list R) (s : opt ER) : opt ER :=
  set_o_heap (map (shv c) (o_heap s)) (set_o_evals (map (fun e => (shv c (fst e), snd e)) (o_evals s)) s).

Lemma shk_0 t : shk 0 t = t.
Proof. apply sh_0. Qed.
Lemma shh_0 h : shh 0 h = h.
Proof.
  induction h as [|[key l] h IH]; [reflexivity|]. unfold shh in *. cbn [map]. rewrite IH. f_equal.
  unfold shser. cbn [fst snd]. destruct (String.eqb key "fval"); auto. f_equal.
  induction l as [|[] l IHl]; simpl; auto; rewrite ?shk_0; now rewrite IHl.
Qed.
Lemma map_same {A} (g : A -> A) l : (forall a, g a = a) -> map g l = l.
Proof. intros H. induction l as [|a l IH]; simpl; auto. now rewrite H, IH. Qed.
Lemma sho_moved c s : sho c 0 s = moved c s.
Proof.
  destruct s as [a1 a2 a3 a4 a5 a6 a7 a8 a9 a10 a11 a12 a13 a14 a15 a16 a17 a18 a19 a20 a21 a22 a23 a24]. unfold sho, moved, set_o_heap, set_o_evals. cbn [o_heap o_x o_fval o_grad o_hess o_xmin o_fval_min o_grad_min o_delta
    o_delta_iter o_tr_ratio o_happ o_since o_ninter o_starttime o_iter o_conv o_flag o_hist o_start_id o_files o_clk o_nid o_evals].
  rewrite !shk_0, shh_0. rewrite (map_same (shfile 0)) by (intros [a h]; unfold shfile; cbn [fst snd]; now rewrite shh_0).
  f_equal. apply map_ext. intros [p r]. unfold sheval. cbn [fst snd]. now rewrite shr_0.
Qed.

Lemma pair_map {A B} (p : res A * B) r s (f : A -> A) (g : B -> B) : p = (r, s) -> (rmap f (fst p), g (snd p)) = (rmap f r, g s).
Proof. intros ->. reflexivity. Qed.
Lemma rmap_same {A} (f : A -> A) r : (forall a, f a = a) -> rmap f r = r.
Proof. intros H. destruct r; simpl; auto. now rewrite H. Qed.

(** any optimizer: if the objective, the bounds and the starting point are moved by c, then the run returns (or raises) the same and
    ends in the same state except that all points are moved by c *)
Theorem C66_translation : forall c (E : env ER) (C : cfg ER) obj fuel ndim x0 sid h0 st r st',
  (forall i x, obj i (shv c x) = e_obj E i x) ->
  minimize E C fuel ndim x0 sid h0 st = (r, st') ->
  minimize (with_objective obj E) (mkCfg (c_opts C) (shv c (c_lb C)) (shv c (c_ub C)) (c_nargout C) (c_resfun C))
    fuel ndim (shv c x0) sid h0 (moved c st) = (r, moved c st').
Proof.
  intros c E C obj fuel ndim x0 sid h0 st r st' Hobj H. rewrite <- !sho_moved.
  change (mkCfg (c_opts C) (shv c (c_lb C)) (shv c (c_ub C)) (c_nargout C) (c_resfun C)) with (shc c C).
  assert (Hobj' : forall i x, obj i (shv c x) = shr 0 (e_obj E i x)) by (intros i x; now rewrite shr_0).
  rewrite (comm_minimize c 0 E C obj Hobj' (or_introl eq_refl) fuel ndim x0 sid h0 st).
  rewrite (pair_map _ _ _ _ _ H). f_equal. apply rmap_same. intros [[[v x] g] h]. unfold shres. now rewrite shk_0.
Qed.

(** the constructor: the same options and Hessian approximation with the moved bounds give the moved optimizer; a new optimizer
    holds no points *)
Theorem C66_new_optimizer : forall {NI : NumInt ER} c parses lb ub d happ0 resfun files C s0,
  optimizer_init parses lb ub d happ0 resfun files = Ok (C, s0) ->
  optimizer_init parses (shv c lb) (shv c ub) d happ0 resfun files
    = Ok (mkCfg (c_opts C) (shv c (c_lb C)) (shv c (c_ub C)) (c_nargout C) (c_resfun C), s0)
  /\ moved c s0 = s0.
Proof.
  intros NI c parses lb ub d happ0 resfun files C s0. unfold optimizer_init. cbv zeta.
  destruct (match happ0 with Some _ => _ | None => _ end) as [[]|e]; cbn [rbind]; [|discriminate].
  destruct (validate_options parses d) as [[]|e]; cbn [rbind]; [|discriminate].
  destruct (opts_of d) as [o|e]; cbn [rbind]; [|discriminate].
  destruct (_ && _); [discriminate|]. intros H. apply (f_equal (fun r => match r with Ok p => p | Err _ => (C, s0) end)) in H.
  apply pair_equal_spec in H as [<- <-]. split; reflexivity.
Qed.

(** in terms of the answer: same exit, counters and derivatives; the returned point and the best point are moved by c *)
Corollary C66_result : forall c (E : env ER) (C : cfg ER) obj fuel ndim x0 sid h0 st fval x g h st',
  (forall i x, obj i (shv c x) = e_obj E i x) ->
  minimize E C fuel ndim x0 sid h0 st = (Ok (fval, x, g, h), st') ->
  exists st2, minimize (with_objective obj E) (mkCfg (c_opts C) (shv c (c_lb C)) (shv c (c_ub C)) (c_nargout C) (c_resfun C))
      fuel ndim (shv c x0) sid h0 (moved c st) = (Ok (fval, x, g, h), st2)
    /\ deref st2 x = shv c (deref st' x) /\ deref st2 (o_xmin st2) = shv c (deref st' (o_xmin st'))
    /\ o_fval_min st2 = o_fval_min st' /\ o_flag st2 = o_flag st' /\ o_iter st2 = o_iter st' /\ o_delta st2 = o_delta st'
    /\ o_hist st2 = o_hist st' /\ map fst (o_evals st2) = map (shv c) (map fst (o_evals st')).
Proof.
  intros c E C obj fuel ndim x0 sid h0 st fval x g h st' Hobj H. exists (moved c st').
  split; [now apply C66_translation|].
  split; [rewrite <- sho_moved; apply deref_sh|].
  split; [rewrite <- sho_moved; apply deref_sh|].
  repeat (split; [reflexivity|]). change (o_evals (moved c st')) with (map (fun e => (shv c (fst e), snd e)) (o_evals st')).
  now rewrite !map_map.
Qed.

(** ** C67: adding a constant to the objective *)
(** the optimizer s with k added to all function values: current, best, those returned by the objective and those in histories *)
Definition raised (k : R) (s : opt ER) : opt ER :=
  set_o_fval (shk k (o_fval s)) (set_o_fval_min (shk k (o_fval_min s)) (set_o_hist (shh k (o_hist s))
    (set_o_files (map (shfile k) (o_files s)) (set_o_evals (map (fun e => (fst e, shr k (snd e))) (o_evals s)) s)))).
Lemma opt_ext (s s' : opt ER) :
  o_heap s = o_heap s' ->
  o_x s = o_x s' ->
  o_fval s = o_fval s' ->
  o_grad s = o_grad s' ->
  o_hess s = o_hess s' ->
  o_xmin s = o_xmin s' ->
  o_fval_min s = o_fval_min s' ->
  o_grad_min s = o_grad_min s' ->
  o_delta s = o_delta s' ->
  o_delta_iter s = o_delta_iter s' ->
  o_tr_ratio s = o_tr_ratio s' ->
  o_happ s = o_happ s' ->
  o_since s = o_since s' ->
  o_ninter s = o_ninter s' ->
  o_starttime s = o_starttime s' ->
  o_iter s = o_iter s' ->
  o_conv s = o_conv s' ->
  o_flag s = o_flag s' ->
  o_hist s = o_hist s' ->
  o_start_id s = o_start_id s' ->
  o_files s = o_files s' ->
  o_clk s = o_clk s' ->
  o_nid s = o_nid s' ->
  o_evals s = o_evals s' -> s = s'.
Proof. destruct s, s'. cbn. intros. subst. reflexivity. Qed.
Lemma sho_raised k s : sho [] k s = raised k s.
Proof.
  apply opt_ext; try reflexivity.
  - change (map (shv []) (o_heap s) = o_heap s). apply map_same, shv_nil.
  - change (map (sheval [] k) (o_evals s) = map (fun e => (fst e, shr k (snd e))) (o_evals s)).
    apply map_ext. intros [p r]. unfold sheval. cbn [fst snd]. now rewrite shv_nil.
Qed.
(** with the relative tolerances switched off, adding k to the objective changes nothing but the reported values *)
Theorem C67_constant_offset : forall k (E : env ER) (C : cfg ER) obj fuel ndim x0 sid h0 st r st',
  c_resfun C = false -> op_frtol (c_opts C) = Fin 0 -> op_grtol (c_opts C) = Fin 0 ->
  (forall i x, obj i x = shr k (e_obj E i x)) ->
  minimize E C fuel ndim x0 sid h0 st = (r, st') ->
  minimize (with_objective obj E) C fuel ndim x0 sid h0 (raised k st)
    = (match r with Ok (fval, x, g, h) => Ok (shk k fval, x, g, h) | Err e => Err e end, raised k st').
Proof.
  intros k E C obj fuel ndim x0 sid h0 st r st' H1 H2 H3 Hobj H. rewrite <- !sho_raised.
  assert (Hobj' : forall i x, obj i (shv [] x) = shr k (e_obj E i x)) by (intros i x; now rewrite shv_nil).
  pose proof (comm_minimize [] k E C obj Hobj' (or_intror (conj H1 (conj H2 H3))) fuel ndim x0 sid h0 st) as K.
  assert (EC : shc [] C = C) by (destruct C as [o l u na rf]; unfold shc; cbn [c_opts c_lb c_ub c_nargout c_resfun]; now rewrite !shv_nil).
  rewrite EC, shv_nil in K. rewrite K. rewrite (pair_map _ _ _ _ _ H).
  f_equal. destruct r as [[[[v x] g] h]|e]; reflexivity.
Qed.
Theorem C67_new_optimizer : forall {NI : NumInt ER} k parses lb ub d happ0 resfun C s0,
  optimizer_init parses lb ub d happ0 resfun [] = Ok (C, s0) -> raised k s0 = s0.
Proof.
  intros NI k parses lb ub d happ0 resfun C s0. unfold optimizer_init. cbv zeta.
  destruct (match happ0 with Some _ => _ | None => _ end) as [[]|e]; cbn [rbind]; [|discriminate].
  destruct (validate_options parses d) as [[]|e]; cbn [rbind]; [|discriminate].
  destruct (opts_of d) as [o|e]; cbn [rbind]; [|discriminate].
  destruct (_ && _); [discriminate|]. intros H. apply (f_equal (fun r => match r with Ok p => p | Err _ => (C, s0) end)) in H.
  apply pair_equal_spec in H as [_ <-]. reflexivity.
Qed.
