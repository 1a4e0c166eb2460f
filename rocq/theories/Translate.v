(** Moving the starting point and the bounds of a trust-region problem together (proof library for C66/C67;
    exact arithmetic).  [shv c v] is the vector v with c added coordinate by coordinate *)
From Coq Require Import ZArith String List Bool Reals Lra Lia.
From Verif Require Import Num Constants Subproblem HessApprox Steps TrustRegion Minimize ER NumFacts.
Import ListNotations.
Local Open Scope R_scope.

(** v + c (a coordinate beyond the length of c is left alone) *)
Fixpoint shv (c : list R) (v : list ER) : list ER :=
  match v with
  | [] => []
  | a :: v' => er_add a (Fin (hd 0 c)) :: shv (tl c) v'
  end.

(** ** Extended reals *)
Lemma sh_sub a b c : er_sub (er_add a (Fin c)) (er_add b (Fin c)) = er_sub a b.
Proof. destruct a, b; simpl; auto. f_equal. lra. Qed.
Lemma sh_add a b c : er_add (er_add a (Fin c)) b = er_add (er_add a b) (Fin c).
Proof. destruct a, b; simpl; auto. f_equal. lra. Qed.
Lemma sh_sub_r a b c : er_sub (er_add a (Fin c)) b = er_add (er_sub a b) (Fin c).
Proof. destruct a, b; simpl; auto. f_equal. lra. Qed.
Lemma sh_ltb a b c : er_ltb (er_add a (Fin c)) (er_add b (Fin c)) = er_ltb a b.
Proof.
  destruct a, b; simpl; auto. destruct (Rltb_spec (r + c) (r0 + c)), (Rltb_spec r r0); auto; lra.
Qed.
Lemma sh_fin a c : nisfin (er_add a (Fin c)) = nisfin a.
Proof. destruct a; reflexivity. Qed.
Lemma sh_0 a : er_add a (Fin 0) = a.
Proof. destruct a; simpl; auto. f_equal. lra. Qed.

(** ** Vectors *)
Lemma shv_nil v : shv [] v = v.
Proof. induction v as [|a v IH]; simpl; auto. now rewrite IH, sh_0. Qed.
Lemma shv_length c v : length (shv c v) = length v.
Proof. revert c. induction v as [|a v IH]; intros c; simpl; auto. Qed.
Lemma shv_vadd : forall v c, length c = length v -> shv c v = vadd v (map Fin c).
Proof.
  induction v as [|a v IH]; intros [|d c] H; simpl in *; try discriminate; auto.
  injection H as H. rewrite IH; auto.
Qed.
Lemma vsub_shv : forall a b c, vsub (shv c a) (shv c b) = vsub a b.
Proof.
  induction a as [|x a IH]; intros [|y b] c; simpl; auto. unfold vsub in *. simpl. f_equal; [apply sh_sub|apply IH].
Qed.
Lemma vadd_shv : forall a b c, vadd (shv c a) b = shv c (vadd a b).
Proof.
  induction a as [|x a IH]; intros [|y b] c; simpl; auto. unfold vadd in *. simpl. f_equal; [apply sh_add|apply IH].
Qed.

(** ** Steps *)
Definition shstep (c : list R) (r : step ER) : step ER :=
  mkStep (st_type r) (shv c (st_x r)) (st_s r) (st_sc r) (st_ss r) (st_og_s r) (st_og_sc r) (st_og_ss r) (st_sg r) (st_scaling r) (st_delta r) (st_theta r) (shv c (st_lb r)) (shv c (st_ub r)) (st_br r) (st_minbr r) (st_alpha r) (st_iminbr r) (st_qpval r) (st_shess r) (st_cg r) (st_chess r) (st_subspace r) (st_s0 r) (st_ss0 r) (st_refl r) (st_trunc r) (st_posdef r) (st_newton r).
Lemma sh_set_st_type c v r : shstep c (set_st_type v r) = set_st_type v (shstep c r). Proof. reflexivity. Qed.
Lemma sh_set_st_s c v r : shstep c (set_st_s v r) = set_st_s v (shstep c r). Proof. reflexivity. Qed.
Lemma sh_set_st_sc c v r : shstep c (set_st_sc v r) = set_st_sc v (shstep c r). Proof. reflexivity. Qed.
Lemma sh_set_st_ss c v r : shstep c (set_st_ss v r) = set_st_ss v (shstep c r). Proof. reflexivity. Qed.
Lemma sh_set_st_og_s c v r : shstep c (set_st_og_s v r) = set_st_og_s v (shstep c r). Proof. reflexivity. Qed.
Lemma sh_set_st_og_sc c v r : shstep c (set_st_og_sc v r) = set_st_og_sc v (shstep c r). Proof. reflexivity. Qed.
Lemma sh_set_st_og_ss c v r : shstep c (set_st_og_ss v r) = set_st_og_ss v (shstep c r). Proof. reflexivity. Qed.
Lemma sh_set_st_sg c v r : shstep c (set_st_sg v r) = set_st_sg v (shstep c r). Proof. reflexivity. Qed.
Lemma sh_set_st_scaling c v r : shstep c (set_st_scaling v r) = set_st_scaling v (shstep c r). Proof. reflexivity. Qed.
Lemma sh_set_st_delta c v r : shstep c (set_st_delta v r) = set_st_delta v (shstep c r). Proof. reflexivity. Qed.
Lemma sh_set_st_theta c v r : shstep c (set_st_theta v r) = set_st_theta v (shstep c r). Proof. reflexivity. Qed.
Lemma sh_set_st_br c v r : shstep c (set_st_br v r) = set_st_br v (shstep c r). Proof. reflexivity. Qed.
Lemma sh_set_st_minbr c v r : shstep c (set_st_minbr v r) = set_st_minbr v (shstep c r). Proof. reflexivity. Qed.
Lemma sh_set_st_alpha c v r : shstep c (set_st_alpha v r) = set_st_alpha v (shstep c r). Proof. reflexivity. Qed.
Lemma sh_set_st_iminbr c v r : shstep c (set_st_iminbr v r) = set_st_iminbr v (shstep c r). Proof. reflexivity. Qed.
Lemma sh_set_st_qpval c v r : shstep c (set_st_qpval v r) = set_st_qpval v (shstep c r). Proof. reflexivity. Qed.
Lemma sh_set_st_shess c v r : shstep c (set_st_shess v r) = set_st_shess v (shstep c r). Proof. reflexivity. Qed.
Lemma sh_set_st_cg c v r : shstep c (set_st_cg v r) = set_st_cg v (shstep c r). Proof. reflexivity. Qed.
Lemma sh_set_st_chess c v r : shstep c (set_st_chess v r) = set_st_chess v (shstep c r). Proof. reflexivity. Qed.
Lemma sh_set_st_subspace c v r : shstep c (set_st_subspace v r) = set_st_subspace v (shstep c r). Proof. reflexivity. Qed.
Lemma sh_set_st_s0 c v r : shstep c (set_st_s0 v r) = set_st_s0 v (shstep c r). Proof. reflexivity. Qed.
Lemma sh_set_st_ss0 c v r : shstep c (set_st_ss0 v r) = set_st_ss0 v (shstep c r). Proof. reflexivity. Qed.
Lemma sh_set_st_refl c v r : shstep c (set_st_refl v r) = set_st_refl v (shstep c r). Proof. reflexivity. Qed.
Lemma sh_set_st_trunc c v r : shstep c (set_st_trunc v r) = set_st_trunc v (shstep c r). Proof. reflexivity. Qed.
Lemma sh_set_st_posdef c v r : shstep c (set_st_posdef v r) = set_st_posdef v (shstep c r). Proof. reflexivity. Qed.
Lemma sh_set_st_newton c v r : shstep c (set_st_newton v r) = set_st_newton v (shstep c r). Proof. reflexivity. Qed.

Lemma breakpoint_sh x s l u c :
  breakpoint (er_add x (Fin c)) s (er_add l (Fin c)) (er_add u (Fin c)) = breakpoint x s l u.
Proof.
  unfold breakpoint. change (nsub (er_add u (Fin c)) (er_add x (Fin c))) with (er_sub (er_add u (Fin c)) (er_add x (Fin c))).
  change (nsub (er_add l (Fin c)) (er_add x (Fin c))) with (er_sub (er_add l (Fin c)) (er_add x (Fin c))).
  now rewrite !sh_sub.
Qed.
Lemma breakpoints_sh : forall x s l u c, breakpoints (shv c x) s (shv c l) (shv c u) = breakpoints x s l u.
Proof.
  induction x as [|a x IH]; intros [|b s] [|d l] [|e u] c; simpl; auto. now rewrite breakpoint_sh, IH.
Qed.

(** step_back with the breakpoints given *)
Definition sb_core (br : list ER) (r : step ER) : step ER :=
    let minbr := npmin br in
    let iminbr := where_ (map (fun b => neqb b minbr) br) in
    let alpha := npmin [ n1 ; nmul (st_theta r) minbr ] in
    let r := set_st_og_s (st_s r) r in
    let r := set_st_og_ss (st_ss r) r in
    let r := set_st_og_sc (st_sc r) r in
    let r := set_st_br br r in
    let r := set_st_minbr minbr r in
    let r := set_st_iminbr iminbr r in
    let r := set_st_alpha alpha r in
    let r := set_st_s (vscaler (st_s r) alpha) r in
    let r := set_st_sc (vscaler (st_sc r) alpha) r in
    set_st_ss (vscaler (st_ss r) alpha) r.
Lemma sb_core_eq r : step_back r = sb_core (breakpoints (st_x r) (st_s r) (st_lb r) (st_ub r)) r.
Proof. reflexivity. Qed.
Lemma sb_core_sh c br r : sb_core br (shstep c r) = shstep c (sb_core br r).
Proof. destruct r; reflexivity. Qed.
Lemma step_back_sh c r : step_back (shstep c r) = shstep c (step_back r).
Proof.
  rewrite (sb_core_eq (shstep c r)), (sb_core_eq r).
  change (breakpoints (st_x (shstep c r)) (st_s (shstep c r)) (st_lb (shstep c r)) (st_ub (shstep c r)))
    with (breakpoints (shv c (st_x r)) (st_s r) (shv c (st_lb r)) (shv c (st_ub r))).
  rewrite breakpoints_sh. apply sb_core_sh.
Qed.
Lemma reduce_sh c r : reduce_to_subspace (shstep c r) = shstep c (reduce_to_subspace r).
Proof. destruct r; reflexivity. Qed.
Definition rmap {A B} (f : A -> B) (r : res A) : res B := match r with Ok a => Ok (f a) | Err e => Err e end.
Definition cs_finish (n : nat) (sc : list ER) (r : step ER) : step ER :=
  let ss := lincomb n sc (st_subspace r) in set_st_s (vmul (st_scaling r) ss) (set_st_ss ss (set_st_sc sc r)).
Lemma cs_finish_sh c n sc r : cs_finish n sc (shstep c r) = shstep c (cs_finish n sc r).
Proof. destruct r; reflexivity. Qed.
Lemma compute_step_eq O r : compute_step O r =
  match st_subspace r with
  | [] => Ok (set_st_s (vzeros (length (st_s0 r))) (set_st_ss (vzeros (length (st_s0 r))) (set_st_sc [] r)))
  | [col] => Ok (cs_finish (length (st_s0 r)) (solve_1d_trust_region_subproblem
                  (st_shess r) (st_sg r) col (st_delta r) (st_ss0 r)) r)
  | _ => match solve_nd_trust_region_subproblem (so_sub O) (st_chess r) (st_cg r)
                (nsqrt (pymax (nsub (nsq (st_delta r)) (nsq (norm (st_ss0 r)))) n0)) with
        | Ok (sc, _) => Ok (cs_finish (length (st_s0 r)) sc r)
        | Err e => Err e
        end
  end.
Proof. reflexivity. Qed.
Lemma compute_step_sh O c r : compute_step O (shstep c r) = rmap (shstep c) (compute_step O r).
Proof.
  rewrite (compute_step_eq O (shstep c r)), (compute_step_eq O r).
  change (st_subspace (shstep c r)) with (st_subspace r).
  change (st_s0 (shstep c r)) with (st_s0 r).
  change (st_shess (shstep c r)) with (st_shess r). change (st_sg (shstep c r)) with (st_sg r).
  change (st_delta (shstep c r)) with (st_delta r). change (st_ss0 (shstep c r)) with (st_ss0 r).
  change (st_chess (shstep c r)) with (st_chess r). change (st_cg (shstep c r)) with (st_cg r).
  destruct (st_subspace r) as [|col [|col2 sub]].
  - cbn [rmap]. rewrite sh_set_st_s, sh_set_st_ss, sh_set_st_sc. reflexivity.
  - cbn [rmap]. now rewrite cs_finish_sh.
  - destruct solve_nd_trust_region_subproblem as [[sc lab]|e]; cbn [rmap]; [now rewrite cs_finish_sh|reflexivity].
Qed.
Definition with_qp (r : step ER) : step ER :=
  set_st_qpval (quadratic_form (st_shess r) (st_sg r) (vadd (st_ss r) (st_ss0 r))) r.
Lemma with_qp_sh c r : with_qp (shstep c r) = shstep c (with_qp r).
Proof. reflexivity. Qed.
Lemma calculate_eq O r : calculate O r = rmap (fun r1 => with_qp (step_back r1)) (compute_step O (reduce_to_subspace r)).
Proof. unfold calculate, rmap, with_qp. destruct compute_step; reflexivity. Qed.
Lemma calculate_sh O c r : calculate O (shstep c r) = rmap (shstep c) (calculate O r).
Proof.
  rewrite (calculate_eq O (shstep c r)), (calculate_eq O r). rewrite reduce_sh, compute_step_sh.
  destruct (compute_step O (reduce_to_subspace r)); cbn [rmap]; [|reflexivity].
  now rewrite step_back_sh, with_qp_sh.
Qed.

(** constructor arguments *)
Definition sha (c : list R) (A : sargs ER) : sargs ER :=
  mkSargs (shv c (a_x A)) (a_sg A) (a_hess A) (a_scaling A) (a_gd A) (a_delta A) (a_theta A) (shv c (a_ub A)) (shv c (a_lb A)).
Lemma new_step_sh c typ A x sub s0 ss0 rf tr pd nw :
  new_step typ (sha c A) (shv c x) sub s0 ss0 rf tr pd nw = shstep c (new_step typ A x sub s0 ss0 rf tr pd nw).
Proof. reflexivity. Qed.
Lemma tr_step_full_sh c A : tr_step_full (sha c A) = shstep c (tr_step_full A).
Proof. reflexivity. Qed.
Lemma gradient_step_sh c A : gradient_step (sha c A) = shstep c (gradient_step A).
Proof. reflexivity. Qed.
Lemma tr_step_2d_sh O c A : tr_step_2d O (sha c A) = rmap (shstep c) (tr_step_2d O A).
Proof.
  unfold tr_step_2d. cbv zeta.
  change (a_scaling (sha c A)) with (a_scaling A). change (a_hess (sha c A)) with (a_hess A).
  change (a_gd (sha c A)) with (a_gd A). change (a_sg (sha c A)) with (a_sg A).
  change (a_x (sha c A)) with (shv c (a_x A)). change (zeros_of (sha c A)) with (zeros_of A).
  change (a_delta (sha c A)) with (a_delta A).
  destruct (so_lstsq O _ _) as [ls|]; [|reflexivity].
  destruct (so_eig O _) as [[[e_re e_abs] v]|]; [|reflexivity].
  destruct (a_sg A) as [|g0 [|g1 g]].
  - destruct (_ && _); [reflexivity|]. destruct (_ <? _)%num; reflexivity.
  - reflexivity.
  - destruct (_ && _); [reflexivity|]. destruct (_ <? _)%num; reflexivity.
Qed.
Lemma cg_step_sh O c A : cg_step O (sha c A) = rmap (shstep c) (cg_step O A).
Proof.
  unfold cg_step. cbv zeta.
  change (a_x (sha c A)) with (shv c (a_x A)). change (zeros_of (sha c A)) with (zeros_of A).
  change (a_sg (sha c A)) with (a_sg A). change (a_delta (sha c A)) with (a_delta A).
  rewrite new_step_sh.
  set (base := new_step "cgs" A (a_x A) [] (zeros_of A) (zeros_of A) [] [] None None).
  change (st_shess (shstep c base)) with (st_shess base).
  destruct (_ <? _)%num; [reflexivity|].
  destruct cg_loop as [[[[sub sc] ss] ss0]|e]; [|reflexivity].
  cbn [rmap]. f_equal.
  set (r0 := set_st_subspace sub (set_st_sc sc (set_st_ss ss (set_st_ss0 ss0 base)))).
  change (set_st_subspace sub (set_st_sc sc (set_st_ss ss (set_st_ss0 ss0 (shstep c base))))) with (shstep c r0).
  change (st_scaling (shstep c r0)) with (st_scaling r0).
  rewrite <- sh_set_st_s, step_back_sh. apply with_qp_sh.
Qed.
Lemma reflected_sh c A p : tr_step_reflected (sha c A) (shstep c p) = shstep c (tr_step_reflected A p).
Proof.
  unfold tr_step_reflected. cbv zeta.
  change (a_x (sha c A)) with (shv c (a_x A)). rewrite vadd_shv. apply new_step_sh.
Qed.
Lemma truncated_sh c A p : tr_step_truncated (sha c A) (shstep c p) = shstep c (tr_step_truncated A p).
Proof.
  unfold tr_step_truncated. cbv zeta.
  change (a_x (sha c A)) with (shv c (a_x A)). rewrite vadd_shv. apply new_step_sh.
Qed.
Lemma qp2_sh c r : set_st_qpval (quadratic_form (st_shess (shstep c r)) (st_sg (shstep c r)) (st_ss (shstep c r))) (shstep c r)
  = shstep c (set_st_qpval (quadratic_form (st_shess r) (st_sg r) (st_ss r)) r).
Proof. reflexivity. Qed.
Lemma refined_sh O c A p : refined_step O (sha c A) (shstep c p) = rmap (shstep c) (refined_step O A p).
Proof.
  unfold refined_step. cbv zeta.
  change (a_x (sha c A)) with (shv c (a_x A)). change (zeros_of (sha c A)) with (zeros_of A).
  change (a_sg (sha c A)) with (a_sg A). change (a_delta (sha c A)) with (a_delta A).
  change (a_theta (sha c A)) with (a_theta A). change (a_scaling (sha c A)) with (a_scaling A).
  change (a_lb (sha c A)) with (shv c (a_lb A)). change (a_ub (sha c A)) with (shv c (a_ub A)).
  rewrite !vsub_shv.
  change (st_chess (shstep c p)) with (st_chess p). change (st_cg (shstep c p)) with (st_cg p).
  change (st_sc (shstep c p)) with (st_sc p). change (st_subspace (shstep c p)) with (st_subspace p).
  change (st_refl (shstep c p)) with (st_refl p). change (st_trunc (shstep c p)) with (st_trunc p).
  destruct so_refine as [sc|]; [|reflexivity].
  cbn [rmap]. f_equal. rewrite new_step_sh.
  set (b0 := new_step "ref" A (a_x A) (st_subspace p) (zeros_of A) (zeros_of A) (st_refl p) (st_trunc p) None None).
  rewrite <- sh_set_st_cg, <- sh_set_st_chess.
  set (b1 := set_st_chess _ _).
  change (st_scaling (shstep c b1)) with (st_scaling b1).
  rewrite <- sh_set_st_sc, <- sh_set_st_ss, <- sh_set_st_s, step_back_sh.
  apply qp2_sh.
Qed.

(** ** Candidates *)
Lemma reflect_loop_sh O c A : forall k r,
  reflect_loop k O (sha c A) (shstep c r) = rmap (map (shstep c)) (reflect_loop k O A r).
Proof.
  induction k as [|k IH]; intros r; [reflexivity|]. cbn [reflect_loop].
  change (st_alpha (shstep c r)) with (st_alpha r). destruct (_ =? _)%num; [reflexivity|].
  rewrite reflected_sh, calculate_sh. destruct (calculate O (tr_step_reflected A r)) as [r'|e]; cbn [rmap]; [|reflexivity].
  rewrite IH. destruct (reflect_loop k O A r'); reflexivity.
Qed.
Lemma truncate_loop_sh O c A : forall k r,
  truncate_loop k O (sha c A) (shstep c r) = rmap (map (shstep c)) (truncate_loop k O A r).
Proof.
  induction k as [|k IH]; intros r; [reflexivity|]. cbn [truncate_loop].
  change (st_alpha (shstep c r)) with (st_alpha r). change (st_subspace (shstep c r)) with (st_subspace r).
  destruct (st_subspace r); [reflexivity|]. destruct (_ =? _)%num; [reflexivity|].
  rewrite truncated_sh, calculate_sh. destruct (calculate O (tr_step_truncated A r)) as [r'|e]; cbn [rmap]; [|reflexivity].
  rewrite IH. destruct (truncate_loop k O A r'); reflexivity.
Qed.
Lemma stepback_reflect_sh O c A r :
  stepback_reflect O (sha c A) (shstep c r) = rmap (map (shstep c)) (stepback_reflect O A r).
Proof.
  unfold stepback_reflect. rewrite reflected_sh, calculate_sh.
  change (a_x (sha c A)) with (shv c (a_x A)). rewrite shv_length.
  destruct (calculate O (tr_step_reflected A r)) as [r'|e]; cbn [rmap]; [|reflexivity].
  rewrite reflect_loop_sh. destruct (reflect_loop _ O A r'); reflexivity.
Qed.
Lemma stepback_truncate_sh O c A r :
  stepback_truncate O (sha c A) (shstep c r) = rmap (map (shstep c)) (stepback_truncate O A r).
Proof.
  unfold stepback_truncate. rewrite truncated_sh, calculate_sh.
  destruct (calculate O (tr_step_truncated A r)) as [r'|e]; cbn [rmap]; [|reflexivity].
  rewrite truncate_loop_sh. destruct (truncate_loop _ O A r'); reflexivity.
Qed.
Lemma main_step_sh O c A sd : main_step O (sha c A) sd = rmap (shstep c) (main_step O A sd).
Proof.
  unfold main_step. destruct (String.eqb sd "2D").
  { rewrite tr_step_2d_sh. destruct (tr_step_2d O A); cbn [rmap]; [apply calculate_sh|reflexivity]. }
  destruct (String.eqb sd "full"); [rewrite tr_step_full_sh; apply calculate_sh|].
  destruct (String.eqb sd "scg"); [apply cg_step_sh|reflexivity].
Qed.
Lemma extra_steps_sh O c A strat r :
  extra_steps O (sha c A) strat (shstep c r) = rmap (map (shstep c)) (extra_steps O A strat r).
Proof.
  unfold extra_steps. rewrite gradient_step_sh, calculate_sh, reflected_sh, calculate_sh, stepback_reflect_sh,
    stepback_truncate_sh, refined_sh. change (st_subspace (shstep c r)) with (st_subspace r).
  destruct (calculate O (gradient_step A)) as [gs|e]; cbn [rmap]; [|reflexivity]. cbn [rbind].
  assert (K1 : forall m : res (step ER), rbind (rmap (shstep c) m) (fun r => Ok [r]) = rmap (map (shstep c)) (rbind m (fun r => Ok [r])))
    by (intros [x|x]; reflexivity).
  rewrite !K1.
  assert (K2 : forall (b : bool) (m : res (list (step ER))),
    (if b then rmap (map (shstep c)) m else Ok []) = rmap (map (shstep c)) (if b then m else Ok []))
    by (intros [] m; reflexivity).
  rewrite !K2.
  destruct (if String.eqb strat "reflect_single" then _ else _) as [l1|e]; cbn [rmap rbind]; [|reflexivity].
  destruct (if String.eqb strat "reflect" || _ then _ else _) as [l2|e]; cbn [rmap rbind]; [|reflexivity].
  destruct (if String.eqb strat "truncate" || _ then _ else _) as [l3|e]; cbn [rmap rbind]; [|reflexivity].
  destruct (if String.eqb strat "refine" && _ then _ else _) as [l4|e]; cbn [rmap rbind]; [|reflexivity].
  cbn [map]. now rewrite !map_app.
Qed.
Lemma candidates_sh O c A sd strat :
  candidates O (sha c A) sd strat = rmap (map (shstep c)) (candidates O A sd strat).
Proof.
  unfold candidates. rewrite main_step_sh. destruct (main_step O A sd) as [r|e]; cbn [rmap rbind]; [|reflexivity].
  change (st_alpha (shstep c r)) with (st_alpha r). change (a_sg (sha c A)) with (a_sg A).
  destruct (_ && _); [|reflexivity]. rewrite extra_steps_sh.
  destruct (extra_steps O A strat r); reflexivity.
Qed.
Theorem trust_region_sh O c x g h sc d dv th lb ub sd strat :
  trust_region O (shv c x) g h sc d dv th (shv c lb) (shv c ub) sd strat
  = rmap (shstep c) (trust_region O x g h sc d dv th lb ub sd strat).
Proof.
  unfold trust_region. cbv zeta.
  change (tr_args (shv c x) g h sc d dv th (shv c lb) (shv c ub)) with (sha c (tr_args x g h sc d dv th lb ub)).
  rewrite candidates_sh. destruct (candidates O (tr_args x g h sc d dv th lb ub) sd strat) as [l|e]; cbn [rmap rbind]; [|reflexivity].
  rewrite map_map. rewrite (map_ext (fun r => st_qpval (shstep c r)) st_qpval) by reflexivity.
  rewrite nth_error_map. destruct (nth_error l _); reflexivity.
Qed.
