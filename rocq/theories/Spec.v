(** Vocabulary used in the statements of the properties of minimize.
    Nothing here is part of the model of the code. *)
From Coq Require Import ZArith List Bool String.
From Verif Require Import Num Constants Subproblem HessApprox Steps TrustRegion Minimize.
Import ListNotations.
Local Open Scope num_scope.

Section Spec.
  Context {T : Type} {N : Num T}.
  Local Notation vec := (list T).
  Local Notation mat := (list (list T)).

  (** value and gradient the optimizer understands from what the objective returned *)
  Definition value_of (C : cfg T) (r : retval T) : option T :=
    match fun_evaluate (c_nargout C) (c_resfun C) r with
    | Ok p => match pf_fval p with PScal t => Some t | _ => None end
    | Err _ => None
    end.
  Definition gradient_of (C : cfg T) (r : retval T) : option vec :=
    match fun_evaluate (c_nargout C) (c_resfun C) r with
    | Ok p => match pf_grad p with PVec g => Some g | _ => None end
    | Err _ => None
    end.

  (** x is in the box [lb, ub] in the number system's own comparison (so no coordinate is NaN) *)
  Definition in_box (lb ub x : vec) : Prop :=
    List.length x = List.length lb /\ List.length x = List.length ub /\
    forall i, (i < List.length x)%nat ->
      nth i lb nnan <=? nth i x nnan = true /\ nth i x nnan <=? nth i ub nnan = true.

  (** trust_region, called on the current state of the optimizer as minimize.py:390-412 does,
      proposes the step [sp] (whose arrays have the length of x) *)
  Definition proposes (E : env T) (C : cfg T) (s : opt T) (sp : step T) : Prop :=
    let x := deref s (o_x s) in
    let vdv := affine_scaling x (o_grad s) (c_lb C) (c_ub C) in
    trust_region (e_la E) x (o_grad s) (o_hess s) (map (fun p => nsqrt (nabs (fst p))) vdv)
      (o_delta s) (map snd vdv)
      (pymax (op_theta_max (c_opts C)) (n1 - norm_inf (vmul (map fst vdv) (o_grad s))))
      (c_lb C) (c_ub C) (op_subspace_dim (c_opts C)) (op_stepback (c_opts C)) = Ok sp
    /\ List.length (st_s sp) = List.length x /\ List.length (st_s0 sp) = List.length x.
  (** the point evaluated for that step *)
  Definition trial_point (s : opt T) (sp : step T) : vec :=
    vadd (vadd (deref s (o_x s)) (st_s sp)) (st_s0 sp).
  (** length of the step in the scaled space *)
  Definition scaled_length (sp : step T) : T := norm (vadd (st_ss sp) (st_ss0 sp)).
  (** decrease the quadratic model predicts *)
  Definition predicted_decrease (sp : step T) : T := - (st_qpval sp).
  (** decrease observed when moving from value [f] to [v] with gradient [g], corrected by the
      curvature of the affine scaling (diagonal [dv]): f - v - 1/2 s.(dv |g| s) *)
  Definition actual_decrease (sp : step T) (dv : vec) (f v : T) (g : vec) : T :=
    let s := vadd (st_ss sp) (st_ss0 sp) in
    f - v - nhalf * dot s (vmul (vmul dv (vabs g)) s).
  (** derivative of the scaling at the current point of [s] *)
  Definition scaling_derivative (C : cfg T) (s : opt T) : vec :=
    map snd (affine_scaling (deref s (o_x s)) (o_grad s) (c_lb C) (c_ub C)).

  (** [loop_head E C ndim x0 sid h0 st0 f s]: calling minimize(x0, start_id=sid, hess0=h0) on an
      optimizer in state [st0] reaches the head of the main loop in state [s], with [f] the evaluation
      held by the local variable [funout] *)
  Inductive loop_head (E : env T) (C : cfg T) (ndim : nat) (x0 : vec) (sid : option string)
      (h0 : hess0_arg T) (st0 : opt T) : fout T -> opt T -> Prop :=
  | lh_start f s :
      prepare E C ndim x0 sid h0 st0 = (Ok f, s) ->
      loop_head E C ndim x0 sid h0 st0 f s
  | lh_next f s s1 f' s' :
      loop_head E C ndim x0 sid h0 st0 f s ->
      check_continue E C s = (Ok true, s1) ->
      iteration E C f s1 = (Ok f', s') ->
      loop_head E C ndim x0 sid h0 st0 f' s'.
End Spec.

(** length of the series recorded under a key (0 if there is none) *)
Fixpoint series_length {T : Type} (h : history T) (k : string) : nat :=
  match h with
  | [] => 0
  | (k', vs) :: h' => if String.eqb k k' then List.length vs else series_length h' k
  end.
