(** Models of fides/stepback.py and fides/trust_region.py *)
From Coq Require Import ZArith List Bool String.
Import ListNotations.
From Verif Require Import Num Subproblem Steps.
Local Open Scope num_scope.

Section TrustRegion.
  Context {T : Type} {N : Num T}.
  Local Notation vec := (list T).
  Local Notation mat := (list (list T)).

  (** stepback.py:61-70  the loop [for _ in range(len(x)-1)] over further reflections.
      Returns the steps appended, in order *)
  Fixpoint reflect_loop (k : nat) (O : StepOracles T) (A : sargs T) (rtr : step T)
      : res (list (step T)) :=
    match k with
    | Datatypes.O => Ok []
    | S k' =>
        if st_alpha rtr =? n1 then Ok []
        else
          match calculate O (tr_step_reflected A rtr) with
          | Err e => Err e
          | Ok r =>
              match reflect_loop k' O A r with
              | Err e => Err e
              | Ok l => Ok (r :: l)
              end
          end
    end.

  (** stepback.py:15-72  stepback_reflect *)
  Definition stepback_reflect (O : StepOracles T) (A : sargs T) (tr_step : step T)
      : res (list (step T)) :=
    match calculate O (tr_step_reflected A tr_step) with
    | Err e => Err e
    | Ok r =>
        match reflect_loop (List.length (a_x A) - 1) O A r with
        | Err e => Err e
        | Ok l => Ok (r :: l)
        end
    end.

  (** stepback.py:121-128  [while rtt_step.subspace.shape[1] > 0] *)
  Fixpoint truncate_loop (fuel : nat) (O : StepOracles T) (A : sargs T) (rtt : step T)
      : res (list (step T)) :=
    match fuel with
    | Datatypes.O => Err EDiverge
    | S k =>
        match st_subspace rtt with
        | [] => Ok []
        | _ =>
            if st_alpha rtt =? n1 then Ok []
            else
              match calculate O (tr_step_truncated A rtt) with
              | Err e => Err e
              | Ok r =>
                  match truncate_loop k O A r with
                  | Err e => Err e
                  | Ok l => Ok (r :: l)
                  end
              end
        end
    end.

  (** stepback.py:75-130  stepback_truncate *)
  Definition stepback_truncate (O : StepOracles T) (A : sargs T) (tr_step : step T)
      : res (list (step T)) :=
    match calculate O (tr_step_truncated A tr_step) with
    | Err e => Err e
    | Ok r =>
        match truncate_loop (so_trfuel O) O A r with
        | Err e => Err e
        | Ok l => Ok (r :: l)
        end
    end.

  (** trust_region.py:83-91  the step class selected by subspace_dim; both are str enums,
      so keys are compared as strings; an unknown string is a KeyError *)
  Definition main_step (O : StepOracles T) (A : sargs T) (subspace_dim : string)
      : res (step T) :=
    if String.eqb subspace_dim "2D" then
      match tr_step_2d O A with Ok r => calculate O r | Err e => Err e end
    else if String.eqb subspace_dim "full" then calculate O (tr_step_full A)
    else if String.eqb subspace_dim "scg" then cg_step O A
    else Err EKey.

  (** trust_region.py:98-157 the extra candidates *)
  Definition extra_steps (O : StepOracles T) (A : sargs T) (strategy : string)
      (tr : step T) : res (list (step T)) :=
    (gs <-- calculate O (gradient_step A) ;;
     sr <-- (if String.eqb strategy "reflect_single"
             then (r <-- calculate O (tr_step_reflected A tr) ;; Ok [r])
             else Ok []) ;;
     rf <-- (if String.eqb strategy "reflect" || String.eqb strategy "mixed"
             then stepback_reflect O A tr else Ok []) ;;
     tt <-- (if String.eqb strategy "truncate" || String.eqb strategy "mixed"
             then stepback_truncate O A tr else Ok []) ;;
     re <-- (if String.eqb strategy "refine" && Nat.ltb 1 (List.length (st_subspace tr))
             then (r <-- refined_step O A tr ;; Ok [r])
             else Ok []) ;;
     Ok (gs :: sr ++ rf ++ tt ++ re))%res.

  (** trust_region.py:97-157 all candidates *)
  Definition candidates (O : StepOracles T) (A : sargs T) (subspace_dim strategy : string)
      : res (list (step T)) :=
    (tr <-- main_step O A subspace_dim ;;
     if (st_alpha tr <? n1) && Nat.ltb 1 (List.length (a_sg A))
     then (ex <-- extra_steps O A strategy tr ;; Ok (tr :: ex))
     else Ok [tr])%res.

  (** trust_region.py:79-81: sg = scaling.dot(g), g_dscaling = diag(abs(g) * dv) *)
  Definition tr_args (x g : vec) (hess : mat) (scaling : vec) (delta : T) (dv : vec)
      (theta : T) (lb ub : vec) : sargs T :=
    mkSargs x (vmul scaling g) hess scaling (vmul (vabs g) dv) delta theta ub lb.

  (** trust_region.py:27-176  trust_region (logging omitted): steps[np.argmin(qpvals)].
      The candidate list is never empty, so the default is not used *)
  Definition trust_region (O : StepOracles T) (x g : vec) (hess : mat) (scaling : vec)
      (delta : T) (dv : vec) (theta : T) (lb ub : vec) (subspace_dim strategy : string)
      : res (step T) :=
    let A := tr_args x g hess scaling delta dv theta lb ub in
    (steps <-- candidates O A subspace_dim strategy ;;
     of_option EValue (nth_error steps (argmin (map st_qpval steps))))%res.
End TrustRegion.
