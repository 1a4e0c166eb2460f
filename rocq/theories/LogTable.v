(** Model of what minimize.py writes to its logger at levels info and warning.
    The text of Optimizer.minimize is repeated in a monad that also collects the messages; the field widths and number
    formats of the f-strings are not modelled (a message carries the numbers it prints). *)
From Coq Require Import ZArith List Bool String.
From Verif Require Import Num Constants Subproblem HessApprox Steps TrustRegion Minimize.
Import ListNotations.
Local Open Scope num_scope.

Section LogTable.
  Context {T : Type} {N : Num T}.
  Local Notation vec := (list T).
  Local Notation mat := (list (list T)).
  Local Notation opt := (opt T).
  Local Notation M := (M T).

  (** minimize.py:768-778  the columns of one row of the table *)
  Record row := mkRow {
    r_iter : Z; r_fval : T; r_fdiff : T; r_ratio : T; r_delta : T; r_normg : T; r_normdx : T;
    r_type : string; r_acc : bool
  }.
  Inductive lmsg :=
  | LHeader                                       (* minimize.py:860-864 *)
  | LInitial (iter : Z) (fval delta normg : T) (acc : bool)   (* minimize.py:841-851; the other columns are NaN *)
  | LRow (r : row)
  | LStop (flag : exit_flag).                     (* the messages "Stopping as ..." of 617-653 (info) and 667-696 (warning) *)

  Definition W (A : Type) : Type := opt -> (res A * opt) * list lmsg.
  Definition wlift {A} (m : M A) : W A := fun st => (m st, []).
  Definition wbind {A B} (m : W A) (f : A -> W B) : W B :=
    fun st => match m st with
              | ((Ok a, s1), l1) => let '(o, l2) := f a s1 in (o, l1 ++ l2)
              | ((Err e, s1), l1) => ((Err e, s1), l1)
              end.
  (** self.logger.info / warning of messages computed from the current attributes *)
  Definition wtell (g : opt -> list lmsg) : W unit := fun st => ((Ok tt, st), g st).

  Declare Scope w_scope.
  Delimit Scope w_scope with w.
  Notation "x <~ a ;; b" := (wbind a (fun x => b))
    (at level 61, a at next level, right associativity) : w_scope.
  Notation "a ~;; b" := (wbind a (fun _ => b))
    (at level 61, right associativity) : w_scope.
  Local Open Scope w_scope.

  Variable E : env T.
  Variable C : cfg T.
  Local Notation O := (c_opts C).

  (** minimize.py:853-864 *)
  Definition log_header : W unit := wtell (fun _ => [LHeader]).
  (** minimize.py:831-851 *)
  Definition log_step_initial : W unit :=
    wtell (fun st => [LInitial (o_iter st) (o_fval st) (o_delta st) (norm (o_grad st)) (nisfin (o_fval st))]).
  (** minimize.py:742-778 *)
  Definition row_of (accepted : bool) (sp : step T) (f : fout T) (st : opt) : row :=
    let fval := if negb (nisfin (fo_fval f)) then o_fval st else fo_fval f in
    mkRow (o_iter st) (if accepted then fval else o_fval st) (fval - o_fval st) (o_tr_ratio st) (o_delta_iter st)
          (norm (o_grad st)) (norm (vadd (st_s sp) (st_s0 sp))) (st_type sp) accepted.
  Definition log_step (accepted : bool) (sp : step T) (f : fout T) : W unit :=
    wtell (fun st => [LRow (row_of accepted sp f st)]).

  (** minimize.py:596-655  check_convergence: each branch that sets the exit flag logs one message *)
  Definition check_convergence_w (sp : step T) (f : fout T) : W unit :=
    wlift (check_convergence C sp f) ~;;
    wtell (fun st => if o_conv st then [LStop (o_flag st)] else []).

  (** minimize.py:657-698  check_continue: each branch that sets the exit flag logs one message; the first
      (already converged) does neither *)
  Definition check_continue_w : W bool :=
    st <~ wlift get ;;
    c <~ wlift (check_continue E C) ;;
    wtell (fun st' => if c || o_conv st then [] else [LStop (o_flag st')]) ~;;
    wlift (ret c).

  (** minimize.py:386-435 *)
  Definition iteration_w (funout : fout T) : W (fout T) :=
    wlift (modify (fun st => set_o_iter (o_iter st + 1)%Z st)) ~;;
    wlift (modify (fun st => set_o_delta_iter (o_delta st) st)) ~;;
    st <~ wlift get ;;
    let x := deref st (o_x st) in
    let vdv := affine_scaling x (o_grad st) (c_lb C) (c_ub C) in
    let v := map fst vdv in
    let dv := map snd vdv in
    let scaling := map (fun a => nsqrt (nabs a)) v in
    let theta := pymax (op_theta_max O) (n1 - norm_inf (vmul v (o_grad st))) in
    wlift check_finite_self ~;;
    sp <~ wlift (lift (sp <-- trust_region (e_la E) x (o_grad st) (o_hess st) scaling (o_delta_iter st) dv
                         theta (c_lb C) (c_ub C) (op_subspace_dim O) (op_stepback O) ;;
                check_shape x sp)%res) ;;
    xn <~ wlift (alloc (vadd (vadd x (st_s sp)) (st_s0 sp))) ;;
    pf <~ wlift (evaluate E C xn) ;;
    fnew <~ wlift (lift (typed_fout (List.length x) pf xn)) ;;
    wlift (when (nisfin (fo_fval fnew)) (check_finite_fo fnew)) ~;;
    accepted <~ wlift (update_tr_radius C fnew sp dv) ;;
    wtell (fun st => if (o_iter st mod 10 =? 0)%Z then [LHeader] else []) ~;;
    log_step accepted sp fnew ~;;
    check_convergence_w sp fnew ~;;
    wlift (track_minimum fnew) ~;;
    wlift (when accepted (update C sp fnew funout)) ~;;
    wlift (when (has_history C) (track_history E accepted sp fnew)) ~;;
    wlift (ret (if accepted then fnew else funout)).

  (** minimize.py:385-435 *)
  Fixpoint loop_w (fuel : nat) (funout : fout T) : W unit :=
    match fuel with
    | Datatypes.O => wlift (raise EDiverge)
    | S k =>
        c <~ check_continue_w ;;
        if c then (f' <~ iteration_w funout ;; loop_w k f') else wlift (ret tt)
    end.

  (** minimize.py:355-383, with 378-379 *)
  Definition prepare_w (ndim : nat) (x0 : vec) (start_id : option string) (hess0 : hess0_arg T) : W (fout T) :=
    wlift (reset E C start_id) ~;;
    x <~ wlift (alloc x0) ;;
    wlift (modify (set_o_x x)) ~;;
    if Nat.ltb 1 ndim then wlift (raise EValue)
    else if negb (Nat.eqb (List.length x0) (List.length (c_ub C))
                  && Nat.eqb (List.length x0) (List.length (c_lb C)))
            || Nat.eqb (List.length x0) 0
    then wlift (raise EValue)
    else
    wlift (make_non_degenerate C) ~;;
    st <~ wlift get ;;
    wlift (check_in_bounds C (deref st (o_x st))) ~;;
    pf <~ wlift (evaluate E C (o_x st)) ;;
    wlift (init_hess (List.length x0) hess0 pf) ~;;
    wlift (lift (checkdims (List.length x0) pf)) ~;;
    f <~ wlift (lift (typed_fout (List.length x0) pf (o_x st))) ;;
    wlift (modify (fun st => set_o_fval (fo_fval f) (set_o_grad (fo_grad f) st))) ~;;
    wlift (track_minimum f) ~;;
    log_header ~;;
    log_step_initial ~;;
    wlift (check_finite_fo f) ~;;
    wlift (modify (set_o_conv false)) ~;;
    wlift (ret f).

  (** minimize.py:313-443 *)
  Definition minimize_w (fuel : nat) (ndim : nat) (x0 : vec) (start_id : option string)
      (hess0 : hess0_arg T) : W (T * nat * vec * mat) :=
    f <~ prepare_w ndim x0 start_id hess0 ;;
    loop_w fuel f ~;;
    wlift (write_history C) ~;;
    st <~ wlift get ;;
    wlift (ret (o_fval st, o_x st, o_grad st, o_hess st)).
End LogTable.

Arguments row : clear implicits.
Arguments lmsg : clear implicits.
Arguments W : clear implicits.
