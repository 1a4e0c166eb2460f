(** Model of fides/minimize.py (record setters generated by tools/genopt.py) *)
From Coq Require Import ZArith List Bool String.
Import ListNotations.
From Verif Require Import Num Constants Subproblem HessApprox Steps TrustRegion.
Local Open Scope num_scope.

Section Minimize.
  Context {T : Type} {N : Num T}.
  Local Notation vec := (list T).
  Local Notation mat := (list (list T)).

  (** *** Values returned by the user's objective *)
  Inductive pyval :=
  | PNone
  | PScal (t : T)                              (* np.isscalar *)
  | PVec (v : vec)                             (* array, ndim = 1 *)
  | PMat (ncols : nat) (rows : mat)            (* array, ndim = 2 *)
  | PNd (ndim : nat).                          (* array with another ndim (0 or >= 3) *)

  (** what calling [fun(x)] does: returns a tuple, something that is not a tuple, or raises *)
  Inductive retval := RTuple (l : list pyval) | RNonTuple | RRaise.

  (** Funout (minimize.py:85-100) as built by FunEvaluator, before any check of dimensions *)
  Record pyfun := mkPyfun {
    pf_fval : pyval; pf_grad : pyval; pf_hess : pyval;
    pf_res : vec; pf_sres : mat
  }.

  (** minimize.py:51-82  FunEvaluator.__call__ applied to the outcome of fun(x, **funargs).
      With resfun, [res, sres = ret] fails for a tuple of other length than 2 (ValueError), and
      numpy raises if res and sres do not fit (modelled as ValueError) *)
  Definition fun_evaluate (nargout : nat) (resfun : bool) (r : retval) : res pyfun :=
    match r with
    | RRaise => Err EUser
    | RNonTuple => Err EValue
    | RTuple l =>
        if negb (Nat.eqb (List.length l) nargout) then Err EValue
        else if resfun then
          match l with
          | [PVec r; PMat nc j] =>
              if Nat.eqb (List.length r) (List.length j)
                 && forallb (fun row => Nat.eqb (List.length row) nc) j
              then Ok (mkPyfun (PScal (nhalf * dot r r))
                               (PVec (vecmat nc r j))
                               (PMat nc (map (fun a => map (fun b => dot a b)
                                          (map (fun i => map (fun row => nth i row n0) j) (seq 0 nc)))
                                        (map (fun i => map (fun row => nth i row n0) j) (seq 0 nc))))
                               r j)
              else Err EValue
          | _ => Err EValue
          end
        else
          match l with
          | [f; g; h] => Ok (mkPyfun f g h [] [])
          | [f; g] => Ok (mkPyfun f g PNone [] [])
          | _ => Err EValue
          end
    end.

  (** minimize.py:102-154  Funout.checkdims *)
  Definition checkdims (n : nat) (p : pyfun) : res unit :=
    match pf_fval p with
    | PScal _ =>
        match pf_grad p with
        | PNone => Err EAttr
        | PVec g =>
            if negb (Nat.eqb (List.length g) n) then Err EValue
            else
              match pf_hess p with
              | PNone => Ok tt
              | PMat nc rows =>
                  if negb (Nat.eqb (List.length rows) nc) then Err EValue
                  else if negb (Nat.eqb (List.length rows) n) then Err EValue
                  else Ok tt
              | _ => Err EValue
              end
        | _ => Err EValue
        end
    | _ => Err EValue
    end.

  (** An evaluation as the algorithm uses it.  [fo_x] is a reference into the heap *)
  Record fout := mkFout {
    fo_fval : T; fo_grad : vec; fo_hess : option mat; fo_x : nat; fo_res : vec; fo_sres : mat
  }.

  Definition rect (nr nc : nat) (m : mat) : bool :=
    Nat.eqb (List.length m) nr && forallb (fun row => Nat.eqb (List.length row) nc) m.

  (** Typed view of an evaluation for an n-dimensional x.  Only the first evaluation is passed through
      checkdims; a later evaluation with other shapes makes some numpy operation of the loop
      raise (or broadcast), modelled as ValueError here *)
  Definition typed_fout (n : nat) (p : pyfun) (x : nat) : res fout :=
    match pf_fval p, pf_grad p with
    | PScal f, PVec g =>
        if Nat.eqb (List.length g) n then
          match pf_hess p with
          | PNone => Ok (mkFout f g None x (pf_res p) (pf_sres p))
          | PMat nc rows =>
              if rect n n rows then Ok (mkFout f g (Some rows) x (pf_res p) (pf_sres p))
              else Err EValue
          | _ => Err EValue
          end
        else Err EValue
    | _, _ => Err EValue
    end.

  (** *** Environment: everything outside fides, as unconstrained functions *)
  Record env := mkEnv {
    e_obj : nat -> vec -> retval;     (* k-th call of the objective (stateful objectives allowed);
                                         it does not modify its argument *)
    e_clock : nat -> T;               (* k-th call of time.time() *)
    e_uuid : nat -> string;           (* k-th call of uuid.uuid1() *)
    e_la : StepOracles T;
    e_minmax : mat -> option (T * T); (* _min_max_evs (minimize.py:950-952); None = raises *)
    e_cond : mat -> option T          (* np.linalg.cond; None = raises *)
  }.

  (** configuration fixed by the constructor (minimize.py:227-261) *)
  Record cfg := mkCfg {
    c_opts : opts T; c_lb : vec; c_ub : vec; c_nargout : nat; c_resfun : bool
  }.

  (** one entry of a history series *)
  Inductive hval := HNum (t : T) | HInt (z : Z) | HBool (b : bool) | HStr (s : string).
  Definition history := list (string * list hval).
  (** one group of an h5 file: (file, group name, datasets) *)
  Definition h5group := (string * string * history)%type.

  (** Instance attributes of Optimizer (minimize.py:253-296) plus the outside world *)
  Record opt := mkOpt {
    o_heap : list vec;   (* arrays that the code shares and mutates, by reference *)
    o_x : nat;   (* self.x, a reference *)
    o_fval : T;
    o_grad : vec;
    o_hess : mat;
    o_xmin : nat;   (* self.x_min, a reference *)
    o_fval_min : T;
    o_grad_min : vec;
    o_delta : T;
    o_delta_iter : T;
    o_tr_ratio : T;
    o_happ : option (happ T);   (* self.hessian_update *)
    o_since : Z;   (* iterations_since_tr_update *)
    o_ninter : Z;   (* n_intermediate_tr_radius *)
    o_starttime : T;
    o_iter : Z;   (* iteration *)
    o_conv : bool;   (* converged *)
    o_flag : exit_flag;
    o_hist : history;   (* self.history *)
    o_start_id : string;
    o_files : list h5group;   (* contents of the history files (outside world) *)
    o_clk : nat;   (* number of time.time() calls so far (outside world) *)
    o_nid : nat;   (* number of uuid1() calls so far (outside world) *)
    o_evals : list (vec * retval)   (* log of objective calls: argument and result, oldest first (ghost) *)
  }.
  Definition set_o_heap (v : list vec) (r : opt) : opt :=
    mkOpt v (o_x r) (o_fval r) (o_grad r) (o_hess r) (o_xmin r) (o_fval_min r) (o_grad_min r) (o_delta r) (o_delta_iter r) (o_tr_ratio r) (o_happ r) (o_since r) (o_ninter r) (o_starttime r) (o_iter r) (o_conv r) (o_flag r) (o_hist r) (o_start_id r) (o_files r) (o_clk r) (o_nid r) (o_evals r).
  Definition set_o_x (v : nat) (r : opt) : opt :=
    mkOpt (o_heap r) v (o_fval r) (o_grad r) (o_hess r) (o_xmin r) (o_fval_min r) (o_grad_min r) (o_delta r) (o_delta_iter r) (o_tr_ratio r) (o_happ r) (o_since r) (o_ninter r) (o_starttime r) (o_iter r) (o_conv r) (o_flag r) (o_hist r) (o_start_id r) (o_files r) (o_clk r) (o_nid r) (o_evals r).
  Definition set_o_fval (v : T) (r : opt) : opt :=
    mkOpt (o_heap r) (o_x r) v (o_grad r) (o_hess r) (o_xmin r) (o_fval_min r) (o_grad_min r) (o_delta r) (o_delta_iter r) (o_tr_ratio r) (o_happ r) (o_since r) (o_ninter r) (o_starttime r) (o_iter r) (o_conv r) (o_flag r) (o_hist r) (o_start_id r) (o_files r) (o_clk r) (o_nid r) (o_evals r).
  Definition set_o_grad (v : vec) (r : opt) : opt :=
    mkOpt (o_heap r) (o_x r) (o_fval r) v (o_hess r) (o_xmin r) (o_fval_min r) (o_grad_min r) (o_delta r) (o_delta_iter r) (o_tr_ratio r) (o_happ r) (o_since r) (o_ninter r) (o_starttime r) (o_iter r) (o_conv r) (o_flag r) (o_hist r) (o_start_id r) (o_files r) (o_clk r) (o_nid r) (o_evals r).
  Definition set_o_hess (v : mat) (r : opt) : opt :=
    mkOpt (o_heap r) (o_x r) (o_fval r) (o_grad r) v (o_xmin r) (o_fval_min r) (o_grad_min r) (o_delta r) (o_delta_iter r) (o_tr_ratio r) (o_happ r) (o_since r) (o_ninter r) (o_starttime r) (o_iter r) (o_conv r) (o_flag r) (o_hist r) (o_start_id r) (o_files r) (o_clk r) (o_nid r) (o_evals r).
  Definition set_o_xmin (v : nat) (r : opt) : opt :=
    mkOpt (o_heap r) (o_x r) (o_fval r) (o_grad r) (o_hess r) v (o_fval_min r) (o_grad_min r) (o_delta r) (o_delta_iter r) (o_tr_ratio r) (o_happ r) (o_since r) (o_ninter r) (o_starttime r) (o_iter r) (o_conv r) (o_flag r) (o_hist r) (o_start_id r) (o_files r) (o_clk r) (o_nid r) (o_evals r).
  Definition set_o_fval_min (v : T) (r : opt) : opt :=
    mkOpt (o_heap r) (o_x r) (o_fval r) (o_grad r) (o_hess r) (o_xmin r) v (o_grad_min r) (o_delta r) (o_delta_iter r) (o_tr_ratio r) (o_happ r) (o_since r) (o_ninter r) (o_starttime r) (o_iter r) (o_conv r) (o_flag r) (o_hist r) (o_start_id r) (o_files r) (o_clk r) (o_nid r) (o_evals r).
  Definition set_o_grad_min (v : vec) (r : opt) : opt :=
    mkOpt (o_heap r) (o_x r) (o_fval r) (o_grad r) (o_hess r) (o_xmin r) (o_fval_min r) v (o_delta r) (o_delta_iter r) (o_tr_ratio r) (o_happ r) (o_since r) (o_ninter r) (o_starttime r) (o_iter r) (o_conv r) (o_flag r) (o_hist r) (o_start_id r) (o_files r) (o_clk r) (o_nid r) (o_evals r).
  Definition set_o_delta (v : T) (r : opt) : opt :=
    mkOpt (o_heap r) (o_x r) (o_fval r) (o_grad r) (o_hess r) (o_xmin r) (o_fval_min r) (o_grad_min r) v (o_delta_iter r) (o_tr_ratio r) (o_happ r) (o_since r) (o_ninter r) (o_starttime r) (o_iter r) (o_conv r) (o_flag r) (o_hist r) (o_start_id r) (o_files r) (o_clk r) (o_nid r) (o_evals r).
  Definition set_o_delta_iter (v : T) (r : opt) : opt :=
    mkOpt (o_heap r) (o_x r) (o_fval r) (o_grad r) (o_hess r) (o_xmin r) (o_fval_min r) (o_grad_min r) (o_delta r) v (o_tr_ratio r) (o_happ r) (o_since r) (o_ninter r) (o_starttime r) (o_iter r) (o_conv r) (o_flag r) (o_hist r) (o_start_id r) (o_files r) (o_clk r) (o_nid r) (o_evals r).
  Definition set_o_tr_ratio (v : T) (r : opt) : opt :=
    mkOpt (o_heap r) (o_x r) (o_fval r) (o_grad r) (o_hess r) (o_xmin r) (o_fval_min r) (o_grad_min r) (o_delta r) (o_delta_iter r) v (o_happ r) (o_since r) (o_ninter r) (o_starttime r) (o_iter r) (o_conv r) (o_flag r) (o_hist r) (o_start_id r) (o_files r) (o_clk r) (o_nid r) (o_evals r).
  Definition set_o_happ (v : option (happ T)) (r : opt) : opt :=
    mkOpt (o_heap r) (o_x r) (o_fval r) (o_grad r) (o_hess r) (o_xmin r) (o_fval_min r) (o_grad_min r) (o_delta r) (o_delta_iter r) (o_tr_ratio r) v (o_since r) (o_ninter r) (o_starttime r) (o_iter r) (o_conv r) (o_flag r) (o_hist r) (o_start_id r) (o_files r) (o_clk r) (o_nid r) (o_evals r).
  Definition set_o_since (v : Z) (r : opt) : opt :=
    mkOpt (o_heap r) (o_x r) (o_fval r) (o_grad r) (o_hess r) (o_xmin r) (o_fval_min r) (o_grad_min r) (o_delta r) (o_delta_iter r) (o_tr_ratio r) (o_happ r) v (o_ninter r) (o_starttime r) (o_iter r) (o_conv r) (o_flag r) (o_hist r) (o_start_id r) (o_files r) (o_clk r) (o_nid r) (o_evals r).
  Definition set_o_ninter (v : Z) (r : opt) : opt :=
    mkOpt (o_heap r) (o_x r) (o_fval r) (o_grad r) (o_hess r) (o_xmin r) (o_fval_min r) (o_grad_min r) (o_delta r) (o_delta_iter r) (o_tr_ratio r) (o_happ r) (o_since r) v (o_starttime r) (o_iter r) (o_conv r) (o_flag r) (o_hist r) (o_start_id r) (o_files r) (o_clk r) (o_nid r) (o_evals r).
  Definition set_o_starttime (v : T) (r : opt) : opt :=
    mkOpt (o_heap r) (o_x r) (o_fval r) (o_grad r) (o_hess r) (o_xmin r) (o_fval_min r) (o_grad_min r) (o_delta r) (o_delta_iter r) (o_tr_ratio r) (o_happ r) (o_since r) (o_ninter r) v (o_iter r) (o_conv r) (o_flag r) (o_hist r) (o_start_id r) (o_files r) (o_clk r) (o_nid r) (o_evals r).
  Definition set_o_iter (v : Z) (r : opt) : opt :=
    mkOpt (o_heap r) (o_x r) (o_fval r) (o_grad r) (o_hess r) (o_xmin r) (o_fval_min r) (o_grad_min r) (o_delta r) (o_delta_iter r) (o_tr_ratio r) (o_happ r) (o_since r) (o_ninter r) (o_starttime r) v (o_conv r) (o_flag r) (o_hist r) (o_start_id r) (o_files r) (o_clk r) (o_nid r) (o_evals r).
  Definition set_o_conv (v : bool) (r : opt) : opt :=
    mkOpt (o_heap r) (o_x r) (o_fval r) (o_grad r) (o_hess r) (o_xmin r) (o_fval_min r) (o_grad_min r) (o_delta r) (o_delta_iter r) (o_tr_ratio r) (o_happ r) (o_since r) (o_ninter r) (o_starttime r) (o_iter r) v (o_flag r) (o_hist r) (o_start_id r) (o_files r) (o_clk r) (o_nid r) (o_evals r).
  Definition set_o_flag (v : exit_flag) (r : opt) : opt :=
    mkOpt (o_heap r) (o_x r) (o_fval r) (o_grad r) (o_hess r) (o_xmin r) (o_fval_min r) (o_grad_min r) (o_delta r) (o_delta_iter r) (o_tr_ratio r) (o_happ r) (o_since r) (o_ninter r) (o_starttime r) (o_iter r) (o_conv r) v (o_hist r) (o_start_id r) (o_files r) (o_clk r) (o_nid r) (o_evals r).
  Definition set_o_hist (v : history) (r : opt) : opt :=
    mkOpt (o_heap r) (o_x r) (o_fval r) (o_grad r) (o_hess r) (o_xmin r) (o_fval_min r) (o_grad_min r) (o_delta r) (o_delta_iter r) (o_tr_ratio r) (o_happ r) (o_since r) (o_ninter r) (o_starttime r) (o_iter r) (o_conv r) (o_flag r) v (o_start_id r) (o_files r) (o_clk r) (o_nid r) (o_evals r).
  Definition set_o_start_id (v : string) (r : opt) : opt :=
    mkOpt (o_heap r) (o_x r) (o_fval r) (o_grad r) (o_hess r) (o_xmin r) (o_fval_min r) (o_grad_min r) (o_delta r) (o_delta_iter r) (o_tr_ratio r) (o_happ r) (o_since r) (o_ninter r) (o_starttime r) (o_iter r) (o_conv r) (o_flag r) (o_hist r) v (o_files r) (o_clk r) (o_nid r) (o_evals r).
  Definition set_o_files (v : list h5group) (r : opt) : opt :=
    mkOpt (o_heap r) (o_x r) (o_fval r) (o_grad r) (o_hess r) (o_xmin r) (o_fval_min r) (o_grad_min r) (o_delta r) (o_delta_iter r) (o_tr_ratio r) (o_happ r) (o_since r) (o_ninter r) (o_starttime r) (o_iter r) (o_conv r) (o_flag r) (o_hist r) (o_start_id r) v (o_clk r) (o_nid r) (o_evals r).
  Definition set_o_clk (v : nat) (r : opt) : opt :=
    mkOpt (o_heap r) (o_x r) (o_fval r) (o_grad r) (o_hess r) (o_xmin r) (o_fval_min r) (o_grad_min r) (o_delta r) (o_delta_iter r) (o_tr_ratio r) (o_happ r) (o_since r) (o_ninter r) (o_starttime r) (o_iter r) (o_conv r) (o_flag r) (o_hist r) (o_start_id r) (o_files r) v (o_nid r) (o_evals r).
  Definition set_o_nid (v : nat) (r : opt) : opt :=
    mkOpt (o_heap r) (o_x r) (o_fval r) (o_grad r) (o_hess r) (o_xmin r) (o_fval_min r) (o_grad_min r) (o_delta r) (o_delta_iter r) (o_tr_ratio r) (o_happ r) (o_since r) (o_ninter r) (o_starttime r) (o_iter r) (o_conv r) (o_flag r) (o_hist r) (o_start_id r) (o_files r) (o_clk r) v (o_evals r).
  Definition set_o_evals (v : list (vec * retval)) (r : opt) : opt :=
    mkOpt (o_heap r) (o_x r) (o_fval r) (o_grad r) (o_hess r) (o_xmin r) (o_fval_min r) (o_grad_min r) (o_delta r) (o_delta_iter r) (o_tr_ratio r) (o_happ r) (o_since r) (o_ninter r) (o_starttime r) (o_iter r) (o_conv r) (o_flag r) (o_hist r) (o_start_id r) (o_files r) (o_clk r) (o_nid r) v.


  (** *** State and exceptions: an exception keeps the state reached *)
  Definition M (A : Type) : Type := opt -> res A * opt.
  Definition ret {A} (a : A) : M A := fun st => (Ok a, st).
  Definition raise {A} (e : exn) : M A := fun st => (Err e, st).
  Definition bind {A B} (m : M A) (f : A -> M B) : M B :=
    fun st => match m st with (Ok a, st') => f a st' | (Err e, st') => (Err e, st') end.
  Definition get : M opt := fun st => (Ok st, st).
  Definition modify (f : opt -> opt) : M unit := fun st => (Ok tt, f st).
  Definition lift {A} (r : res A) : M A :=
    fun st => match r with Ok a => (Ok a, st) | Err e => (Err e, st) end.
  Definition when (b : bool) (m : M unit) : M unit := if b then m else ret tt.

  Declare Scope m_scope.
  Delimit Scope m_scope with m.
  Notation "x <- a ;; b" := (bind a (fun x => b))
    (at level 61, a at next level, right associativity) : m_scope.
  Notation "a ;;; b" := (bind a (fun _ => b))
    (at level 61, right associativity) : m_scope.
  Local Open Scope m_scope.

  (** *** Heap *)
  Definition deref (st : opt) (r : nat) : vec := nth r (o_heap st) [].
  Definition alloc (v : vec) : M nat :=
    fun st => (Ok (List.length (o_heap st)), set_o_heap (o_heap st ++ [v]) st).
  Fixpoint upd {A} (l : list A) (i : nat) (a : A) : list A :=
    match l, i with
    | [], _ => []
    | _ :: l', O => a :: l'
    | b :: l', S i' => b :: upd l' i' a
    end.
  Definition store (r : nat) (v : vec) : M unit :=
    modify (fun st => set_o_heap (upd (o_heap st) r v) st).

  (** minimize.py:227-235  number of outputs the objective has to return *)
  Definition nargout_of (h : option (happ T)) : nat :=
    match h with
    | None => 3
    | Some h => if requires_hess h && negb (requires_resfun h) then 3 else 2
    end.

  (** minimize.py:186-296  Optimizer.__init__ for an options dictionary [d]; [parses] as in
      validate_options.  self.x etc. are np.empty arrays (arbitrary contents, here []) *)
  Definition optimizer_init {NI : NumInt T} (parses : string -> bool) (lb ub : vec)
      (d : odict T) (happ0 : option (happ T)) (resfun : bool)
      (files : list h5group) : res (cfg * opt) :=
    let nargout := nargout_of happ0 in
    (_ <-- match happ0 with
           | Some h => if Bool.eqb resfun (requires_resfun h) then Ok tt else Err EValue
           | None => Ok tt
           end ;;
     _ <-- validate_options parses d ;;
     o <-- opts_of d ;;
     if String.eqb (op_subspace_dim o) "scg" && String.eqb (op_stepback o) "refine"
     then Err EValue
     else
       Ok (mkCfg o lb ub nargout resfun,
           mkOpt [[]] 0 ninf [] [] 0 ninf []
                 (op_delta_init o) (op_delta_init o) n1 happ0 0 0 nnan 0 false DID_NOT_RUN
                 [] "" files 0 0 []))%res.

  Section Run.
  Variable E : env.
  Variable C : cfg.
  Let O := c_opts C.

  (** time.time() *)
  Definition now : M T :=
    fun st => (Ok (e_clock E (o_clk st)), set_o_clk (S (o_clk st)) st).

  (** calling the objective through FunEvaluator on the array [x] (minimize.py:51-82) *)
  Definition evaluate (x : nat) : M pyfun :=
    fun st =>
      let v := deref st x in
      let r := e_obj E (List.length (o_evals st)) v in
      (fun_evaluate (c_nargout C) (c_resfun C) r,
       set_o_evals (o_evals st ++ [(v, r)]) st).

  (** minimize.py:298-311  _reset *)
  Definition reset (start_id : option string) : M unit :=
    t <- now ;;
    modify (fun st =>
      set_o_starttime t (set_o_iter 0%Z (set_o_since 0%Z (set_o_ninter 0%Z
        (set_o_conv false (set_o_delta (op_delta_init O)
          (set_o_delta_iter (op_delta_init O) (set_o_fval_min ninf
            st)))))))) ;;;
    match start_id with
    | Some s =>
        if String.eqb s "" then
          modify (fun st => set_o_nid (S (o_nid st)) (set_o_start_id (e_uuid E (o_nid st)) st))
        else modify (set_o_start_id s)
    | None =>
        modify (fun st => set_o_nid (S (o_nid st)) (set_o_start_id (e_uuid E (o_nid st)) st))
    end ;;;
    modify (set_o_hist []).

  (** minimize.py:707-708  eps = 1e2 * np.spacing(1) *)
  Definition nondeg_eps : T := nofZ 100 * spacing1.

  (** minimize.py:713-716, one coordinate: both masks are computed from the old value *)
  Definition nudge1 (x lb ub : T) : T :=
    let eps := nondeg_eps in
    let x1 := if (ub - x) <? eps then x - eps else x in
    if (x - lb) <? eps then x1 + eps else x1.

  Fixpoint map3 {A B C' D} (f : A -> B -> C' -> D) (a : list A) (b : list B) (c : list C') : list D :=
    match a, b, c with
    | x :: a', y :: b', z :: c' => f x y z :: map3 f a' b' c'
    | _, _, _ => []
    end.

  (** minimize.py:709-716 *)
  Definition nudge (x : vec) : vec :=
    if (npmin (vabs (vsub (c_ub C) x)) <? nondeg_eps)
       || (npmin (vabs (vsub x (c_lb C))) <? nondeg_eps)
    then map3 nudge1 x (c_lb C) (c_ub C)
    else x.

  (** minimize.py:700-716  make_non_degenerate: changes the array self.x in place *)
  Definition make_non_degenerate : M unit :=
    st <- get ;; store (o_x st) (nudge (deref st (o_x st))).

  (** minimize.py:931-944: np.all(-(ub - x) <= 0) and np.all(lb - x <= 0) *)
  Definition in_bounds (x : vec) : bool :=
    forallb (fun d => d <=? n0) (map (fun a => (- n1) * a) (vsub (c_ub C) x))
    && forallb (fun d => d <=? n0) (map (fun a => n1 * a) (vsub (c_lb C) x)).

  (** minimize.py:915-944  check_in_bounds *)
  Definition check_in_bounds (x : vec) : M unit :=
    if in_bounds x then ret tt
    else modify (set_o_flag EXCEEDED_BOUNDARY) ;;; raise ERuntime.

  (** minimize.py:866-913  check_finite *)
  Definition check_finite (fval : T) (grad : vec) (hess : option mat) : M unit :=
    let fail := modify (set_o_flag NOT_FINITE) ;;; raise ERuntime in
    if negb (nisfin fval) then fail
    else if negb (vfinite grad) then fail
    else match hess with
         | None => ret tt
         | Some h => if mfinite h then ret tt else fail
         end.
  Definition check_finite_fo (f : fout) : M unit := check_finite (fo_fval f) (fo_grad f) (fo_hess f).
  Definition check_finite_self : M unit :=
    st <- get ;; check_finite (o_fval st) (o_grad st) (Some (o_hess st)).

  (** minimize.py:445-458  track_minimum *)
  Definition track_minimum (f : fout) : M unit :=
    modify (fun st =>
      if nisfin (fo_fval f) && (fo_fval f <? o_fval_min st)
      then set_o_xmin (fo_x f) (set_o_fval_min (fo_fval f) (set_o_grad_min (fo_grad f) st))
      else st).

  (** minimize.py:718-740  get_affine_scaling: (v, dv) of one coordinate *)
  Definition affine1 (x g lb ub : T) : T * T :=
    let bound := if g <? n0 then ub else lb in
    if nisfin bound then (x - bound, n1)
    else (npsign g + nofbool (g =? n0), n0).
  Fixpoint affine_scaling (x g lb ub : vec) : list (T * T) :=
    match x, g, lb, ub with
    | a :: x', b :: g', l :: lb', u :: ub' => affine1 a b l u :: affine_scaling x' g' lb' ub'
    | _, _, _, _ => []
    end.

  (** minimize.py:534-594  update_tr_radius *)
  Definition update_tr_radius (f : fout) (sp : step T) (dv : vec) : M bool :=
    st <- get ;;
    let fval := fo_fval f in
    let stepsx := vadd (st_ss sp) (st_ss0 sp) in
    let nsx := norm stepsx in
    let shrunk := nanmin2 (o_delta st * op_gamma1 O) (nsx / nofZ 4) in
    modify (set_o_since (o_since st + 1)%Z) ;;;
    if negb (nisfin fval) then
      modify (fun st => set_o_tr_ratio n0 (set_o_delta shrunk (set_o_since 0%Z st))) ;;;
      ret false
    else
      let aug := nhalf * dot stepsx (vmul (vmul dv (vabs (fo_grad f))) stepsx) in
      let actual := o_fval st - fval - aug in
      let predicted := - (st_qpval sp) in
      let ratio := if predicted <=? n0 then n0 else actual / predicted in
      modify (set_o_tr_ratio ratio) ;;;
      let interior := nsx <? o_delta_iter st * nfrac 9 10 in
      (if (ratio >=? op_eta O) && negb interior then
         modify (fun st => set_o_delta (op_gamma2 O * o_delta st) (set_o_since 0%Z st))
       else if ratio <=? op_mu O then
         modify (fun st => set_o_delta shrunk (set_o_since 0%Z st))
       else if (op_mu O <? ratio) && (ratio <? op_eta O) then
         modify (fun st => set_o_ninter (o_ninter st + 1)%Z st)
       else ret tt) ;;;
      ret (ratio >? n0).

  (** minimize.py:596-655  check_convergence *)
  Definition check_convergence (sp : step T) (f : fout) : M unit :=
    modify (fun st =>
      let gnorm := norm (fo_grad f) in
      let nsx := norm (vadd (st_ss sp) (st_ss0 sp)) in
      if (op_mu O <? o_tr_ratio st)
         && (nabs (fo_fval f - o_fval st) <? op_fatol O + op_frtol O * nabs (o_fval st))
      then set_o_conv true (set_o_flag FTOL st)
      else if (1 <? o_iter st)%Z && (nsx <? op_xtol O)
      then set_o_conv true (set_o_flag XF_XTOL st)
      else if gnorm <=? op_gatol O
      then set_o_conv true (set_o_flag GTOL st)
      else if gnorm <=? op_grtol O * nabs (o_fval st)
      then set_o_conv true (set_o_flag GTOL st)
      else set_o_conv false st).

  (** minimize.py:657-698  check_continue *)
  Definition check_continue : M bool :=
    st <- get ;;
    if o_conv st then ret false
    else if (op_maxiter O <=? o_iter st)%Z then
      modify (set_o_flag XF_MAXITER) ;;; ret false
    else
      t <- now ;;
      let elapsed := t - o_starttime st in
      let remaining := op_maxtime O - elapsed in
      let avg := elapsed / nofZ (o_iter st + (if (o_iter st =? 0)%Z then 1 else 0)) in
      if remaining <? avg then
        modify (set_o_flag XF_MAXTIME) ;;; ret false
      else if o_delta st <? spacing1 then
        modify (set_o_flag DELTA_TOO_SMALL) ;;; ret false
      else ret true.

  (** M.T.dot(v) for a matrix given by rows, with n columns *)
  Definition mTvec (n : nat) (m : mat) (v : vec) : vec := vecmat n v m.

  (** minimize.py:479-523  the dispatch on the Hessian approximation inside Optimizer.update *)
  Definition happ_update (h : happ T) (s grad : vec) (since ninter iter : Z)
      (fnew fold : fout) : res (happ T) :=
    let y := vsub (fo_grad fnew) grad in
    match h with
    | HIter i => Ok (HIter (ih_update i s y))
    | HFixed i b k sw =>
        match fo_hess fnew with
        | Some hess => Ok (fixed_update i b k sw s y hess since)
        | None => Err EType
        end
    | HFraction i b t sw =>
        match fo_hess fnew with
        | Some hess => Ok (fraction_update i b t sw s y hess ninter iter)
        | None => Err EType
        end
    | HFX i b tol =>
        match fo_hess fnew with
        | Some hess =>
            let gamma := vadd (matvec hess s)
                              (mTvec (List.length s) (msub (fo_sres fnew) (fo_sres fold)) (fo_res fnew)) in
            fx_update i b tol s gamma (fo_res fnew) (fo_res fold) hess
        | None => Err EAttr
        end
    | HStruct sh =>
        match fo_hess fnew with
        | Some hess =>
            let yb := mTvec (List.length s) (msub (fo_sres fnew) (fo_sres fold)) (fo_res fnew) in
            let yb := match sh_kind sh with
                      | SSSM => yb
                      | _ => vscaler yb (norm (fo_res fnew) / norm (fo_res fold))
                      end in
            Ok (HStruct (sh_update sh s y (fo_res fnew) hess yb))
        | None => Err EType
        end
    end.

  (** minimize.py:460-532  Optimizer.update *)
  Definition update (sp : step T) (fnew fold : fout) : M unit :=
    st <- get ;;
    match o_happ st with
    | Some h =>
        h' <- lift (happ_update h (vadd (st_s sp) (st_s0 sp)) (o_grad st)
                      (o_since st) (o_ninter st) (o_iter st) fnew fold) ;;
        modify (fun st => set_o_hess (h_mat h') (set_o_happ (Some h') st))
    | None =>
        match fo_hess fnew with
        | Some hess => modify (set_o_hess hess)
        | None => raise EAttr
        end
    end ;;;
    check_in_bounds (deref st (fo_x fnew)) ;;;
    modify (fun st => set_o_fval (fo_fval fnew) (set_o_x (fo_x fnew)
                        (set_o_grad (fo_grad fnew) st))) ;;;
    make_non_degenerate.

  (** defaultdict(list): self.history[key].append(val) *)
  Fixpoint hist_append (h : history) (k : string) (v : hval) : history :=
    match h with
    | [] => [(k, [v])]
    | (k', vs) :: h' =>
        if String.eqb k k' then (k', vs ++ [v]) :: h' else (k', vs) :: hist_append h' k v
    end.
  Definition hist_append_all (l : list (string * hval)) (h : history) : history :=
    fold_left (fun acc kv => hist_append acc (fst kv) (snd kv)) l h.

  (** minimize.py:780-829  track_history *)
  Definition track_history (accepted : bool) (sp : step T) (f : fout) : M unit :=
    st <- get ;;
    let normdx := norm (vadd (st_s sp) (st_s0 sp)) in
    let normg := norm (o_grad st) in
    ev <- lift (of_option EExternal (e_minmax E (o_hess st))) ;;
    up <- lift (match o_happ st with
                | None => Ok (nnan, nnan)
                | Some h => if accepted then of_option EExternal (e_minmax E (h_diff h))
                            else Ok (n0, n0)
                end) ;;
    sup <- lift (match o_happ st with
                 | Some (HStruct sh) =>
                     if accepted then of_option EExternal (e_minmax E (sh_sdiff sh))
                     else Ok (n0, n0)
                 | _ => Ok (nnan, nnan)
                 end) ;;
    ch <- lift (of_option EExternal (e_cond E (o_hess st))) ;;
    cs <- lift (of_option EExternal (e_cond E (st_shess sp))) ;;
    let b o := HBool (match o with Some b => b | None => false end) in
    modify (fun st => set_o_hist (hist_append_all
      [ ("fval", HNum (fo_fval f)); ("tr_ratio", HNum (o_tr_ratio st));
        ("tr_radius", HNum (o_delta_iter st)); ("normgrad", HNum normg);
        ("normstep", HNum normdx); ("theta", HNum (st_theta sp)); ("alpha", HNum (st_alpha sp));
        ("reflections", HInt (Z.of_nat (reflection_count sp)));
        ("truncations", HInt (Z.of_nat (truncation_count sp)));
        ("accept", HBool accepted);
        ("hess_min_ev", HNum (fst ev)); ("hess_max_ev", HNum (snd ev));
        ("hess_update_min_ev", HNum (fst up)); ("hess_update_max_ev", HNum (snd up));
        ("hess_struct_update_min_ev", HNum (fst sup)); ("hess_struct_update_max_ev", HNum (snd sup));
        ("iterations_since_tr_update", HInt (o_since st)); ("step_type", HStr (st_type sp));
        ("subspace_dim", HInt (Z.of_nat (List.length (st_subspace sp))));
        ("posdef", b (st_posdef sp)); ("newton", b (st_newton sp));
        ("cond_hess", HNum ch); ("cond_shess", HNum cs) ]%string (o_hist st)) st).

  Definition has_history : bool := match op_history O with Some _ => true | None => false end.

  (** x_new = x + s + s0 (minimize.py:414): numpy raises ValueError when the lengths differ
      (only possible if an external routine returned an array of the wrong length;
      broadcasting of length-one arrays is not modelled) *)
  Definition check_shape (x : vec) (sp : step T) : res (step T) :=
    if Nat.eqb (List.length (st_s sp)) (List.length x)
       && Nat.eqb (List.length (st_s0 sp)) (List.length x)
    then Ok sp else Err EValue.

  (** minimize.py:386-435  the body of the while loop; returns the current funout *)
  Definition iteration (funout : fout) : M fout :=
    modify (fun st => set_o_iter (o_iter st + 1)%Z st) ;;;
    modify (fun st => set_o_delta_iter (o_delta st) st) ;;;
    st <- get ;;
    let x := deref st (o_x st) in
    let vdv := affine_scaling x (o_grad st) (c_lb C) (c_ub C) in
    let v := map fst vdv in
    let dv := map snd vdv in
    let scaling := map (fun a => nsqrt (nabs a)) v in
    let theta := pymax (op_theta_max O) (n1 - norm_inf (vmul v (o_grad st))) in
    check_finite_self ;;;
    sp <- lift (sp <-- trust_region (e_la E) x (o_grad st) (o_hess st) scaling (o_delta_iter st) dv
                         theta (c_lb C) (c_ub C) (op_subspace_dim O) (op_stepback O) ;;
                check_shape x sp)%res ;;
    xn <- alloc (vadd (vadd x (st_s sp)) (st_s0 sp)) ;;
    pf <- evaluate xn ;;
    fnew <- lift (typed_fout (List.length x) pf xn) ;;
    when (nisfin (fo_fval fnew)) (check_finite_fo fnew) ;;;
    accepted <- update_tr_radius fnew sp dv ;;
    check_convergence sp fnew ;;;
    track_minimum fnew ;;;
    when accepted (update sp fnew funout) ;;;
    when has_history (track_history accepted sp fnew) ;;;
    ret (if accepted then fnew else funout).

  (** minimize.py:385-435  the while loop; out of fuel = EDiverge *)
  Fixpoint loop (fuel : nat) (funout : fout) : M unit :=
    match fuel with
    | Datatypes.O => raise EDiverge
    | S k =>
        c <- check_continue ;;
        if c then (f' <- iteration funout ;; loop k f') else ret tt
    end.

  (** minimize.py:437-441  writing the history; create_group raises if the group exists *)
  Definition write_history : M unit :=
    match op_history O with
    | None => ret tt
    | Some file =>
        st <- get ;;
        if existsb (fun g => String.eqb (fst (fst g)) file && String.eqb (snd (fst g)) (o_start_id st))
                   (o_files st)
        then raise EExternal
        else modify (fun st => set_o_files (o_files st ++ [((file, o_start_id st), o_hist st)]) st)
    end.

  (** argument hess0 of minimize (lines 317, 341-346) *)
  Inductive hess0_arg := H0None | H0Mat (m : mat) | H0Hess | H0OtherStr.

  (** minimize.py:366-373  initial Hessian (approximation) *)
  Definition init_hess (n : nat) (hess0 : hess0_arg) (pf : pyfun) : M unit :=
    st <- get ;;
    match o_happ st with
    | Some h =>
        arg <- lift (match hess0 with
                     | H0None => Ok None
                     | H0Mat m => Ok (Some m)
                     | H0OtherStr => Err EAttr
                     | H0Hess => match pf_hess pf with
                                 | PNone => Ok None
                                 | PMat _ rows => Ok (Some rows)
                                 | _ => Err EValue
                                 end
                     end) ;;
        h' <- lift (h_init h n arg) ;;
        modify (fun st => set_o_hess (h_mat h') (set_o_happ (Some h') st))
    | None =>
        match pf_hess pf with
        | PNone => raise EAttr
        | PMat _ rows => modify (set_o_hess rows)
        | _ => raise EValue
        end
    end.

  (** minimize.py:355-383  everything before the loop.  x0 is an array of [ndim] dimensions
      (data [x0] if ndim <= 1); numpy raises ValueError when shapes of x0, lb, ub differ
      (broadcasting of length-one arrays is not modelled) or are empty *)
  Definition prepare (ndim : nat) (x0 : vec) (start_id : option string) (hess0 : hess0_arg)
      : M fout :=
    reset start_id ;;;
    x <- alloc x0 ;;
    modify (set_o_x x) ;;;
    if Nat.ltb 1 ndim then raise EValue
    else if negb (Nat.eqb (List.length x0) (List.length (c_ub C))
                  && Nat.eqb (List.length x0) (List.length (c_lb C)))
            || Nat.eqb (List.length x0) 0
    then raise EValue
    else
    make_non_degenerate ;;;
    st <- get ;;
    check_in_bounds (deref st (o_x st)) ;;;
    pf <- evaluate (o_x st) ;;
    init_hess (List.length x0) hess0 pf ;;;
    lift (checkdims (List.length x0) pf) ;;;
    f <- lift (typed_fout (List.length x0) pf (o_x st)) ;;
    modify (fun st => set_o_fval (fo_fval f) (set_o_grad (fo_grad f) st)) ;;;
    track_minimum f ;;;
    check_finite_fo f ;;;
    modify (set_o_conv false) ;;;
    ret f.

  (** minimize.py:313-443  Optimizer.minimize; returns (fval, x, grad, hess), x by reference *)
  Definition minimize (fuel : nat) (ndim : nat) (x0 : vec) (start_id : option string)
      (hess0 : hess0_arg) : M (T * nat * vec * mat) :=
    f <- prepare ndim x0 start_id hess0 ;;
    loop fuel f ;;;
    write_history ;;;
    st <- get ;;
    ret (o_fval st, o_x st, o_grad st, o_hess st).
  End Run.
End Minimize.

Arguments opt : clear implicits.
Arguments env : clear implicits.
Arguments cfg : clear implicits.
Arguments fout : clear implicits.
Arguments pyfun : clear implicits.
Arguments pyval : clear implicits.
Arguments retval : clear implicits.
Arguments hval : clear implicits.
Arguments history : clear implicits.
Arguments h5group : clear implicits.
Arguments hess0_arg : clear implicits.
Arguments M : clear implicits.
