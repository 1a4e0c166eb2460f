(** Model of fides/logging.py (the whole file).

    Python's logging registry is modelled as a finite map from names to loggers; a logger is its list of handlers and its
    level.  Identity of a logger object = its name (logging.getLogger returns the one object registered under a name).
    Not modelled: formatters (logging.py:34-38, one and the same for every handler), the output itself. *)
From Coq Require Import String List ZArith Decimal DecimalString DecimalNat.
Import ListNotations.
Local Open Scope list_scope.

(** a logging.Logger: handlers (each created StreamHandler is a number) and level *)
Record logger := mkLogger { lg_handlers : list nat; lg_level : Z }.
(** the process: logging.py:13 [logger_count], the registry of the logging module, the number of handlers created so far *)
Record lstate := mkLstate { l_count : nat; l_reg : list (string * logger); l_handlers : nat }.

(** logging.py:31  f'fides_{logger_count}' *)
Definition logger_name (k : nat) : string := String.append "fides_" (NilZero.string_of_uint (Nat.to_uint k)).

Fixpoint lookup (nm : string) (reg : list (string * logger)) : option logger :=
  match reg with [] => None | (m, l) :: reg => if String.eqb nm m then Some l else lookup nm reg end.
(** replace the entry of [nm], or add one *)
Fixpoint update (nm : string) (l : logger) (reg : list (string * logger)) : list (string * logger) :=
  match reg with
  | [] => [(nm, l)]
  | (m, l') :: reg => if String.eqb nm m then (m, l) :: reg else (m, l') :: update nm l reg
  end.

(** logging.getLogger (CPython Lib/logging/__init__.py, Manager.getLogger; it holds the module lock, so it is one atomic
    action): the registered logger, or a new one with level NOTSET = 0 and no handler *)
Definition get_logger (nm : string) (st : lstate) : lstate :=
  match lookup nm (l_reg st) with
  | Some _ => st
  | None => mkLstate (l_count st) (update nm (mkLogger [] 0) (l_reg st)) (l_handlers st)
  end.
Definition the_logger (nm : string) (st : lstate) : logger :=
  match lookup nm (l_reg st) with Some l => l | None => mkLogger [] 0 end.
(** logging.py:32,38  a new StreamHandler, logger.addHandler(ch) *)
Definition add_handler (nm : string) (st : lstate) : lstate :=
  let l := the_logger nm st in
  mkLstate (l_count st) (update nm (mkLogger (lg_handlers l ++ [l_handlers st]) (lg_level l)) (l_reg st)) (S (l_handlers st)).
(** logging.py:39  logger.setLevel(level) *)
Definition set_level (nm : string) (lvl : Z) (st : lstate) : lstate :=
  mkLstate (l_count st) (update nm (mkLogger (lg_handlers (the_logger nm st)) lvl) (l_reg st)) (l_handlers st).
Definition set_count (k : nat) (st : lstate) : lstate := mkLstate k (l_reg st) (l_handlers st).

(** logging.py:16-40  create_logger, run without interruption: the returned logger (its name) and the new state *)
Definition create_logger (lvl : Z) (st : lstate) : string * lstate :=
  let st := set_count (l_count st + 1) st in
  let nm := logger_name (l_count st) in
  let st := get_logger nm st in
  let st := add_handler nm st in
  let st := set_level nm lvl st in
  (nm, st).

(** several calls one after the other *)
Fixpoint create_loggers (lvls : list Z) (st : lstate) : list string * lstate :=
  match lvls with
  | [] => ([], st)
  | lvl :: lvls => let (nm, st1) := create_logger lvl st in let (nms, st2) := create_loggers lvls st1 in (nm :: nms, st2)
  end.

(** *** threads: the interpreter switches between bytecodes.
    logger_count += 1 is LOAD_GLOBAL, BINARY_ADD, STORE_GLOBAL; line 31 loads the counter again. *)
Inductive pc :=
| P0 (lvl : Z)                (* about to load the counter *)
| P1 (lvl : Z) (v : nat)      (* loaded v; about to store v + 1 *)
| P2 (lvl : Z)                (* stored; about to load the counter for the name *)
| P3 (lvl : Z) (v : nat)      (* loaded v; about to call getLogger *)
| P4 (lvl : Z) (nm : string)  (* about to add the handler *)
| P5 (lvl : Z) (nm : string)  (* about to set the level *)
| PDone (nm : string).

(** one action of a thread *)
Definition micro (t : pc) (st : lstate) : pc * lstate :=
  match t with
  | P0 lvl => (P1 lvl (l_count st), st)
  | P1 lvl v => (P2 lvl, set_count (v + 1) st)
  | P2 lvl => (P3 lvl (l_count st), st)
  | P3 lvl v => (P4 lvl (logger_name v), get_logger (logger_name v) st)
  | P4 lvl nm => (P5 lvl nm, add_handler nm st)
  | P5 lvl nm => (PDone nm, set_level nm lvl st)
  | PDone nm => (PDone nm, st)
  end.
Fixpoint replace_nth (i : nat) (t : pc) (ts : list pc) : list pc :=
  match ts, i with
  | [], _ => []
  | _ :: ts, O => t :: ts
  | u :: ts, S i => u :: replace_nth i t ts
  end.
(** thread i acts; a schedule is the list of the acting threads *)
Definition act (i : nat) (c : list pc * lstate) : list pc * lstate :=
  match nth_error (fst c) i with
  | None => c
  | Some t => let (t', st') := micro t (snd c) in (replace_nth i t' (fst c), st')
  end.
Definition run_sched (sched : list nat) (c : list pc * lstate) : list pc * lstate :=
  fold_left (fun c i => act i c) sched c.
