(** Model of fides/constants.py and of Optimizer.get_option (minimize.py:946-947) *)
From Coq Require Import ZArith List Bool String.
Import ListNotations.
From Verif Require Import Num.
Local Open Scope string_scope.

(** constants.py:15-37  class Options(str, enum.Enum) *)
Inductive okey :=
| MAXITER | MAXTIME | FATOL | FRTOL | XTOL | GATOL | GRTOL | SUBSPACE_DIM | STEPBACK_STRAT
| THETA_MAX | DELTA_INIT | MU | ETA | GAMMA1 | GAMMA2 | HISTORY_FILE.

Definition okey_name (o : okey) : string :=
  match o with
  | MAXITER => "maxiter" | MAXTIME => "maxtime" | FATOL => "fatol" | FRTOL => "frtol"
  | XTOL => "xtol" | GATOL => "gatol" | GRTOL => "grtol"
  | SUBSPACE_DIM => "subspace_solver" | STEPBACK_STRAT => "stepback_strategy"
  | THETA_MAX => "theta_max" | DELTA_INIT => "delta_init" | MU => "mu" | ETA => "eta"
  | GAMMA1 => "gamma1" | GAMMA2 => "gamma2" | HISTORY_FILE => "history_file"
  end.

Definition all_okeys : list okey :=
  [MAXITER; MAXTIME; FATOL; FRTOL; XTOL; GATOL; GRTOL; SUBSPACE_DIM; STEPBACK_STRAT;
   THETA_MAX; DELTA_INIT; MU; ETA; GAMMA1; GAMMA2; HISTORY_FILE].

(** constants.py:40-48 and 51-62: values of SubSpaceDim and StepBackStrategy *)
Definition subspace_dims : list string := ["2D"; "full"; "scg"].
Definition stepback_strats : list string :=
  ["reflect_single"; "reflect"; "truncate"; "mixed"; "refine"].

(** constants.py:85-100  ExitFlag *)
Inductive exit_flag :=
| DID_NOT_RUN | XF_MAXITER | XF_MAXTIME | NOT_FINITE | EXCEEDED_BOUNDARY | DELTA_TOO_SMALL
| FTOL | XF_XTOL | GTOL.

Definition exit_flag_code (f : exit_flag) : Z :=
  match f with
  | DID_NOT_RUN => 0 | XF_MAXITER => -1 | XF_MAXTIME => -2 | NOT_FINITE => -3
  | EXCEEDED_BOUNDARY => -4 | DELTA_TOO_SMALL => -5 | FTOL => 1 | XF_XTOL => 2 | GTOL => 3
  end.

(** integrality test behind [int(v) == v] for a finite float v *)
Class NumInt (T : Type) := { ntoZ : T -> option Z }.

(** A key of the options dictionary: a plain str, a member of Options, or any other object.
    Members of Options are str subclasses: equal to, and hashing like, their value *)
Inductive pykey := KStr (s : string) | KEnum (o : okey) | KOther.

(** A value of the options dictionary.  A str covers str-enum members (SubSpaceDim,
    StepBackStrategy); [VOther] is any object of none of the listed types *)
Inductive pyv (T : Type) :=
| VInt (z : Z) | VBool (b : bool) | VReal (t : T) | VStr (s : string) | VPath (s : string)
| VNone | VOther.
Arguments VInt {T} z.
Arguments VBool {T} b.
Arguments VReal {T} t.
Arguments VStr {T} s.
Arguments VPath {T} s.
Arguments VNone {T}.
Arguments VOther {T}.

Section Constants.
  Context {T : Type} {N : Num T} {NI : NumInt T}.

  (** an options dictionary, in insertion order *)
  Definition odict := list (pykey * pyv T).

  (** Options(option_key): lookup by value (constants.py:125) *)
  Definition options_of_key (k : pykey) : option okey :=
    match k with
    | KEnum o => Some o
    | KStr s => find (fun o => String.eqb (okey_name o) s) all_okeys
    | KOther => None
    end.

  Definition is_real (v : pyv T) : bool :=
    match v with VInt _ | VBool _ | VReal _ => true | _ => false end.
  Definition is_integral (v : pyv T) : bool :=
    match v with VInt _ | VBool _ => true | _ => false end.
  Definition is_str (v : pyv T) : bool := match v with VStr _ => true | _ => false end.
  Definition is_strpath (v : pyv T) : bool :=
    match v with VStr _ | VPath _ => true | _ => false end.

  (** constants.py:105-122  expected_types *)
  Definition has_expected_type (o : okey) (v : pyv T) : bool :=
    match o with
    | MAXITER => is_integral v
    | SUBSPACE_DIM | STEPBACK_STRAT => is_str v
    | HISTORY_FILE => is_strpath v
    | _ => is_real v
    end.

  (** membership test of [SubSpaceDim(v)] / [StepBackStrategy(v)] *)
  Definition in_enum (l : list string) (v : pyv T) : bool :=
    match v with VStr s => existsb (String.eqb s) l | _ => false end.

  (** [int(v) == v] on a value that is not an Integral (constants.py:139):
      Ok b is the comparison, Err the exception raised by int().
      [parses] says whether int(s) accepts the string s *)
  Definition int_eq (parses : string -> bool) (v : pyv T) : res bool :=
    match v with
    | VReal t =>
        if nisnan t then Err EValue
        else if nisfin t then Ok (match ntoZ t with Some _ => true | None => false end)
        else Err EOverflow
    | VStr s => if parses s then Ok false else Err EValue
    | VInt _ | VBool _ => Ok true
    | _ => Err EType
    end.

  (** constants.py:123-145  one pass of the loop body of validate_options.
      The tests [option_key is Options.SUBSPACE_DIM] compare object identity *)
  Definition validate_entry (parses : string -> bool) (kv : pykey * pyv T) : res unit :=
    let '(k, v) := kv in
    match options_of_key k with
    | None => Err EValue
    | Some o =>
        let bad_sub := match k with KEnum SUBSPACE_DIM => negb (in_enum subspace_dims v) | _ => false end in
        let bad_sb := match k with KEnum STEPBACK_STRAT => negb (in_enum stepback_strats v) | _ => false end in
        if bad_sub || bad_sb then Err EValue
        else if has_expected_type o v then Ok tt
        else
          match o with
          | MAXITER =>
              match int_eq parses v with
              | Ok true => Ok tt
              | Ok false => Err EType
              | Err e => Err e
              end
          | _ => Err EType
          end
    end.

  (** constants.py:103-145  validate_options *)
  Fixpoint validate_options (parses : string -> bool) (d : odict) : res unit :=
    match d with
    | [] => Ok tt
    | kv :: d' =>
        match validate_entry parses kv with
        | Ok _ => validate_options parses d'
        | Err e => Err e
        end
    end.

  (** constants.py:65-82  DEFAULT_OPTIONS *)
  Definition default_option (o : okey) : pyv T :=
    match o with
    | MAXITER => VReal (nofZ 1000)
    | MAXTIME => VReal ninf
    | FATOL | FRTOL => VReal (nfrac 1 (10 ^ 8))
    | XTOL | GRTOL => VInt 0
    | GATOL => VReal (nfrac 1 (10 ^ 6))
    | SUBSPACE_DIM => VStr "2D"
    | STEPBACK_STRAT => VStr "reflect"
    | THETA_MAX => VReal (nfrac 95 100)
    | DELTA_INIT => VReal (nofZ 1)
    | MU => VReal (nfrac 25 100)
    | ETA => VReal (nfrac 75 100)
    | GAMMA1 => VReal (nfrac 1 4)
    | GAMMA2 => VInt 2
    | HISTORY_FILE => VNone
    end.

  (** dictionary lookup with a member of Options as key: a str key with the same text matches *)
  Definition key_matches (o : okey) (k : pykey) : bool :=
    match k with
    | KEnum o' => String.eqb (okey_name o) (okey_name o')
    | KStr s => String.eqb (okey_name o) s
    | KOther => false
    end.
  Definition dict_get (d : odict) (o : okey) : option (pyv T) :=
    match find (fun kv => key_matches o (fst kv)) d with
    | Some kv => Some (snd kv)
    | None => None
    end.

  (** minimize.py:946-947  get_option *)
  Definition get_option (d : odict) (o : okey) : pyv T :=
    match dict_get d o with Some v => v | None => default_option o end.

  (** *** typed view of the options, as the optimizer uses them *)
  Definition as_real (v : pyv T) : res T :=
    match v with
    | VInt z => Ok (nofZ z)
    | VBool b => Ok (nofbool b)
    | VReal t => Ok t
    | _ => Err EType
    end.
  Definition as_int (v : pyv T) : res Z :=
    match v with
    | VInt z => Ok z
    | VBool b => Ok (if b then 1 else 0)%Z
    | VReal t => of_option EType (ntoZ t)
    | _ => Err EType
    end.
  Definition as_str (v : pyv T) : res string :=
    match v with VStr s => Ok s | _ => Err EType end.
  (** truth value of the history file option: None and '' are false *)
  Definition as_file (v : pyv T) : option string :=
    match v with
    | VStr s => if String.eqb s "" then None else Some s
    | VPath s => Some s
    | _ => None
    end.

  Record opts := mkOpts {
    op_maxiter : Z; op_maxtime : T; op_fatol : T; op_frtol : T; op_xtol : T; op_gatol : T;
    op_grtol : T; op_subspace_dim : string; op_stepback : string; op_theta_max : T;
    op_delta_init : T; op_mu : T; op_eta : T; op_gamma1 : T; op_gamma2 : T;
    op_history : option string
  }.

  Definition opts_of (d : odict) : res opts :=
    (mi <-- as_int (get_option d MAXITER) ;;
     mt <-- as_real (get_option d MAXTIME) ;;
     fa <-- as_real (get_option d FATOL) ;;
     fr <-- as_real (get_option d FRTOL) ;;
     xt <-- as_real (get_option d XTOL) ;;
     ga <-- as_real (get_option d GATOL) ;;
     gr <-- as_real (get_option d GRTOL) ;;
     sd <-- as_str (get_option d SUBSPACE_DIM) ;;
     sb <-- as_str (get_option d STEPBACK_STRAT) ;;
     tm <-- as_real (get_option d THETA_MAX) ;;
     di <-- as_real (get_option d DELTA_INIT) ;;
     mu <-- as_real (get_option d MU) ;;
     et <-- as_real (get_option d ETA) ;;
     g1 <-- as_real (get_option d GAMMA1) ;;
     g2 <-- as_real (get_option d GAMMA2) ;;
     Ok (mkOpts mi mt fa fr xt ga gr sd sb tm di mu et g1 g2
                (as_file (get_option d HISTORY_FILE))))%res.
End Constants.
Arguments opts : clear implicits.
Arguments odict : clear implicits.
