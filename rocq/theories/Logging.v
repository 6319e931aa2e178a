(** * Loggers, log levels, solver constructors *)

From Coq Require Import ZArith List Bool String Lia.
From Verif Require Import Scalars Control Arrays Solvers Config.
Import ListNotations.
Local Open Scope string_scope.

(** ** Log levels *)

(** Argument [loglevel]: a string, an integer ([bool] included), or anything else. *)
Inductive loglevel := LStr (s : string) | LInt (z : Z) | LOther.

(** Attributes of the standard module [logging] with an upper-case name: the level constants, and
    the others, which are not integers. Trusted description of that module (Python 3). *)
Inductive attr := AInt (z : Z) | ANotInt.
Definition logging_attr (s : string) : option attr :=
  if s =? "CRITICAL" then Some (AInt 50) else if s =? "FATAL" then Some (AInt 50)
  else if s =? "ERROR" then Some (AInt 40) else if s =? "WARNING" then Some (AInt 30)
  else if s =? "WARN" then Some (AInt 30) else if s =? "INFO" then Some (AInt 20)
  else if s =? "DEBUG" then Some (AInt 10) else if s =? "NOTSET" then Some (AInt 0)
  else if s =? "BASIC_FORMAT" then Some ANotInt else if s =? "_STYLES" then Some ANotInt
  else None.

Section Log.
  (** Python's [str.upper]. *)
  Variable upper : string -> string.

  (** rkstiff/util/loghelper.py:68-73 [_parse_loglevel]: an exception or the value, which is
      returned unchanged when it is not a string. *)
  Definition parse_loglevel (l : loglevel) : exn + loglevel :=
    match l with
    | LStr s => match logging_attr (upper s) with
                | Some (AInt z) => inr (LInt z)
                | _ => inl ValueError
                end
    | _ => inr l
    end.

  (** rkstiff/util/loghelper.py:97-104 [get_level_name]; [show] is the formatting of an integer. *)
  Definition get_level_name (show : Z -> string) (level : Z) : string :=
    if (level =? 10)%Z then "DEBUG" else if (level =? 20)%Z then "INFO"
    else if (level =? 30)%Z then "WARNING" else if (level =? 40)%Z then "ERROR"
    else if (level =? 50)%Z then "CRITICAL" else "Level " ++ show level.

  (** ** The registry of the standard library: loggers by name *)

  (** Handlers: [true] for the ones added by the package, [false] for any other. *)
  Record logger := mk_logger { l_level : Z; l_handlers : list bool }.
  Definition registry := string -> option logger.
  Definition reg_set (r : registry) (name : string) (g : logger) : registry :=
    fun n => if n =? name then Some g else r n.
  (** [logging.getLogger(name)]: the existing logger, or a new one at level NOTSET. *)
  Definition get_logger (name : string) (r : registry) : registry :=
    match r name with Some _ => r | None => reg_set r name (mk_logger 0 []) end.
  (** [Logger.setLevel(v)] of the standard library on a logger that exists: an integer is stored,
      anything that is neither integer nor string is a [TypeError]. *)
  Definition set_level (name : string) (v : loglevel) (r : registry) : option exn * registry :=
    match v, r name with
    | LInt z, Some g => (None, reg_set r name (mk_logger z (l_handlers g)))
    | _, _ => (Some TypeError, r)
    end.

  (** rkstiff/util/loghelper.py:141-155 [setup_logger]. *)
  Definition setup_logger (name : string) (l : loglevel) (r : registry) : option exn * registry :=
    let r1 := get_logger name r in
    match parse_loglevel l with
    | inl e => (Some e, r1)
    | inr v =>
        match set_level name v r1 with
        | (Some e, r2) => (Some e, r2)
        | (None, r2) =>
            match r2 name with
            | Some g => match l_handlers g with
                        | [] => (None, reg_set r2 name (mk_logger (l_level g) [true]))
                        | _ => (None, r2)
                        end
            | None => (None, r2)
            end
        end
    end.
  (** rkstiff/util/loghelper.py:186-187 [set_log_level], on the logger called [name]. *)
  Definition set_log_level (name : string) (l : loglevel) (r : registry) : option exn * registry :=
    match parse_loglevel l with
    | inl e => (Some e, r)
    | inr v => set_level name v r
    end.

  (** [solver_class.__name__]. *)
  Definition class_name (c : solver_class) : string :=
    match c with
    | IF4 => "IF4" | IF34 => "IF34" | IF45DP => "IF45DP" | ETD4 => "ETD4" | ETD5 => "ETD5"
    | ETD34 => "ETD34" | ETD35 => "ETD35"
    end.
  (** rkstiff/util/loghelper.py:218-219 [get_solver_logger]. *)
  Definition logger_name (c : solver_class) : string := "rkstiff." ++ class_name c.

  (** ** Constructors *)

  (** What the external routines return for the operator, used only with [diagonalize=True]:
      [np.linalg.cond(L)] (an exception, or whether it exceeds 1e16), [np.linalg.eig] and
      [np.linalg.inv] (an exception or success). *)
  Record linalg := mk_linalg { r_cond : exn + bool; r_eig : option exn; r_inv : option exn }.

  (** rkstiff/if34.py:157-166, etd34.py:234-246, etd35.py:409-421: the [Diagonalized] strategies. *)
  Definition diagonalized_new (x : linalg) (k : as_kind) : exn + (cs_kind + as_kind) :=
    match r_cond x with
    | inl e => inl e
    | inr true => inl ValueError
    | inr false => match r_eig x with
                   | Some e => inl e
                   | None => match r_inv x with Some e => inl e | None => inr (inr k) end
                   end
    end.
  (** Strategy selection after the base constructor, given [_diag] (rkstiff/if4.py:248-252,
      if34.py:300-304, if45dp.py:69-70, etd4.py:368-371, etd5.py:572-575, etd34.py:547-553,
      etd35.py:822-828). IF4, IF45DP, ETD4 and ETD5 have no parameter [diagonalize]. *)
  Definition select (c : solver_class) (diagonalize diag : bool) (x : linalg) : exn + (cs_kind + as_kind) :=
    match c with
    | IF4 => inr (inl (if diag then IF4d else IF4n))
    | ETD4 => inr (inl (if diag then ETD4d else ETD4n))
    | ETD5 => inr (inl (if diag then ETD5d else ETD5n))
    | IF45DP => if diag then inr (inr IF45DPd) else inl ValueError
    | IF34 => if diag then inr (inr IF34d) else if diagonalize then diagonalized_new x IF34z else inr (inr IF34n)
    | ETD34 => if diag then inr (inr ETD34d) else if diagonalize then diagonalized_new x ETD34z else inr (inr ETD34n)
    | ETD35 => if diag then inr (inr ETD35d) else if diagonalize then diagonalized_new x ETD35z else inr (inr ETD35n)
    end.
  (** rkstiff/solver.py:129-134: the shape checks; the result is [_diag]. *)
  Definition check_shape (dims : list nat) : exn + bool :=
    match dims with
    | [_] => inr true
    | [a; b] => if Nat.eqb a b then inr false else inl ValueError
    | _ => inl ValueError
    end.
  (** rkstiff/solver.py:91-136 [BaseSolver.__init__] followed by the class's own constructor:
      the logger is configured first. *)
  Definition construct (c : solver_class) (diagonalize : bool) (dims : list nat) (x : linalg) (l : loglevel)
             (r : registry) : (exn + (cs_kind + as_kind)) * registry :=
    match setup_logger (logger_name c) l r with
    | (Some e, r1) => (inl e, r1)
    | (None, r1) => match check_shape dims with
                    | inl e => (inl e, r1)
                    | inr diag => (select c diagonalize diag x, r1)
                    end
    end.

  (** ** A process: constructions, level changes, handlers added by user code *)
  Inductive event :=
  | Construct (c : solver_class) (diagonalize : bool) (dims : list nat) (x : linalg) (l : loglevel)
  | SetLevel (solver : nat) (l : loglevel)          (* rkstiff/solver.py:165-181 [set_loglevel] *)
  | AddHandler (name : string).                     (* logging.getLogger(name).addHandler(...) *)

  (** Registry and the classes of the solvers created so far. *)
  Definition process := (registry * list solver_class)%type.
  Definition happens (e : event) (p : process) : process :=
    match e with
    | Construct c d dims x l => match construct c d dims x l (fst p) with
                                | (inl _, r) => (r, snd p)
                                | (inr _, r) => (r, (snd p ++ [c])%list)
                                end
    | SetLevel i l => match nth_error (snd p) i with
                      | Some c => (snd (set_log_level (logger_name c) l (fst p)), snd p)
                      | None => p
                      end
    | AddHandler n => let r := get_logger n (fst p) in
                      match r n with
                      | Some g => (reg_set r n (mk_logger (l_level g) (l_handlers g ++ [false])%list), snd p)
                      | None => p
                      end
    end.
  Definition history (l : list event) (p : process) : process := fold_left (fun p e => happens e p) l p.
  (** Importing the package creates no solver logger. *)
  Definition process0 : process := (fun _ => None, []).

  (** ** Solver types: rkstiff/util/solver_type.py:76-84 [from_solver] and the [solver_type]
      properties (rkstiff/solvercs.py:103-120, rkstiff/solveras.py:286-304). [bases] tells whether the
      instance's class derives from BaseSolverAS and BaseSolverCS. *)
  Inductive solver_type := CONSTANT_STEP | ADAPTIVE_STEP.
  Definition from_solver (is_as is_cs : bool) : exn + solver_type :=
    if is_as then inr ADAPTIVE_STEP else if is_cs then inr CONSTANT_STEP else inl TypeError.
  Definition derives_as (c : solver_class) : bool := match c with IF34 | IF45DP | ETD34 | ETD35 => true | _ => false end.
  Definition derives_cs (c : solver_class) : bool := match c with IF4 | ETD4 | ETD5 => true | _ => false end.
End Log.
