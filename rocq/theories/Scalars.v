(** * Arithmetic interface, Python numbers, exceptions

    The model of the package is written over a record of arithmetic operations, so that
    the same text can be read over exact real numbers, over IEEE binary64 (see [B64.v]) or
    over any other arithmetic. *)

From Coq Require Import ZArith Reals List Bool.
Import ListNotations.

(** Operations on real scalars (Python [float] / [numpy.float64]): times, step sizes, factors.
    Only operations, no laws. *)
Record tops := mk_tops {
  T    : Type;
  tadd : T -> T -> T;
  tsub : T -> T -> T;
  tmul : T -> T -> T;
  tdiv : T -> T -> T;
  tofZ : Z -> T;                 (* the float nearest to an integer literal *)
  tltb : T -> T -> bool;
  tleb : T -> T -> bool;
  teqb : T -> T -> bool }.

(** The exact instance: real numbers. *)
Definition Rltb (x y : R) : bool := if Rlt_dec x y then true else false.
Definition Rleb (x y : R) : bool := if Rle_dec x y then true else false.
Definition Reqb_ (x y : R) : bool := if Req_EM_T x y then true else false.

Definition Rops : tops :=
  mk_tops R Rplus Rminus Rmult Rdiv IZR Rltb Rleb Reqb_.

(** Python exceptions that the modelled code can raise. [UserExn] is whatever the user's
    nonlinear function (or numpy/scipy below it) raises. *)
Inductive exn :=
| ValueError | TypeError | AssertionError | ZeroDivisionError
| IndexError | MaxLoopsExceeded | MinimumStepReached | LinAlgError | UserExn (n : nat).

(** Outcome of a call: normal return, exception, or (only for [while] loops run with too
    little fuel) no outcome yet. *)
Inductive out (A : Type) := Ret (a : A) | Exc (e : exn) | Fuel.
Arguments Ret {A} a.  Arguments Exc {A} e.  Arguments Fuel {A}.

(** Value of the step-size factor [s] computed by [_compute_s]: a finite number or one of the
    special values tested by [np.isinf]/[np.isnan] (rkstiff/solveras.py:385). *)
Inductive sval (A : Type) := SFin (x : A) | SPInf | SNInf | SNaN.
Arguments SFin {A} x.  Arguments SPInf {A}.  Arguments SNInf {A}.  Arguments SNaN {A}.

(** A Python number with a tag telling whether it is a numpy scalar: dividing two plain Python
    numbers by zero raises [ZeroDivisionError], while numpy scalars only warn.  Arithmetic with
    one numpy operand gives a numpy scalar. Python [int]s are not distinguished from floats. *)
Record pynum (A : Type) := PyN { isnp : bool; val : A }.
Arguments PyN {A} isnp val.  Arguments isnp {A} p.  Arguments val {A} p.

Section PyArith.
  Variable F : tops.
  Definition padd (a b : pynum (T F)) := PyN (isnp a || isnp b) (tadd F (val a) (val b)).
  Definition psub (a b : pynum (T F)) := PyN (isnp a || isnp b) (tsub F (val a) (val b)).

  (** [not a number] test used by numpy reductions: x != x. *)
  Definition tisnan (x : T F) : bool := negb (teqb F x x).
  (** [np.max([a, b])] and [np.min([a, b])] on two scalars; numpy propagates NaN. *)
  Definition npmax (a b : T F) : T F :=
    if tisnan a then a else if tisnan b then b else if tltb F a b then b else a.
  Definition npmin (a b : T F) : T F :=
    if tisnan a then a else if tisnan b then b else if tltb F b a then b else a.
End PyArith.
