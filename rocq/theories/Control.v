(** * Control layer: the two base classes

    Model of [rkstiff/solvercs.py] (constant step) and [rkstiff/solveras.py] (adaptive step),
    parameterised by the scheme ([csm]/[asm] records, instantiated by the solver modules), by
    the arithmetic [F : tops], by the type [U] of state arrays and by the state [W] of the
    outside world, i.e. of the user's nonlinear function. Logging calls are dropped except for
    the progress report, whose argument [100 * tc / tf] is always evaluated. *)

From Coq Require Import ZArith List Bool.
From Verif Require Import Scalars.
Import ListNotations.

(** The interface a constant-step scheme offers to the base class
    (rkstiff/solvercs.py:132-157: abstract [_reset] and [_update_stages]). *)
Record csm (A U W : Type) := mk_csm {
  cs_st    : Type;
  cs_reset : cs_st -> cs_st;
  cs_upd   : U -> A -> cs_st -> W -> (exn + U) * cs_st * W }.
Arguments cs_st {A U W} c.  Arguments cs_reset {A U W} c _.  Arguments cs_upd {A U W} c _ _ _ _.

(** The interface an adaptive scheme offers (rkstiff/solveras.py:314-334). [_update_stages]
    reads the flag [_accept] of the base class (first argument) and returns the candidate and
    the error vector. *)
Record asm (A U W : Type) := mk_asm {
  as_st    : Type;
  as_reset : as_st -> as_st;
  as_upd   : bool -> U -> A -> as_st -> W -> (exn + U * U) * as_st * W }.
Arguments as_st {A U W} a.  Arguments as_reset {A U W} a _.  Arguments as_upd {A U W} a _ _ _ _ _.

(** [100 * tc / tf] in the progress report (rkstiff/solvercs.py:262-269,
    rkstiff/solveras.py:628-635): evaluated at every 100th step whatever the log level; raises
    iff both operands are plain Python numbers and [tf == 0]. *)
Definition progress_raises (F : tops) (count : Z) (tc tf : pynum (T F)) : bool :=
  ((count mod 100) =? 0)%Z && teqb F (val tf) (tofZ F 0) && negb (isnp tc || isnp tf).

(** [store_data and (step_count % store_freq == 0)] (rkstiff/solvercs.py:271,
    rkstiff/solveras.py:642): [Some b] is the boolean, [None] the ZeroDivisionError of
    [% 0]; the modulo is not evaluated when [store_data] is false. *)
Definition store_now (store_data : bool) (store_freq count : Z) : option bool :=
  if store_data then
    if (store_freq =? 0)%Z then None else Some ((count mod store_freq) =? 0)%Z
  else Some false.

Section ConstantStep.
  Variable F : tops.
  Variables U W : Type.
  Variable m : csm (T F) U W.
  Notation PT := (pynum (T F)).

  (** Attributes of a [BaseSolverCS] instance (rkstiff/solver.py:124,
      rkstiff/solvercs.py:101): [t], [u], [__tf], [__tc], and the scheme's own state. *)
  Record csobj := mk_csobj { c_t : list PT; c_u : list U; c_tf : PT; c_tc : PT; c_m : cs_st m }.

  (** rkstiff/solvercs.py:125-130 [reset]. *)
  Definition cs_reset_obj (o : csobj) : csobj :=
    mk_csobj [] [] (PyN false (tofZ F 0)) (PyN false (tofZ F 0)) (cs_reset m (c_m o)).

  (** rkstiff/solvercs.py:163-186 [step]. *)
  Definition cs_step (u : U) (h : T F) (o : csobj) (w : W) : out U * csobj * W :=
    if tleb F (tofZ F 0) h then
      let '(r, s', w') := cs_upd m u h (c_m o) w in
      (match r with inl e => Exc e | inr u' => Ret u' end,
       mk_csobj (c_t o) (c_u o) (c_tf o) (c_tc o) s', w')
    else (Exc AssertionError, o, w).

  (** rkstiff/solvercs.py:256-276: the [while] loop of [evolve]. *)
  Fixpoint cs_loop (fuel : nat) (u : U) (h : PT) (store_data : bool) (store_freq count : Z)
           (o : csobj) (w : W) : out U * csobj * W :=
    if tltb F (val (c_tc o)) (val (c_tf o)) then
      match fuel with
      | O => (Fuel, o, w)
      | S fuel' =>
          match cs_step u (val h) o w with
          | (Ret u', o1, w1) =>
              let tc' := padd F (c_tc o1) h in
              let count' := (count + 1)%Z in
              let o2 := mk_csobj (c_t o1) (c_u o1) (c_tf o1) tc' (c_m o1) in
              if progress_raises F count' tc' (c_tf o2) then (Exc ZeroDivisionError, o2, w1)
              else
                match store_now store_data store_freq count' with
                | None => (Exc ZeroDivisionError, o2, w1)
                | Some b =>
                    let o3 := if b then mk_csobj (c_t o2 ++ [tc']) (c_u o2 ++ [u'])
                                                 (c_tf o2) tc' (c_m o2)
                              else o2 in
                    cs_loop fuel' u' h store_data store_freq count' o3 w1
                end
          | (Exc e, o1, w1) => (Exc e, o1, w1)
          | (Fuel, o1, w1) => (Fuel, o1, w1)
          end
      end
    else (Ret u, o, w).

  (** rkstiff/solvercs.py:191-279 [evolve]. *)
  Definition cs_evolve (fuel : nat) (u : U) (t0 tf h : PT) (store_data : bool) (store_freq : Z)
             (o : csobj) (w : W) : out U * csobj * W :=
    let o1 := cs_reset_obj o in
    let o2 := if store_data then mk_csobj (c_t o1 ++ [t0]) (c_u o1 ++ [u]) tf t0 (c_m o1)
              else mk_csobj (c_t o1) (c_u o1) tf t0 (c_m o1) in
    if tltb F (val tf) (val (padd F t0 h)) then (Exc ValueError, o2, w)
    else cs_loop fuel u h store_data store_freq 0 o2 w.
End ConstantStep.

Arguments mk_csobj {F U W m} _ _ _ _ _.
Arguments c_t {F U W m} _.  Arguments c_u {F U W m} _.  Arguments c_tf {F U W m} _.
Arguments c_tc {F U W m} _.  Arguments c_m {F U W m} _.
Arguments cs_reset_obj {F U W m} _.  Arguments cs_step {F U W m} _ _ _ _.
Arguments cs_loop {F U W m} _ _ _ _ _ _ _ _.
Arguments cs_evolve {F U W m} _ _ _ _ _ _ _ _ _.

(** Values held by a [SolverConfig] (rkstiff/solveras.py:27-169). *)
Record config (A : Type) := mk_config {
  epsilon : A; incr_f : A; decr_f : A; safety_f : A; adapt_cutoff : A; minh : A }.
Arguments mk_config {A}.
Arguments epsilon {A} c.  Arguments incr_f {A} c.  Arguments decr_f {A} c.
Arguments safety_f {A} c.  Arguments adapt_cutoff {A} c.  Arguments minh {A} c.

(** Class constants of [BaseSolverAS] (rkstiff/solveras.py:255-257). *)
Record consts (A : Type) := mk_consts { MAX_LOOPS : nat; MAX_S : A; MIN_S : A }.
Arguments mk_consts {A}.
Arguments MAX_LOOPS {A} c.  Arguments MAX_S {A} c.  Arguments MIN_S {A} c.

Section AdaptiveStep.
  Variable F : tops.
  Variables U W : Type.
  Variable m : asm (T F) U W.
  Variable k : consts (T F).
  Variable cfg : config (T F).
  (** [_compute_s] (rkstiff/solveras.py:412-455): factor from candidate and error vector; it
      may raise (empty array, or numpy configured to raise on division by zero). The exact
      definition is in [Tolerance.v]; the control layer holds for any function. *)
  Variable compute_s : U -> U -> exn + sval (T F).
  Notation PT := (pynum (T F)).

  (** Attributes of a [BaseSolverAS] instance (rkstiff/solveras.py:280-281,
      rkstiff/solver.py:124). [__t0] is never read and is left out. *)
  Record asobj := mk_asobj {
    a_t : list PT; a_u : list U; a_tf : PT; a_tc : PT; a_accept : bool; a_m : as_st m }.

  (** rkstiff/solveras.py:306-312 [reset]. *)
  Definition as_reset_obj (o : asobj) : asobj :=
    mk_asobj [] [] (PyN false (tofZ F 0)) (PyN false (tofZ F 0)) false (as_reset m (a_m o)).

  (** rkstiff/solveras.py:457-506 [_reject_step_size] (the new step; the flag [_accept] is set
      by the caller below). [MIN_S] and [decr_f] are plain Python numbers, [s] is a numpy
      scalar, so the product with a finite [s] is a numpy scalar. *)
  Definition reject_size (s : sval (T F)) (h : PT) : PT :=
    match s with
    | SFin x => PyN true (tmul F (npmin F (npmax F x (MIN_S k)) (decr_f cfg)) (val h))
    | _ => PyN (isnp h) (tmul F (MIN_S k) (val h))
    end.

  (** rkstiff/solveras.py:508-554 [_accept_step_size]; called with a finite [s] only. *)
  Definition accept_size (x : T F) (h : PT) : PT :=
    let s := npmin F x (MAX_S k) in
    if tltb F (incr_f cfg) s then PyN true (tmul F s (val h)) else h.

  (** Condition at rkstiff/solveras.py:385: [None] means reject, [Some x] accept with [s = x]. *)
  Definition accepts (s : sval (T F)) : option (T F) :=
    match s with
    | SFin x => if tltb F x (tofZ F 1) then None else Some x
    | _ => None
    end.

  Definition set_meth (o : asobj) (s : as_st m) : asobj :=
    mk_asobj (a_t o) (a_u o) (a_tf o) (a_tc o) (a_accept o) s.
  Definition set_accept (o : asobj) (b : bool) : asobj :=
    mk_asobj (a_t o) (a_u o) (a_tf o) (a_tc o) b (a_m o).

  (** rkstiff/solveras.py:377-410: the [while True] loop of [step]. [fuel] is always enough
      when started by [as_step] (theorem [step_never_out_of_fuel]). *)
  Fixpoint as_step_loop (fuel numloops : nat) (u : U) (h : PT) (o : asobj) (w : W)
    : out (U * PT * PT) * asobj * W :=
    match fuel with
    | O => (Fuel, o, w)
    | S fuel' =>
        let '(r, s1, w1) := as_upd m (a_accept o) u (val h) (a_m o) w in
        let o1 := set_meth o s1 in
        match r with
        | inl e => (Exc e, o1, w1)
        | inr (unew, err) =>
            match compute_s unew err with
            | inl e => (Exc e, o1, w1)
            | inr s =>
                match accepts s with
                | Some x => (Ret (unew, h, accept_size x h), set_accept o1 true, w1)
                | None =>
                    let h' := reject_size s h in
                    let o2 := set_accept o1 false in
                    let numloops' := S numloops in
                    if Nat.ltb (MAX_LOOPS k) numloops' then (Exc MaxLoopsExceeded, o2, w1)
                    else if tltb F (val h') (minh cfg) then (Exc MinimumStepReached, o2, w1)
                    else as_step_loop fuel' numloops' u h' o2 w1
                end
            end
        end
    end.

  (** rkstiff/solveras.py:336-410 [step]. *)
  Definition as_step (u : U) (h : PT) (o : asobj) (w : W) : out (U * PT * PT) * asobj * W :=
    if tleb F (tofZ F 0) (val h) then as_step_loop (S (S (MAX_LOOPS k))) 0 u h o w
    else (Exc AssertionError, o, w).

  (** rkstiff/solveras.py:622-646: the [while] loop of [evolve]. *)
  Fixpoint as_loop (fuel : nat) (u : U) (h : PT) (store_data : bool) (store_freq count : Z)
           (o : asobj) (w : W) : out U * asobj * W :=
    if tltb F (val (a_tc o)) (val (a_tf o)) then
      match fuel with
      | O => (Fuel, o, w)
      | S fuel' =>
          match as_step u h o w with
          | (Ret (u', h1, hs), o1, w1) =>
              let tc' := padd F (a_tc o1) h1 in
              let count' := (count + 1)%Z in
              let o2 := mk_asobj (a_t o1) (a_u o1) (a_tf o1) tc' (a_accept o1) (a_m o1) in
              if progress_raises F count' tc' (a_tf o2) then (Exc ZeroDivisionError, o2, w1)
              else
                let h' := if tltb F (val (a_tf o2)) (val (padd F tc' hs))
                          then psub F (a_tf o2) tc' else hs in
                match store_now store_data store_freq count' with
                | None => (Exc ZeroDivisionError, o2, w1)
                | Some b =>
                    let o3 := if b then mk_asobj (a_t o2 ++ [tc']) (a_u o2 ++ [u'])
                                                 (a_tf o2) tc' (a_accept o2) (a_m o2)
                              else o2 in
                    as_loop fuel' u' h' store_data store_freq count' o3 w1
                end
          | (Exc e, o1, w1) => (Exc e, o1, w1)
          | (Fuel, o1, w1) => (Fuel, o1, w1)
          end
      end
    else (Ret u, o, w).

  (** rkstiff/solveras.py:556-650 [evolve]; [h_init = None] is the Python default. *)
  Definition as_evolve (fuel : nat) (u : U) (t0 tf : PT) (h_init : option PT)
             (store_data : bool) (store_freq : Z) (o : asobj) (w : W) : out U * asobj * W :=
    let o1 := as_reset_obj o in
    let o2 := if store_data
              then mk_asobj (a_t o1 ++ [t0]) (a_u o1 ++ [u]) tf t0 (a_accept o1) (a_m o1)
              else mk_asobj (a_t o1) (a_u o1) tf t0 (a_accept o1) (a_m o1) in
    let h0 := match h_init with
              | Some h => h
              | None => let d := psub F tf t0 in PyN (isnp d) (tdiv F (val d) (tofZ F 100))
              end in
    let h := if tltb F (val tf) (val (padd F t0 h0)) then psub F tf t0 else h0 in
    as_loop fuel u h store_data store_freq 0 o2 w.
End AdaptiveStep.

Arguments mk_asobj {F U W m} _ _ _ _ _ _.
Arguments a_t {F U W m} _.  Arguments a_u {F U W m} _.  Arguments a_tf {F U W m} _.
Arguments a_tc {F U W m} _.  Arguments a_accept {F U W m} _.  Arguments a_m {F U W m} _.
Arguments as_reset_obj {F U W m} _.  Arguments set_meth {F U W m} _ _.
Arguments set_accept {F U W m} _ _.
Arguments reject_size {F} k cfg s h.  Arguments accept_size {F} k cfg x h.
Arguments accepts {F} s.
Arguments as_step_loop {F U W m} k cfg compute_s _ _ _ _ _ _.
Arguments as_step {F U W m} k cfg compute_s _ _ _ _.
Arguments as_loop {F U W m} k cfg compute_s _ _ _ _ _ _ _ _.
Arguments as_evolve {F U W m} k cfg compute_s _ _ _ _ _ _ _ _ _.
