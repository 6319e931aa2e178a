(** * SolverConfig and ETDConfig: validated attributes, constructors, shared default objects *)

From Coq Require Import ZArith List Bool Lia.
From Verif Require Import Scalars Control Arrays Solvers.
Import ListNotations.

(** Python values a user may pass for a parameter: [int], [bool], [float] (NaN included, as an
    element of the arithmetic), or an object that cannot be compared with a number ([None],
    [str], ...), for which the comparison raises [TypeError]. numpy scalars behave like
    [float] in the comparisons; numpy integers are not [int] and are [POther] for
    [contour_points]. *)
Inductive pyval (A : Type) := PInt (z : Z) | PBool (b : bool) | PFloat (x : A) | POther.
Arguments PInt {A} z.  Arguments PBool {A} b.  Arguments PFloat {A} x.  Arguments POther {A}.

Section Config.
  Variable F : tops.

  (** Numeric value in comparisons and of [float(value)]; [True] is 1. Comparing an [int] with 0
      or 1 gives the same answer after conversion to [float]. Not modelled: [OverflowError] of
      [float(value)] for integers beyond 2^1024. *)
  Definition num_of (v : pyval (T F)) : option (T F) :=
    match v with
    | PInt z => Some (tofZ F z)
    | PBool b => Some (tofZ F (if b then 1 else 0)%Z)
    | PFloat x => Some x
    | POther => None
    end.

  (** The attributes of a [SolverConfig], [None] before the first assignment
      (rkstiff/solveras.py:81-86). *)
  Record sobj := mk_sobj {
    o_epsilon : option (T F); o_incr_f : option (T F); o_decr_f : option (T F);
    o_safety_f : option (T F); o_adapt_cutoff : option (T F); o_minh : option (T F) }.
  Definition sobj_init : sobj := mk_sobj None None None None None None.

  Inductive sparam := Epsilon | IncrF | DecrF | SafetyF | AdaptCutoff | Minh.

  (** The test of each setter that raises [ValueError] (rkstiff/solveras.py:107, 119, 131, 143,
      155, 167). *)
  Definition s_refused (p : sparam) (x : T F) : bool :=
    match p with
    | Epsilon => tleb F x (tofZ F 0)
    | IncrF => tleb F x (tofZ F 1)
    | DecrF => tleb F (tofZ F 1) x
    | SafetyF => tltb F (tofZ F 1) x
    | AdaptCutoff => tleb F (tofZ F 1) x
    | Minh => tleb F x (tofZ F 0)
    end.
  (** rkstiff/solveras.py:109, 121, 133, 145, 157, 169. *)
  Definition s_store (p : sparam) (x : T F) (o : sobj) : sobj :=
    match p with
    | Epsilon => mk_sobj (Some x) (o_incr_f o) (o_decr_f o) (o_safety_f o) (o_adapt_cutoff o) (o_minh o)
    | IncrF => mk_sobj (o_epsilon o) (Some x) (o_decr_f o) (o_safety_f o) (o_adapt_cutoff o) (o_minh o)
    | DecrF => mk_sobj (o_epsilon o) (o_incr_f o) (Some x) (o_safety_f o) (o_adapt_cutoff o) (o_minh o)
    | SafetyF => mk_sobj (o_epsilon o) (o_incr_f o) (o_decr_f o) (Some x) (o_adapt_cutoff o) (o_minh o)
    | AdaptCutoff => mk_sobj (o_epsilon o) (o_incr_f o) (o_decr_f o) (o_safety_f o) (Some x) (o_minh o)
    | Minh => mk_sobj (o_epsilon o) (o_incr_f o) (o_decr_f o) (o_safety_f o) (o_adapt_cutoff o) (Some x)
    end.
  (** A setter: exception (if any) and the object afterwards (rkstiff/solveras.py:104-169). *)
  Definition s_set (p : sparam) (v : pyval (T F)) (o : sobj) : option exn * sobj :=
    match num_of v with
    | None => (Some TypeError, o)
    | Some x => if s_refused p x then (Some ValueError, o) else (None, s_store p x o)
    end.

  (** Assignments one after the other, stopping at the first exception. *)
  Fixpoint s_sets (l : list (sparam * pyval (T F))) (o : sobj) : option exn * sobj :=
    match l with
    | [] => (None, o)
    | (p, v) :: l' => match s_set p v o with
                      | (Some e, o') => (Some e, o')
                      | (None, o') => s_sets l' o'
                      end
    end.
  (** rkstiff/solveras.py:71-94 [SolverConfig.__init__]: an exception means there is no object. *)
  Definition s_new (e i d s a m : pyval (T F)) : exn + sobj :=
    match s_sets [(Epsilon, e); (IncrF, i); (DecrF, d); (SafetyF, s); (AdaptCutoff, a); (Minh, m)] sobj_init with
    | (Some ex, _) => inl ex
    | (None, o) => inr o
    end.
  (** Any later sequence of assignments from user code; exceptions are caught by the caller and
      the object is used further. *)
  Fixpoint s_assign (l : list (sparam * pyval (T F))) (o : sobj) : sobj :=
    match l with
    | [] => o
    | (p, v) :: l' => s_assign l' (snd (s_set p v o))
    end.

  Definition s_get (p : sparam) (o : sobj) : option (T F) :=
    match p with
    | Epsilon => o_epsilon o | IncrF => o_incr_f o | DecrF => o_decr_f o
    | SafetyF => o_safety_f o | AdaptCutoff => o_adapt_cutoff o | Minh => o_minh o
    end.
  (** The record read by the solvers ([Control.v]). *)
  Definition config_of (o : sobj) : option (config (T F)) :=
    match o_epsilon o, o_incr_f o, o_decr_f o, o_safety_f o, o_adapt_cutoff o, o_minh o with
    | Some e, Some i, Some d, Some s, Some a, Some m => Some (mk_config e i d s a m)
    | _, _, _, _, _, _ => None
    end.

  (** *** ETDConfig *)

  (** Attributes (rkstiff/etd.py:82-84); [modecutoff] and [contour_radius] keep the object that
      was passed, only its numeric value matters. *)
  Record eobj := mk_eobj { o_modecutoff : T F; o_points : Z; o_radius : T F }.
  Inductive eparam := ModeCutoff | ContourPoints | ContourRadius.

  (** rkstiff/etd.py:97-101, 110-117, 126-131: the setters. [bool] is a subclass of [int]. *)
  Definition e_set (p : eparam) (v : pyval (T F)) (o : eobj) : option exn * eobj :=
    match p with
    | ModeCutoff =>
        match num_of v with
        | None => (Some TypeError, o)
        | Some x => if tltb F (tofZ F 1) x || tleb F x (tofZ F 0) then (Some ValueError, o)
                    else (None, mk_eobj x (o_points o) (o_radius o))
        end
    | ContourPoints =>
        let go (z : Z) := if (z <=? 1)%Z then (Some ValueError, o)
                          else (None, mk_eobj (o_modecutoff o) z (o_radius o)) in
        match v with
        | PInt z => go z
        | PBool b => go (if b then 1 else 0)%Z
        | PFloat _ | POther => (Some TypeError, o)
        end
    | ContourRadius =>
        match num_of v with
        | None => (Some TypeError, o)
        | Some x => if tleb F x (tofZ F 0) then (Some ValueError, o)
                    else (None, mk_eobj (o_modecutoff o) (o_points o) x)
        end
    end.
  Fixpoint e_sets (l : list (eparam * pyval (T F))) (o : eobj) : option exn * eobj :=
    match l with
    | [] => (None, o)
    | (p, v) :: l' => match e_set p v o with
                      | (Some e, o') => (Some e, o')
                      | (None, o') => e_sets l' o'
                      end
    end.
  (** rkstiff/etd.py:81-87 [ETDConfig.__init__]; the initial attribute values are 0.01, 32, 1.0. *)
  Definition eobj_init : eobj := mk_eobj (tdiv F (tofZ F 1) (tofZ F 100)) 32 (tofZ F 1).
  Definition e_new (c n r : pyval (T F)) : exn + eobj :=
    match e_sets [(ModeCutoff, c); (ContourPoints, n); (ContourRadius, r)] eobj_init with
    | (Some ex, _) => inl ex
    | (None, o) => inr o
    end.
  Fixpoint e_assign (l : list (eparam * pyval (T F))) (o : eobj) : eobj :=
    match l with
    | [] => o
    | (p, v) :: l' => e_assign l' (snd (e_set p v o))
    end.
  (** The record read by the schemes ([Arrays.v]). *)
  Definition etdcfg_of (o : eobj) :=
    mk_etdcfg (o_modecutoff o) (Z.to_nat (o_points o)) (o_radius o).

  (** ** Heap of configuration objects

      The default values of the parameters [config] and [etd_config] are objects created once,
      when the class is defined: rkstiff/if34.py:293, if45dp.py:51, etd34.py:512-513,
      etd35.py (same), etd4.py:349, etd5.py:539. *)
  Inductive solver_class := IF4 | IF34 | IF45DP | ETD4 | ETD5 | ETD34 | ETD35.
  Record heap := mk_heap { h_s : list sobj; h_e : list eobj }.

  (** A solver holds references; [None] where the class has no such configuration. *)
  Record inst := mk_inst { i_class : solver_class; i_s : option nat; i_e : option nat }.

  (** Locations of the default objects. *)
  Definition default_s (c : solver_class) : option nat :=
    match c with IF34 => Some 0 | IF45DP => Some 1 | ETD34 => Some 2 | ETD35 => Some 3 | _ => None end.
  Definition default_e (c : solver_class) : option nat :=
    match c with ETD4 => Some 0 | ETD5 => Some 1 | ETD34 => Some 2 | ETD35 => Some 3 | _ => None end.
  (** State after importing the package: [d] and [e] are what [SolverConfig()] and
      [ETDConfig()] return. *)
  Definition heap0 (d : sobj) (e : eobj) : heap := mk_heap [d; d; d; d] [e; e; e; e].

  Fixpoint upd {A} (l : list A) (n : nat) (x : A) : list A :=
    match l, n with
    | [], _ => []
    | _ :: l', O => x :: l'
    | y :: l', S n' => y :: upd l' n' x
    end.

  (** User operations. A solver is referred to by its position in the list of solvers. *)
  Inductive op :=
  | NewSConf (e i d s a m : pyval (T F))
  | NewEConf (c n r : pyval (T F))
  | NewSolver (c : solver_class) (s e : option nat)      (* [None]: argument left out *)
  | SetS (loc : nat) (p : sparam) (v : pyval (T F))      (* conf.p = v *)
  | SetE (loc : nat) (p : eparam) (v : pyval (T F))
  | ViaS (solver : nat) (p : sparam) (v : pyval (T F))   (* solver.config.p = v *)
  | ViaE (solver : nat) (p : eparam) (v : pyval (T F)).  (* solver.etd_config.p = v *)

  Definition world := (heap * list inst)%type.
  Definition set_s (loc : nat) p v (w : world) : world :=
    match nth_error (h_s (fst w)) loc with
    | Some o => (mk_heap (upd (h_s (fst w)) loc (snd (s_set p v o))) (h_e (fst w)), snd w)
    | None => w
    end.
  Definition set_e (loc : nat) p v (w : world) : world :=
    match nth_error (h_e (fst w)) loc with
    | Some o => (mk_heap (h_s (fst w)) (upd (h_e (fst w)) loc (snd (e_set p v o))), snd w)
    | None => w
    end.
  (** The location a constructor argument resolves to: the constructors store the reference they
      get (rkstiff/solveras.py:271, etd.py:225, 277); a class without the parameter ignores it. *)
  Definition resolve (arg dflt : option nat) : option nat :=
    match dflt, arg with
    | None, _ => None
    | Some _, Some l => Some l
    | Some d, None => Some d
    end.
  Definition exec (o : op) (w : world) : world :=
    match o with
    | NewSConf e i d s a m =>
        match s_new e i d s a m with
        | inr c => (mk_heap (h_s (fst w) ++ [c]) (h_e (fst w)), snd w)
        | inl _ => w
        end
    | NewEConf c n r =>
        match e_new c n r with
        | inr x => (mk_heap (h_s (fst w)) (h_e (fst w) ++ [x]), snd w)
        | inl _ => w
        end
    | NewSolver c s e => (fst w, snd w ++ [mk_inst c (resolve s (default_s c)) (resolve e (default_e c))])
    | SetS loc p v => set_s loc p v w
    | SetE loc p v => set_e loc p v w
    | ViaS i p v => match nth_error (snd w) i with
                    | Some s => match i_s s with Some loc => set_s loc p v w | None => w end
                    | None => w
                    end
    | ViaE i p v => match nth_error (snd w) i with
                    | Some s => match i_e s with Some loc => set_e loc p v w | None => w end
                    | None => w
                    end
    end.
  Definition run (l : list op) (w : world) : world := fold_left (fun w o => exec o w) l w.

  (** What solver number [i] reads from its configuration objects. *)
  Definition reads_s (w : world) (i : nat) : option sobj :=
    match nth_error (snd w) i with
    | Some s => match i_s s with Some loc => nth_error (h_s (fst w)) loc | None => None end
    | None => None
    end.
  Definition reads_e (w : world) (i : nat) : option eobj :=
    match nth_error (snd w) i with
    | Some s => match i_e s with Some loc => nth_error (h_e (fst w)) loc | None => None end
    | None => None
    end.
End Config.

Arguments s_store {F} p x o.  Arguments s_set {F} p v o.
Arguments s_get {F} p o.  Arguments s_new {F} e i d s a m.  Arguments e_set {F} p v o.
Arguments e_new {F} c n r.  Arguments o_modecutoff {F} _.  Arguments o_points {F} _.
Arguments o_radius {F} _.  Arguments h_s {F} _.  Arguments h_e {F} _.  Arguments set_s {F} loc p v w.
Arguments set_e {F} loc p v w.  Arguments exec {F} o w.  Arguments run {F} l w.
Arguments reads_s {F} w i.  Arguments reads_e {F} w i.
