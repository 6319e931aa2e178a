(** * Common part of the solver classes: caches, wrapper methods

    Each solver class keeps the step size of the cached coefficients ([_h_coeff]), a flag telling
    whether the first stage is initialised ([__n1_init]; [_stages_init] in ETD35), the
    coefficients, and the arrays that survive from one call to the next. Arrays that every call
    writes before reading ([_k], [_err], the inner [_NLi]) are local variables in the model. *)

From Coq Require Import ZArith List Bool.
From Verif Require Import Scalars Control Arrays.
Import ListNotations.

(** State and exception monad: a computation updates the solver state [S] and the world [W]; on
    an exception the updates made so far stay. *)
Definition M (S W X : Type) := S -> W -> (exn + X) * S * W.
Definition ret {S W X} (x : X) : M S W X := fun s w => (inr x, s, w).
Definition bind {S W X Y} (m : M S W X) (f : X -> M S W Y) : M S W Y :=
  fun s w => match m s w with
             | (inl e, s', w') => (inl e, s', w')
             | (inr x, s', w') => f x s' w'
             end.
Definition get {S W X} (p : S -> X) : M S W X := fun s w => (inr (p s), s, w).
Definition upd {S W} (f : S -> S) : M S W unit := fun s w => (inr tt, f s, w).
(** A call of the user's nonlinear function (may raise, may change the world). *)
Definition call {S W V Y} (nl : V -> W -> (exn + Y) * W) (v : V) : M S W Y :=
  fun s w => let '(r, w') := nl v w in (r, s, w').
Declare Scope m_scope.
Delimit Scope m_scope with m.
Notation "x <- e ;; k" := (bind e (fun x => k)) (at level 61, e at next level, right associativity) : m_scope.
Notation "e ;;; k" := (bind e (fun _ => k)) (at level 61, right associativity) : m_scope.

(** State of a solver object above the base class: [K] coefficients, [X] surviving arrays. *)
Record sst (A K X : Type) := mk_sst { h_coeff : option A; n1_init : bool; coefs : K; mem : X }.
Arguments mk_sst {A K X}.  Arguments h_coeff {A K X} s.  Arguments n1_init {A K X} s.
Arguments coefs {A K X} s.  Arguments mem {A K X} s.

(** Surviving arrays: [NL1] only (IF4, ETD4, ETD5, ETD35); [NL1] and the last stage (IF34,
    ETD34: [NL5], IF45DP: [NL7]); with [v] for the diagonalized strategies. *)
Record mem1 (V : Type) := mk_mem1 { m1_NL1 : V }.
Record mem2 (V : Type) := mk_mem2 { m2_NL1 : V; m2_NLn : V }.
Record mem3 (V : Type) := mk_mem3 { m3_NL1 : V; m3_NLn : V; m3_v : V }.
Record mem4 (V : Type) := mk_mem4 { m4_NL1 : V; m4_v : V }.
Arguments mk_mem1 {V}.  Arguments m1_NL1 {V} m.
Arguments mk_mem2 {V}.  Arguments m2_NL1 {V} m.  Arguments m2_NLn {V} m.
Arguments mk_mem3 {V}.  Arguments m3_NL1 {V} m.  Arguments m3_NLn {V} m.  Arguments m3_v {V} m.
Arguments mk_mem4 {V}.  Arguments m4_NL1 {V} m.  Arguments m4_v {V} m.

Definition set_h {A K X} (h : option A) (s : sst A K X) := mk_sst h (n1_init s) (coefs s) (mem s).
Definition set_init {A K X} (b : bool) (s : sst A K X) := mk_sst (h_coeff s) b (coefs s) (mem s).
Definition set_coefs {A K X} (c : K) (s : sst A K X) := mk_sst (h_coeff s) (n1_init s) c (mem s).
Definition set_mem {A K X} (x : X) (s : sst A K X) := mk_sst (h_coeff s) (n1_init s) (coefs s) x.

Section Wrapper.
  Variable F : tops.
  Variables U W K X : Type.
  Notation st := (sst (T F) K X).

  (** [h == self._h_coeff]: [None] is different from every number. *)
  Definition same_h (h : T F) (c : option (T F)) : bool :=
    match c with Some h' => teqb F h h' | None => false end.

  (** A strategy's [update_coeffs]: outcome and the coefficients it leaves behind (on an
      exception, those assigned so far). *)
  Variable ucoef : T F -> K -> (exn + unit) * K.

  (** The solvers' [_update_coeffs]: rkstiff/if4.py:261-267, if34.py:314-319, etd4.py:387-400,
      etd34.py:569-587, etd5.py:595-620, etd35.py:842-855, and the first lines of
      if45dp.py:183-205. The step size is recorded before the
      coefficients are computed. *)
  Definition s_update_coeffs (h : T F) : M st W unit :=
    fun s w =>
      if same_h h (h_coeff s) then (inr tt, s, w)
      else
        let s1 := set_h (Some h) s in
        let '(r, c) := ucoef h (coefs s1) in
        (r, set_coefs c s1, w).

  (** The solvers' [_reset]: rkstiff/if4.py:256-259, if34.py:308-312, if45dp.py:105-110,
      etd4.py:374-385, etd34.py:557-567, etd5.py:578-593, etd35.py:832-840 (the flag [_accept]
      belongs to the base class and is cleared by its [reset]). *)
  Definition s_reset (s : st) : st := mk_sst None false (coefs s) (mem s).

  (** The strategy's [n1_init]/[stage_init] and [update_stages]. *)
  Variable init : U -> M st W unit.
  Variable stages : U -> T F -> M st W U.
  Variable astages : bool -> U -> T F -> M st W (U * U).
  Local Open Scope m_scope.

  (** [_update_stages] of the constant-step solvers: rkstiff/if4.py:269-275, etd4.py:402-422,
      etd5.py:622-655. *)
  Definition cs_update_stages (u : U) (h : T F) : M st W U :=
    s_update_coeffs h ;;;
    b <- get n1_init ;;
    (if b then ret tt else (init u ;;; upd (set_init true))) ;;;
    stages u h.

  (** [_update_stages] of the adaptive solvers IF34, ETD34, ETD35: rkstiff/if34.py:321-334,
      etd34.py:589-609, etd35.py:857-878. *)
  Definition as_update_stages (accept : bool) (u : U) (h : T F) : M st W (U * U) :=
    s_update_coeffs h ;;;
    b <- get n1_init ;;
    (if b then ret tt else (init u ;;; upd (set_init true))) ;;;
    astages accept u h.

  Definition cs_solver : csm (T F) U W := mk_csm (T F) U W st s_reset cs_update_stages.
  Definition as_solver : asm (T F) U W := mk_asm (T F) U W st s_reset as_update_stages.
End Wrapper.
