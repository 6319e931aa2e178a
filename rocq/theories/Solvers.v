(** * The sixteen solver strategies as one family *)

From Coq Require Import ZArith List Bool FunctionalExtensionality.
From Verif Require Import Scalars Control Arrays SchemeBase SchemeIF SchemeETD4 SchemeETD5.
Import ListNotations.

Set Implicit Arguments.

(** What a user passes to a constructor, plus the external routines: 1-D operator or matrix with
    its size, ETD configuration, nonlinear function; [scipy.linalg.expm], [numpy.linalg.inv], and
    (for [diagonalize=True]) the result of [numpy.linalg.eig]. *)
Record problem (F : tops) (A : aops F) (W : Type) := mk_problem {
  p_nl   : vec A -> W -> (exn + vec A) * W;
  p_size : nat;
  p_vec  : vec A;
  p_mat  : mat A;
  p_cfg  : etdcfg F;
  p_expm : mat A -> exn + mat A;
  p_inv  : mat A -> exn + mat A;
  p_S    : mat A;
  p_Sinv : mat A;
  p_eigs : vec A }.

(** Constant-step strategies: IF4, ETD4, ETD5, each for 1-D and matrix operators. *)
Inductive cs_kind := IF4d | IF4n | ETD4d | ETD4n | ETD5d | ETD5n.
(** Adaptive strategies: IF34, ETD34, ETD35 for 1-D operators, matrices ([n]), and diagonalized
    matrices ([z]); IF45DP for 1-D operators. *)
Inductive as_kind :=
| IF34d | IF34n | IF34z | IF45DPd | ETD34d | ETD34n | ETD34z | ETD35d | ETD35n | ETD35z.

Section Family.
  Variable F : tops.
  Variable A : aops F.
  Variable W : Type.
  Variable p : problem A W.

  Definition cs_model (k : cs_kind) : csm (T F) (vec A) W :=
    match k with
    | IF4d => if4_diag F A W (p_nl p) (p_vec p)
    | IF4n => if4_nondiag F A W (p_nl p) (p_size p) (p_expm p) (p_mat p)
    | ETD4d => etd4_diag F A W (p_nl p) (p_cfg p) (p_vec p)
    | ETD4n => etd4_nondiag F A W (p_nl p) (p_cfg p) (p_size p) (p_expm p) (p_inv p) (p_mat p)
    | ETD5d => etd5_diag F A W (p_nl p) (p_cfg p) (p_vec p)
    | ETD5n => etd5_nondiag F A W (p_nl p) (p_cfg p) (p_size p) (p_expm p) (p_inv p) (p_mat p)
    end.

  Definition as_model (k : as_kind) : asm (T F) (vec A) W :=
    match k with
    | IF34d => if34_diag F A W (p_nl p) (p_vec p)
    | IF34n => if34_nondiag F A W (p_nl p) (p_size p) (p_expm p) (p_mat p)
    | IF34z => if34_diagonalized F A W (p_nl p) (p_size p) (p_S p) (p_Sinv p) (p_eigs p)
    | IF45DPd => if45dp F A W (p_nl p) (p_vec p)
    | ETD34d => etd34_diag F A W (p_nl p) (p_cfg p) (p_vec p)
    | ETD34n => etd34_nondiag F A W (p_nl p) (p_cfg p) (p_size p) (p_expm p) (p_inv p) (p_mat p)
    | ETD34z => etd34_diagonalized F A W (p_nl p) (p_cfg p) (p_size p) (p_S p) (p_Sinv p) (p_eigs p)
    | ETD35d => etd35_diag F A W (p_nl p) (p_cfg p) (p_vec p)
    | ETD35n => etd35_nondiag F A W (p_nl p) (p_cfg p) (p_size p) (p_expm p) (p_inv p) (p_mat p)
    | ETD35z => etd35_diagonalized F A W (p_nl p) (p_cfg p) (p_size p) (p_S p) (p_Sinv p) (p_eigs p)
    end.

  (** Internal state right after construction: every array is [np.zeros] (rkstiff/if4.py:67-70,
      145-150, 253-254; if34.py:73-77, 166, 219-223; if45dp.py:71-103; etd4.py:79-84, 225-232;
      etd34.py:65-82, 246, 341-354; etd5.py:93-112, 331-358; etd35.py:129-155, 421, 573-600). *)
  Definition vzero : vec A := fun _ => lit A 0.
  Definition z_if X (x : X) := mk_if_coefs x x.
  Definition z_etd4 X (x : X) := mk_etd4_coefs x x x x x x x x x x.
  Definition z_etd5 X (x : X) := mk_etd5_coefs x x x x x x x x x x x x x x x x x x x x x.
  Definition z_dp V S (x : V) (y : S) :=
    mk_dp_coefs x x x x x x x x x x x x x x x x x x x x x x x x y x x x x y y.
  Definition z1 := mk_mem1 vzero.
  Definition z2 := mk_mem2 vzero vzero.
  Definition z3 := mk_mem3 vzero vzero vzero.
  Definition z4 := mk_mem4 vzero vzero.

  Definition cs_new (k : cs_kind) : cs_st (cs_model k) :=
    match k with
    | IF4d => mk_sst None false (z_if vzero) z1
    | IF4n => mk_sst None false (z_if (mzero A)) z1
    | ETD4d => mk_sst None false (z_etd4 vzero) z1
    | ETD4n => mk_sst None false (z_etd4 (mzero A)) z1
    | ETD5d => mk_sst None false (z_etd5 vzero) z1
    | ETD5n => mk_sst None false (z_etd5 (mzero A)) z1
    end.

  Definition as_new (k : as_kind) : as_st (as_model k) :=
    match k with
    | IF34d => mk_sst None false (z_if vzero) z2
    | IF34n => mk_sst None false (z_if (mzero A)) z2
    | IF34z => mk_sst None false (z_if vzero) z3
    | IF45DPd => mk_sst None false (z_dp vzero (tofZ F 0)) z2
    | ETD34d => mk_sst None false (z_etd4 vzero) z2
    | ETD34n => mk_sst None false (z_etd4 (mzero A)) z2
    | ETD34z => mk_sst None false (z_etd4 vzero) z3
    | ETD35d => mk_sst None false (z_etd5 vzero) z1
    | ETD35n => mk_sst None false (z_etd5 (mzero A)) z1
    | ETD35z => mk_sst None false (z_etd5 vzero) z4
    end.

  (** The object right after construction (rkstiff/solver.py:124, solvercs.py:101-103,
      solveras.py:280-283). *)
  Definition cs_new_obj (k : cs_kind) : csobj F (vec A) W (cs_model k) :=
    mk_csobj [] [] (PyN false (tofZ F 0)) (PyN false (tofZ F 0)) (cs_new k).
  Definition as_new_obj (k : as_kind) : asobj F (vec A) W (as_model k) :=
    mk_asobj [] [] (PyN false (tofZ F 0)) (PyN false (tofZ F 0)) false (as_new k).
End Family.

(** The nonlinear function as a pure mathematical function: never raises, same value for the
    same argument. *)
Definition pure_nl {F} {A : aops F} {W} (N : vec A -> vec A) : vec A -> W -> (exn + vec A) * W :=
  fun v w => (inr (N v), w).
Definition with_nl {F} {A : aops F} {W W'} (p : problem A W) (nl : vec A -> W' -> (exn + vec A) * W')
  : problem A W' :=
  mk_problem nl (p_size p) (p_vec p) (p_mat p) (p_cfg p) (p_expm p) (p_inv p) (p_S p) (p_Sinv p)
             (p_eigs p).
