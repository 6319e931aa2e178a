(** * numpy arrays, [psi] functions and contour sums

    Arrays are functions from indices to entries. The entry arithmetic is a record [aops] of
    operations without laws, so that theorems that do not depend on rounding hold for any
    arithmetic (IEEE complex128 included); [CInst.v] gives the exact complex instance.

    Simplifications: numpy dtype promotion (float64 vs complex128) is not modelled; shapes
    are ([Shapes.v]) where they matter; [z**2] is [z*z] and [z**3] is [z*z*z]. *)

From Coq Require Import ZArith List Bool FunctionalExtensionality.
From Verif Require Import Scalars.
Import ListNotations.

(** Operations on array entries. [esum n f] is [np.sum] of [f 0 .. f (n-1)] and [emdot n m v] is
    [m.dot(v)] (numpy does not fix the order of summation); [e2pij] is [2j * np.pi]. *)
Record aops (F : tops) := mk_aops {
  E     : Type;
  eofT  : T F -> E;
  eadd  : E -> E -> E;
  esub  : E -> E -> E;
  emul  : E -> E -> E;
  ediv  : E -> E -> E;
  eneg  : E -> E;
  eexp  : E -> E;
  eabs  : E -> T F;
  e2pij : E;
  esum  : nat -> (nat -> E) -> E;
  emdot : nat -> (nat -> nat -> E) -> (nat -> E) -> (nat -> E) }.
Arguments E {F} a.        Arguments eofT {F} a _.   Arguments eadd {F} a _ _.
Arguments esub {F} a _ _. Arguments emul {F} a _ _. Arguments ediv {F} a _ _.
Arguments eneg {F} a _.   Arguments eexp {F} a _.   Arguments eabs {F} a _.
Arguments e2pij {F} a.    Arguments esum {F} a _ _. Arguments emdot {F} a _ _ _ _.

Definition vec {F} (A : aops F) := nat -> E A.
Definition mat {F} (A : aops F) := nat -> nat -> E A.

Section Arrays.
  Variable F : tops.
  Variable A : aops F.
  Notation vec := (vec A).
  Notation mat := (mat A).

  (** Integer and decimal literals. *)
  Definition lit (z : Z) : E A := eofT A (tofZ F z).
  Definition half : T F := tdiv F (tofZ F 1) (tofZ F 2).

  (** Elementwise operations on 1-D arrays. *)
  Definition vadd (a b : vec) : vec := fun i => eadd A (a i) (b i).
  Definition vsub (a b : vec) : vec := fun i => esub A (a i) (b i).
  Definition vmul (a b : vec) : vec := fun i => emul A (a i) (b i).
  Definition vneg (a : vec) : vec := fun i => eneg A (a i).
  Definition vexp (a : vec) : vec := fun i => eexp A (a i).
  (** [c * a] and [a / c] for a Python scalar [c]. *)
  Definition vscal (c : T F) (a : vec) : vec := fun i => emul A (eofT A c) (a i).
  Definition vdivs (a : vec) (c : T F) : vec := fun i => ediv A (a i) (eofT A c).
  (** Integer literals: [3 * a], [a / 2]. *)
  Definition vscalz (c : Z) (a : vec) : vec := vscal (tofZ F c) a.
  Definition vdivz (a : vec) (c : Z) : vec := vdivs a (tofZ F c).

  (** Elementwise operations on 2-D arrays. *)
  Definition madd (a b : mat) : mat := fun i j => eadd A (a i j) (b i j).
  Definition msub (a b : mat) : mat := fun i j => esub A (a i j) (b i j).
  Definition mscal (c : T F) (a : mat) : mat := fun i j => emul A (eofT A c) (a i j).
  Definition mdivs (a : mat) (c : T F) : mat := fun i j => ediv A (a i j) (eofT A c).
  Definition mscalz (c : Z) (a : mat) : mat := mscal (tofZ F c) a.
  Definition mdivz (a : mat) (c : Z) : mat := mdivs a (tofZ F c).
  Definition mscale (c : E A) (a : mat) : mat := fun i j => emul A c (a i j).
  Definition eye : mat := fun i j => if Nat.eqb i j then lit 1 else lit 0.
  Definition mzero : mat := fun i j => lit 0.

  (** [a[idx] = v] with a boolean mask [idx], where the right-hand side was computed entry by
      entry from the masked entries: only those entries are overwritten. *)
  Definition mask_set (idx : nat -> bool) (v old : vec) : vec :=
    fun i => if idx i then v i else old i.
  (** [np.abs(z) < cutoff] and its complement [~idx]. *)
  Definition small_idx (z : vec) (cutoff : T F) : nat -> bool :=
    fun i => tltb F (eabs A (z i)) cutoff.
  Definition not_idx (idx : nat -> bool) : nat -> bool := fun i => negb (idx i).

  (** Writing the complement of a mask and then the mask leaves nothing of the old array. *)
  Lemma mask_cover idx s b old : 
    mask_set idx s (mask_set (not_idx idx) b old) = fun i => if idx i then s i else b i.
  Proof.
    apply functional_extensionality; intros i. unfold mask_set, not_idx.
    destruct (idx i); reflexivity.
  Qed.

  (** rkstiff/etd.py:134-148 [psi1], 151-165 [psi2], 168-182 [psi3], on one entry. *)
  Definition psi1 (z : E A) : E A := ediv A (esub A (eexp A z) (lit 1)) z.
  Definition psi2 (z : E A) : E A :=
    ediv A (emul A (lit 2) (esub A (esub A (eexp A z) (lit 1)) z)) (emul A z z).
  Definition psi3 (z : E A) : E A :=
    ediv A (emul A (lit 6)
              (esub A (esub A (esub A (eexp A z) (lit 1)) z) (ediv A (emul A z z) (lit 2))))
           (emul A (emul A z z) z).

  (** Values of an [ETDConfig] (rkstiff/etd.py:25-131). *)
  Record etdcfg := mk_etdcfg { modecutoff : T F; contour_points : nat; contour_radius : T F }.

  (** Contour nodes: [contour_radius * np.exp(2j * np.pi * np.arange(0.5, M) / M)], entry [j]
      (rkstiff/etd4.py:117-119 and the same expression in every ETD file). [np.arange(0.5, M)]
      has the [M] entries [0.5 + j]. *)
  Definition npts (c : etdcfg) : T F := tofZ F (Z.of_nat (contour_points c)).
  Definition node (c : etdcfg) (j : nat) : E A :=
    emul A (eofT A (contour_radius c))
      (eexp A (ediv A (emul A (e2pij A) (eofT A (tadd F half (tofZ F (Z.of_nat j)))))
                      (eofT A (npts c)))).
  Definition nodes (c : etdcfg) : list (E A) := map (node c) (seq 0 (contour_points c)).

  (** [h * np.sum(psi(f(Z)), axis=1) / M] with [Z = zz + rr] (rkstiff/etd4.py:120-126). *)
  Definition contour_avg (c : etdcfg) (h : T F) (psi f : E A -> E A) (z : E A) : E A :=
    ediv A (emul A (eofT A h)
              (esum A (contour_points c) (fun j => psi (f (eadd A z (node c j))))))
           (eofT A (npts c)).
End Arrays.

Arguments lit {F} A z.
Arguments vadd {F A} a b _.  Arguments vsub {F A} a b _.  Arguments vmul {F A} a b _.
Arguments vneg {F A} a _.  Arguments vexp {F A} a _.
Arguments vscal {F A} c a _.  Arguments vdivs {F A} a c _.
Arguments vscalz {F A} c a _.  Arguments vdivz {F A} a c _.
Arguments madd {F A} a b _ _.  Arguments msub {F A} a b _ _.
Arguments mscal {F A} c a _ _.  Arguments mdivs {F A} a c _ _.
Arguments mscalz {F A} c a _ _.  Arguments mdivz {F A} a c _ _.
Arguments mscale {F A} c a _ _.
Arguments eye {F} A _ _.  Arguments mzero {F} A _ _.
Arguments mask_set {F A} idx v old _.
Arguments small_idx {F A} z cutoff _.
Arguments mask_cover {F A} idx s b old.
Arguments psi1 {F} A z.  Arguments psi2 {F} A z.  Arguments psi3 {F} A z.
Arguments mk_etdcfg {F}.
Arguments modecutoff {F} e.  Arguments contour_points {F} e.  Arguments contour_radius {F} e.
Arguments npts {F} c.  Arguments node {F} A c j.  Arguments nodes {F} A c.
Arguments contour_avg {F} A c h psi f z.

(** Notations for array expressions, in the precedence of Python: [+v -v *v] elementwise on 1-D
    arrays, [c *s a], [c *z a] scalar (or integer literal) times array, [a /s c], [a /z c] array
    divided by a scalar (or literal); the same with [m] for 2-D arrays. *)
Declare Scope arr_scope.
Delimit Scope arr_scope with arr.
Infix "+v" := vadd (at level 50, left associativity) : arr_scope.
Infix "-v" := vsub (at level 50, left associativity) : arr_scope.
Infix "*v" := vmul (at level 40, left associativity) : arr_scope.
Infix "*s" := vscal (at level 40, left associativity) : arr_scope.
Infix "/s" := vdivs (at level 40, left associativity) : arr_scope.
Infix "*z" := vscalz (at level 40, left associativity) : arr_scope.
Infix "/z" := vdivz (at level 40, left associativity) : arr_scope.
Infix "+m" := madd (at level 50, left associativity) : arr_scope.
Infix "-m" := msub (at level 50, left associativity) : arr_scope.
Infix "*sm" := mscal (at level 40, left associativity) : arr_scope.
Infix "/sm" := mdivs (at level 40, left associativity) : arr_scope.
Infix "*zm" := mscalz (at level 40, left associativity) : arr_scope.
Infix "/zm" := mdivz (at level 40, left associativity) : arr_scope.
