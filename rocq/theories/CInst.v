(** * Exact complex arithmetic for array entries *)

From Coq Require Import ZArith List Bool Reals Lra Lia FunctionalExtensionality.
From Coquelicot Require Import Complex.
From Verif Require Import Scalars Arrays.

Local Open Scope R_scope.
Local Open Scope C_scope.

(** Complex exponential. *)
Definition Cexp (z : C) : C := (exp (fst z) * cos (snd z), exp (fst z) * sin (snd z))%R.

(** Finite sums [f 0 + ... + f (n-1)] and matrix-vector products of size [n]. *)
Fixpoint csum (n : nat) (f : nat -> C) : C :=
  match n with O => 0 | S n => csum n f + f n end.

Definition Cops : aops Rops :=
  mk_aops Rops C (fun x : R => RtoC x) Cplus Cminus Cmult Cdiv Copp Cexp Cmod (0, 2 * PI)%R csum
    (fun n m v i => csum n (fun j => m i j * v j)).

Lemma C_eq (a b c d : R) : a = c -> b = d -> (a, b) = (c, d) :> C.
Proof. congruence. Qed.

Lemma Cexp_0 : Cexp 0 = 1.
Proof. unfold Cexp; cbn. rewrite exp_0, cos_0, sin_0. apply C_eq; ring. Qed.

Lemma Cexp_plus a b : Cexp (a + b) = Cexp a * Cexp b.
Proof.
  unfold Cexp, Cplus, Cmult; cbn. rewrite exp_plus, cos_plus, sin_plus. apply C_eq; ring.
Qed.

Lemma Cexp_R (x : R) : Cexp (RtoC x) = RtoC (exp x).
Proof. unfold Cexp, RtoC; cbn. rewrite cos_0, sin_0. apply C_eq; ring. Qed.

Lemma Cexp_neq_0 z : Cexp z <> 0.
Proof.
  intros H. assert (E : Cexp z * Cexp (- z) = 1).
  { rewrite <- Cexp_plus. replace (z + - z) with (RtoC 0) by ring. apply Cexp_0. }
  rewrite H in E. replace (0 * Cexp (- z)) with (RtoC 0) in E by ring.
  injection E as E. lra.
Qed.

Lemma Cexp_opp z : Cexp (- z) = / Cexp z.
Proof.
  assert (E : Cexp z * Cexp (- z) = 1).
  { rewrite <- Cexp_plus. replace (z + - z) with (RtoC 0) by ring. apply Cexp_0. }
  assert (N := Cexp_neq_0 z).
  replace (Cexp (- z)) with (/ Cexp z * (Cexp z * Cexp (- z))) by (field; exact N).
  rewrite E. ring.
Qed.

Lemma csum_ext n (f g : nat -> C) : (forall i, (i < n)%nat -> f i = g i) -> csum n f = csum n g.
Proof.
  induction n as [|n IH]; intros H; [reflexivity|]. cbn [csum]. rewrite IH, H by (intros; auto with arith).
  reflexivity.
Qed.
Lemma csum_plus n f g : csum n (fun i => f i + g i) = csum n f + csum n g.
Proof. induction n as [|n IH]; cbn [csum]; [ring|]. rewrite IH. ring. Qed.
Lemma csum_scal n c f : csum n (fun i => c * f i) = c * csum n f.
Proof. induction n as [|n IH]; cbn [csum]; [ring|]. rewrite IH. ring. Qed.
Lemma csum_0 n (f : nat -> C) : (forall i, (i < n)%nat -> f i = 0) -> csum n f = 0.
Proof.
  induction n as [|n IH]; intros H; [reflexivity|]. cbn [csum]. rewrite IH, H by (intros; auto with arith). ring.
Qed.
Lemma csum_swap n m (f : nat -> nat -> C) :
  csum n (fun i => csum m (fun j => f i j)) = csum m (fun j => csum n (fun i => f i j)).
Proof.
  induction n as [|n IH]; cbn [csum].
  - symmetry. apply csum_0. reflexivity.
  - rewrite IH, <- csum_plus. apply csum_ext. reflexivity.
Qed.

(** Literals. *)
Lemma tofZ_R z : tofZ Rops z = IZR z.
Proof. reflexivity. Qed.
Lemma lit_C z : lit Cops z = RtoC (IZR z).
Proof. reflexivity. Qed.

(** Turn model arithmetic on [Cops] entries into Coquelicot operations. *)
Ltac csimp :=
  unfold vscalz, vdivz, vadd, vsub, vmul, vneg, vexp, vscal, vdivs, lit, half in *;
  cbn [Cops eofT eadd esub emul ediv eneg eexp eabs e2pij esum emdot Rops T tadd tsub tmul tdiv tofZ] in *.

(** Constant real vectors, for concrete examples. *)
Definition const_vec (x : R) : vec Cops := fun _ => RtoC x.
Ltac cv := intros; apply functional_extensionality; intros ?; unfold const_vec; csimp.
Lemma vadd_const a b : vadd (const_vec a) (const_vec b) = const_vec (a + b).
Proof. cv. symmetry. apply RtoC_plus. Qed.
Lemma vsub_const a b : vsub (const_vec a) (const_vec b) = const_vec (a - b).
Proof. cv. symmetry. apply RtoC_minus. Qed.
Lemma vmul_const a b : vmul (const_vec a) (const_vec b) = const_vec (a * b).
Proof. cv. symmetry. apply RtoC_mult. Qed.
Lemma vscal_const (a : T Rops) b : vscal a (const_vec b) = const_vec (a * b).
Proof. cv. symmetry. apply RtoC_mult. Qed.
Lemma vscalz_const (a : Z) b : vscalz a (const_vec b) = const_vec (IZR a * b).
Proof. cv. symmetry. apply RtoC_mult. Qed.
Lemma vdivz_const a (c : positive) : vdivz (const_vec a) (Zpos c) = const_vec (a / IZR (Zpos c)).
Proof. cv. symmetry. apply RtoC_div. apply not_0_IZR. discriminate. Qed.
Lemma vexp_const a : vexp (const_vec a) = const_vec (exp a).
Proof. cv. apply Cexp_R. Qed.
Ltac cvec := repeat first
  [ rewrite vadd_const | rewrite vsub_const | rewrite vmul_const | rewrite vscal_const | rewrite vscalz_const
  | rewrite vdivz_const | rewrite vexp_const ].
(** Show [ring] and [field] the type [C]. *)
Ltac ceq := lazymatch goal with |- @eq _ ?a ?b => change (@eq C a b) end.
