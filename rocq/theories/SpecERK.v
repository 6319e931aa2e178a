(** * Explicit exponential Runge-Kutta methods

    Textbook definitions (Hochbruck, Ostermann, "Exponential integrators", Acta Numerica 2010,
    section 2.3), independent of the model of the code. For the equation v' = L v + N(v) a method
    is given by operators: [E_i = exp(c_i h L)], [a_ij(hL)], [b_j(hL)], [E_1 = exp(h L)]. *)

From Coq Require Import ZArith List Bool Lia Reals Lra QArith Qreals Setoid Morphisms.
From Coquelicot Require Import Complex.
From Verif Require Import SpecRK CInst SpecPhi.
Import ListNotations.
Local Open Scope R_scope.

(** Operators on vectors, and their linear combinations. *)
Notation op := (cvec -> cvec).
Definition oadd (a b : op) : op := fun v => cadd (a v) (b v).
Definition oscal (c : R) (a : op) : op := fun v => cscal (RtoC c) (a v).
Definition osub (a b : op) : op := oadd a (oscal (-1) b).
Definition ozero : op := fun _ _ => RtoC 0.

Record erk := mk_erk { er_E : list op; er_a : list (list op); er_E1 : op; er_b : list op }.

(** [sum_j a_j n_j]. *)
Fixpoint ocomb (os : list op) (ns : list cvec) : cvec :=
  match os, ns with
  | a :: os, n :: ns => cadd (a n) (ocomb os ns)
  | _, _ => fun _ => RtoC 0
  end.
(** Stages [n_i = N(E_i u + h sum_j a_ij n_j)]. *)
Definition erk_value (h : R) (u : cvec) (E : op) (row : list op) (ns : list cvec) : cvec :=
  cadd (E u) (cscal (RtoC h) (ocomb row ns)).
Fixpoint erk_stages (N : op) (h : R) (u : cvec) (Es : list op) (rows : list (list op)) (ns : list cvec)
  : list cvec :=
  match Es, rows with
  | E :: Es, row :: rows => erk_stages N h u Es rows (ns ++ [N (erk_value h u E row ns)])
  | _, _ => ns
  end.
Definition erk_step (m : erk) (N : op) (h : R) (u : cvec) : cvec :=
  erk_value h u (er_E1 m) (er_b m) (erk_stages N h u (er_E m) (er_a m) []).

(** Functions of a 1-D operator: [f(h L) v], entry by entry. *)
Definition dfun (h : R) (L : cvec) (f : C -> C) : op := fun v i => (f (RtoC h * L i) * v i)%C.

(** ** Krogstad's method (S. Krogstad, J. Comput. Phys. 203, 2005; ETDRK4-B in Hochbruck and
    Ostermann, (2.45)); [f1h] stands for [phi_1(hL/2)], [f1] for [phi_1(hL)], and so on. *)
Definition krogstad (E12 E1 f1h f2h f1 f2 f3 : op) : erk :=
  mk_erk [(fun v => v); E12; E12; E1]
         [[]; [oscal (1/2) f1h]; [osub (oscal (1/2) f1h) f2h; f2h];
          [osub f1 (oscal 2 f2); ozero; oscal 2 f2]]
         E1
         [oadd (osub f1 (oscal 3 f2)) (oscal 4 f3); osub (oscal 2 f2) (oscal 4 f3);
          osub (oscal 2 f2) (oscal 4 f3); osub (oscal 4 f3) f2].
(** The same with the new value as fifth stage, which takes over the last weight. *)
Definition krogstad_embedded (E12 E1 f1h f2h f1 f2 f3 : op) : erk :=
  let m := krogstad E12 E1 f1h f2h f1 f2 f3 in
  mk_erk (er_E m ++ [E1]) (er_a m ++ [er_b m]) E1
         (firstn 3 (er_b m) ++ [ozero; osub (oscal 4 f3) f2]).

(** ** Change of basis *)
Definition conj_op (S Sinv : op) (D : op) : op := fun v => S (D (Sinv v)).
Definition conj_erk (S Sinv : op) (m : erk) : erk :=
  mk_erk (map (conj_op S Sinv) (er_E m)) (map (map (conj_op S Sinv)) (er_a m)) (conj_op S Sinv (er_E1 m))
         (map (conj_op S Sinv) (er_b m)).

Section Basis.
  Variable dom : nat -> Prop.
  Variables S Sinv N : op.
  Hypothesis HS : linear dom S.
  Hypothesis HI : linear dom Sinv.
  Hypothesis HSI : forall v, veq dom (S (Sinv v)) v.
  Hypothesis HIS : forall v, veq dom (Sinv (S v)) v.
  Hypothesis HN : respects dom N.
  Notation N' := (fun v => Sinv (N (S v))).
  Let respects_op (D : op) := respects dom D.

  Lemma op_zero (P : op) : linear dom P -> veq dom (P (fun _ => RtoC 0)) (fun _ => RtoC 0).
  Proof.
    intros H. transitivity (P (cscal 0 (fun _ => RtoC 0))).
    - apply (lin_ext _ _ H). intros i _. unfold cscal. ring.
    - rewrite (lin_scal _ _ H). intros i _. unfold cscal. ring.
  Qed.

  Lemma conj_comb row : Forall respects_op row -> forall ns ms, Forall2 (fun n m => veq dom m (Sinv n)) ns ms ->
    veq dom (ocomb (map (conj_op S Sinv) row) ns) (S (ocomb row ms)).
  Proof.
    induction 1 as [|D row HD Hr IH]; intros ns ms Hm; cbn [map ocomb].
    - symmetry. apply op_zero. exact HS.
    - destruct Hm as [|n m ns ms Hn Hm]; [symmetry; apply op_zero; exact HS|].
      rewrite (IH _ _ Hm). symmetry. etransitivity; [apply (lin_add _ _ HS)|].
      apply cadd_proper; [|reflexivity]. unfold conj_op. apply (lin_ext _ _ HS). apply HD. exact Hn.
  Qed.
  Lemma conj_value h u E row ns ms : respects_op E -> Forall respects_op row ->
    Forall2 (fun n m => veq dom m (Sinv n)) ns ms ->
    veq dom (erk_value h u (conj_op S Sinv E) (map (conj_op S Sinv) row) ns)
            (S (erk_value h (Sinv u) E row ms)).
  Proof.
    intros HE Hr Hm. unfold erk_value. rewrite (conj_comb row Hr ns ms Hm). symmetry.
    rewrite (lin_add _ _ HS). apply cadd_proper; [reflexivity|]. apply (lin_scal _ _ HS).
  Qed.
  Lemma conj_stages h u : forall Es rows ns ms, Forall respects_op Es -> Forall (Forall respects_op) rows ->
    Forall2 (fun n m => veq dom m (Sinv n)) ns ms ->
    Forall2 (fun n m => veq dom m (Sinv n))
      (erk_stages N h u (map (conj_op S Sinv) Es) (map (map (conj_op S Sinv)) rows) ns)
      (erk_stages N' h (Sinv u) Es rows ms).
  Proof.
    induction Es as [|E Es IH]; intros rows ns ms HE Hr Hm; [exact Hm|].
    destruct rows as [|row rows]; [exact Hm|]. cbn [map erk_stages].
    inversion HE; subst. inversion Hr; subst. apply IH; [assumption|assumption|].
    apply Forall2_app; [exact Hm|]. constructor; [|constructor].
    apply (lin_ext _ _ HI). apply HN. symmetry. apply conj_value; assumption.
  Qed.

  (** A method in another basis. *)
  Theorem conj_step (m : erk) h u :
    Forall respects_op (er_E m) -> Forall (Forall respects_op) (er_a m) -> respects_op (er_E1 m) ->
    Forall respects_op (er_b m) ->
    veq dom (erk_step (conj_erk S Sinv m) N h u) (S (erk_step m N' h (Sinv u))).
  Proof.
    intros HE Ha HE1 Hb. unfold erk_step. cbn [conj_erk er_E er_a er_E1 er_b].
    apply conj_value; [assumption|assumption|]. apply conj_stages; [assumption|assumption|constructor].
  Qed.
End Basis.

(** ** Equilibria: if every stage value and the step reproduce [u] when all [n_j] equal [N u],
    the step returns [u]. *)
Lemma erk_stages_const N h u : forall Es rows ns,
  Forall2 (fun E row => forall ms, length ms = length row -> Forall (eq (N u)) ms -> erk_value h u E row ms = u) Es rows ->
  (forall k, (k < length rows)%nat -> length (nth k rows []) = (length ns + k)%nat) ->
  Forall (eq (N u)) ns ->
  Forall (eq (N u)) (erk_stages N h u Es rows ns) /\
  length (erk_stages N h u Es rows ns) = (length ns + length rows)%nat.
Proof.
  induction Es as [|E Es IH]; intros rows ns H HL Hn; inversion H; subst.
  - cbn. split; [exact Hn|lia].
  - cbn [erk_stages]. destruct (IH l' (ns ++ [N (erk_value h u E y ns)])) as [G1 G2].
    + assumption.
    + intros k Hk. rewrite app_length. cbn [length]. specialize (HL (Datatypes.S k)).
      cbn [length nth] in HL. rewrite HL by lia. lia.
    + apply Forall_app. split; [exact Hn|]. constructor; [|constructor].
      rewrite H2; [reflexivity| |exact Hn]. specialize (HL 0%nat). cbn [length nth] in HL. lia.
    + split; [exact G1|]. rewrite G2, app_length. cbn [length]. lia.
Qed.
