(** * Polynomials in one real variable: roots, interpolation, derivatives *)

From Coq Require Import List Reals Lra Lia.
From Coquelicot Require Import Hierarchy Derive.
Import ListNotations.
Local Open Scope R_scope.

(** Value of the polynomial with the given coefficients (constant term first), and of its derivative. *)
Fixpoint peval (l : list R) (x : R) : R := match l with [] => 0 | c :: l => c + x * peval l x end.
Fixpoint pder (l : list R) (x : R) : R := match l with [] => 0 | _ :: l => peval l x + x * pder l x end.

(** [f] is a polynomial function with at most [n] coefficients (degree below [n]). *)
Definition ispoly (n : nat) (f : R -> R) : Prop := exists l, (length l <= n)%nat /\ forall x, f x = peval l x.

Lemma peval_der l x : is_derive (peval l) x (pder l x).
Proof.
  induction l as [|c l IH].
  - exact (is_derive_const 0 x).
  - cbn [peval pder]. replace (peval l x + x * pder l x) with (0 + (1 * peval l x + x * pder l x)) by ring.
    apply (is_derive_plus (fun _ => c) (fun x => x * peval l x) x 0 _ (is_derive_const c x)).
    exact (is_derive_mult (fun x => x) (peval l) x 1 _ (is_derive_id x) IH).
Qed.

(** ** Closure *)
Fixpoint ladd (a b : list R) : list R :=
  match a, b with [], _ => b | _, [] => a | x :: a, y :: b => (x + y) :: ladd a b end.
Lemma ladd_eval a b x : peval (ladd a b) x = peval a x + peval b x.
Proof. revert b. induction a as [|c a IH]; intros [|d b]; cbn; try ring. rewrite IH. ring. Qed.
Lemma ladd_len a b n : (length a <= n -> length b <= n -> length (ladd a b) <= n)%nat.
Proof. revert b n. induction a as [|c a IH]; intros [|d b] n; cbn; try lia. destruct n; [lia|]. intros. apply le_n_S, IH; lia. Qed.

Lemma ispoly_le n m f : (n <= m)%nat -> ispoly n f -> ispoly m f.
Proof. intros H [l [Hl E]]. exists l. split; [lia|exact E]. Qed.
Lemma ispoly_ext n f g : (forall x, f x = g x) -> ispoly n f -> ispoly n g.
Proof. intros H [l [Hl E]]. exists l. split; [exact Hl|]. intros x. now rewrite <- H. Qed.
Lemma ispoly_const n c : ispoly (S n) (fun _ => c).
Proof. exists [c]. split; [cbn; lia|]. intros x. cbn. ring. Qed.
Lemma ispoly_0 n : ispoly n (fun _ => 0).
Proof. exists []. split; [cbn; lia|reflexivity]. Qed.
Lemma ispoly_add n f g : ispoly n f -> ispoly n g -> ispoly n (fun x => f x + g x).
Proof.
  intros [a [Ha Ea]] [b [Hb Eb]]. exists (ladd a b). split; [now apply ladd_len|]. intros x. now rewrite ladd_eval, Ea, Eb.
Qed.
Lemma ispoly_scal n c f : ispoly n f -> ispoly n (fun x => c * f x).
Proof.
  intros [a [Ha Ea]]. exists (map (Rmult c) a). split; [now rewrite map_length|]. intros x. rewrite Ea. clear.
  induction a as [|d a IH]; cbn; [ring|]. rewrite <- IH. ring.
Qed.
Lemma ispoly_mulx n f : ispoly n f -> ispoly (S n) (fun x => x * f x).
Proof. intros [a [Ha Ea]]. exists (0 :: a). split; [cbn; lia|]. intros x. cbn. rewrite Ea. ring. Qed.
Lemma ispoly_lin n c d f : ispoly n f -> ispoly (S n) (fun x => (c * x + d) * f x).
Proof.
  intros H. apply (ispoly_ext _ (fun x => c * (x * f x) + d * f x)); [intros; ring|].
  apply ispoly_add; apply ispoly_scal; [now apply ispoly_mulx|]. apply (ispoly_le n); [lia|exact H].
Qed.
Lemma pder_poly l : ispoly (length l - 1) (pder l).
Proof.
  induction l as [|c l IH]; [exists []; split; [cbn; lia|reflexivity]|].
  cbn [length pder]. replace (S (length l) - 1)%nat with (length l) by lia.
  apply (ispoly_add _ (peval l) (fun x => x * pder l x)); [exists l; split; [lia|reflexivity]|].
  destruct l as [|d l]; [exists []; split; [cbn; lia|intros; cbn; ring]|].
  cbn [length] in *. replace (S (length l) - 1)%nat with (length l) in IH by lia. now apply ispoly_mulx.
Qed.
(** A polynomial of degree at most [n] has a derivative that is a polynomial of degree at most [n - 1]. *)
Lemma ispoly_der n f : ispoly n f -> exists g, ispoly (n - 1) g /\ forall x, is_derive f x (g x).
Proof.
  intros [l [Hl E]]. exists (pder l). split.
  - apply (ispoly_le (length l - 1)); [lia|apply pder_poly].
  - intros x. apply (is_derive_ext (peval l)); [intros; symmetry; apply E|apply peval_der].
Qed.

(** ** Roots *)
Lemma peval_div l r : exists q, (length q <= length l - 1)%nat /\ forall x, peval l x = (x - r) * peval q x + peval l r.
Proof.
  induction l as [|c l [q [Hq IH]]]; [exists []; split; [cbn; lia|intros; cbn; ring]|].
  destruct l as [|d l].
  - exists []. split; [cbn; lia|]. intros x. cbn. ring.
  - exists (peval (d :: l) r :: q). split; [cbn [length] in *; lia|]. intros x. cbn [peval] in IH |- *. rewrite (IH x). ring.
Qed.

Fixpoint prodf (n : nat) (f : nat -> R) : R := match n with O => 1 | S n => prodf n f * f n end.
Fixpoint sumf (n : nat) (f : nat -> R) : R := match n with O => 0 | S n => sumf n f + f n end.
Lemma prodf_ext n f g : (forall k, (k < n)%nat -> f k = g k) -> prodf n f = prodf n g.
Proof. intros H. induction n; [reflexivity|]. cbn. rewrite IHn, H; auto. Qed.
Lemma sumf_ext n f g : (forall k, (k < n)%nat -> f k = g k) -> sumf n f = sumf n g.
Proof. intros H. induction n; [reflexivity|]. cbn. rewrite IHn, H; auto. Qed.
Lemma prodf_mult n f g : prodf n (fun k => f k * g k) = prodf n f * prodf n g.
Proof. induction n; cbn; [ring|]. rewrite IHn. ring. Qed.
Lemma prodf_neq n f : (forall k, (k < n)%nat -> f k <> 0) -> prodf n f <> 0.
Proof. intros H. induction n; cbn; [lra|]. apply Rmult_integral_contrapositive_currified; [apply IHn|]; auto. Qed.
Lemma prodf_0 n f k : (k < n)%nat -> f k = 0 -> prodf n f = 0.
Proof.
  intros H E. induction n; [lia|]. cbn. destruct (Nat.eq_dec k n) as [->|N]; [rewrite E; ring|]. rewrite IHn by lia. ring.
Qed.

(** Common factor of a polynomial with [m] distinct roots. *)
Lemma peval_roots (x : nat -> R) : forall m l, (forall i j, (i < m)%nat -> (j < m)%nat -> x i = x j -> i = j) ->
  (forall i, (i < m)%nat -> peval l (x i) = 0) ->
  exists q, (length q <= length l - m)%nat /\ forall y, peval l y = prodf m (fun k => y - x k) * peval q y.
Proof.
  induction m as [|m IH]; intros l D H.
  - exists l. split; [lia|]. intros y. cbn. ring.
  - destruct (IH l) as [q [Hq E]]; [intros; apply D; auto; lia|intros; apply H; lia|].
    assert (Z : peval q (x m) = 0).
    { assert (Q := H m ltac:(lia)). rewrite E in Q. apply Rmult_integral in Q. destruct Q as [Q|Q]; [exfalso|exact Q].
      revert Q. apply prodf_neq. intros k Hk A. assert (m = k) by (apply D; try lia; lra). lia. }
    destruct (peval_div q (x m)) as [q' [Hq' E']]. exists q'. split; [lia|]. intros y. rewrite E, (E' y), Z. cbn. ring.
Qed.
(** A polynomial of degree below [m] with [m] distinct roots is zero. *)
Theorem ispoly_zero m f (x : nat -> R) : ispoly m f -> (forall i j, (i < m)%nat -> (j < m)%nat -> x i = x j -> i = j) ->
  (forall i, (i < m)%nat -> f (x i) = 0) -> forall y, f y = 0.
Proof.
  intros [l [Hl E]] D H y. destruct (peval_roots x m l D) as [q [Hq Q]]; [intros; rewrite <- E; auto|].
  rewrite E, Q. destruct q; [cbn; ring|cbn in Hq; lia].
Qed.

(** ** Lagrange interpolation *)
Section Lagrange.
  Variable N : nat.
  Variable x : nat -> R.
  Hypothesis D : forall i j, (i < N)%nat -> (j < N)%nat -> x i = x j -> i = j.

  (** Product of the factors at the nodes other than [i]. *)
  Definition others (i : nat) (y : R) : R := prodf N (fun k => if Nat.eqb k i then 1 else y - x k).
  Definition W (i : nat) : R := others i (x i).

  Lemma W_neq i : (i < N)%nat -> W i <> 0.
  Proof.
    intros Hi. apply prodf_neq. intros k Hk. destruct (Nat.eqb_spec k i); [lra|]. intros A.
    apply n. symmetry. apply D; auto. lra.
  Qed.
  Lemma others_0 i j : (j < N)%nat -> i <> j -> others i (x j) = 0.
  Proof.
    intros Hj H. apply (prodf_0 N _ j Hj). destruct (Nat.eqb_spec j i); [congruence|]. lra.
  Qed.
  Lemma others_poly i : (i < N)%nat -> ispoly N (others i).
  Proof.
    intros Hi. unfold others.
    assert (G : forall m, ispoly (if (i <? m)%nat then m else S m) (fun y => prodf m (fun k => if Nat.eqb k i then 1 else y - x k))).
    { induction m as [|m IH]; [exact (ispoly_const 0 1)|]. cbn [prodf].
      destruct (Nat.eqb_spec m i) as [->|Nq].
      - replace (i <? S i)%nat with true by (symmetry; apply Nat.ltb_lt; lia). rewrite Nat.ltb_irrefl in IH.
        apply (ispoly_ext _ _ _ (fun y => eq_sym (Rmult_1_r _)) IH).
      - replace (i <? S m)%nat with (i <? m)%nat.
        2:{ destruct (Nat.ltb_spec i m), (Nat.ltb_spec i (S m)); try reflexivity; lia. }
        apply (ispoly_ext _ (fun y => (1 * y + - x m) * prodf m (fun k => if Nat.eqb k i then 1 else y - x k))); [intros; ring|].
        destruct (i <? m)%nat; apply ispoly_lin; exact IH. }
    specialize (G N). now rewrite (proj2 (Nat.ltb_lt i N) Hi) in G.
  Qed.
  (** Interpolation. *)
  Lemma sumf_poly m f : (forall k, (k < m)%nat -> ispoly N (f k)) -> ispoly N (fun y => sumf m (fun k => f k y)).
  Proof.
    intros H. induction m; [apply ispoly_0|]. cbn. apply ispoly_add; [apply IHm; auto|apply H; lia].
  Qed.
  Lemma sumf_one m f i : (i < m)%nat -> (forall k, (k < m)%nat -> k <> i -> f k = 0) -> sumf m f = f i.
  Proof.
    intros Hi H. induction m; [lia|]. cbn. destruct (Nat.eq_dec i m) as [->|Nq].
    - replace (sumf m f) with 0; [ring|]. clear IHm Hi. symmetry.
      assert (forall k, (k < m)%nat -> f k = 0) by (intros; apply H; lia). clear H.
      induction m; [reflexivity|]. cbn. rewrite IHm, H0 by auto. ring.
    - rewrite IHm, (H m) by auto with zarith || lia. ring.
  Qed.
  Theorem lagrange p : ispoly N p -> forall y, p y = sumf N (fun j => p (x j) / W j * others j y).
  Proof.
    intros Hp y. assert (Z : forall y, p y + -1 * sumf N (fun j => p (x j) / W j * others j y) = 0).
    { apply (ispoly_zero N _ x); [|exact D|].
      - apply ispoly_add; [exact Hp|]. apply ispoly_scal, sumf_poly. intros k Hk. apply ispoly_scal, others_poly. exact Hk.
      - intros i Hi. rewrite (sumf_one N _ i Hi).
        + fold (W i). field. now apply W_neq.
        + intros k Hk Q. rewrite others_0 by auto. ring. }
    specialize (Z y). lra.
  Qed.
End Lagrange.
