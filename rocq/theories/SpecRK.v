(** * Runge-Kutta methods, rooted trees and order conditions, integrating factors

    Textbook definitions (Hairer, Norsett, Wanner, "Solving Ordinary Differential Equations I",
    II.1-II.2), independent of the model of the code. *)

From Coq Require Import ZArith List Bool Lia Reals Lra QArith Qreals Setoid Morphisms.
From Coquelicot Require Import Complex.
Import ListNotations.
Local Open Scope R_scope.

(** ** Methods *)

(** Explicit method given by a tableau with rational entries: row [i] of [tb_a] holds
    [a_i1 .. a_i,i-1]. [tb_b] are the weights of the step. *)
Record tableau := mk_tableau { tb_a : list (list Q); tb_b : list Q; tb_c : list Q }.

Notation cvec := (nat -> C).

(** [sum_j q_j k_j] over the common length of the two lists. *)
Fixpoint lincomb (qs : list Q) (ks : list cvec) (i : nat) : C :=
  match qs, ks with
  | q :: qs, k :: ks => (RtoC (Q2R q) * k i + lincomb qs ks i)%C
  | _, _ => RtoC 0
  end.

(** Stages [k_i = g (t + c_i h) (u + h sum_j a_ij k_j)]. *)
Fixpoint rk_stages (g : R -> cvec -> cvec) (t h : R) (u : cvec) (rows : list (list Q)) (cs : list Q)
         (ks : list cvec) : list cvec :=
  match rows, cs with
  | row :: rows, c :: cs =>
      rk_stages g t h u rows cs
        (ks ++ [g (t + Q2R c * h) (fun i => (u i + RtoC h * lincomb row ks i)%C)])
  | _, _ => ks
  end.
Definition rk_step (tb : tableau) (g : R -> cvec -> cvec) (t h : R) (u : cvec) : cvec :=
  fun i => (u i + RtoC h * lincomb (tb_b tb) (rk_stages g t h u (tb_a tb) (tb_c tb) []) i)%C.

(** ** Integrating factors

    [Phi t] is the solution operator of the linear equation v' = L v. In the variable
    [w = Phi(-t) v] the equation v' = L v + N(v) becomes [w' = Phi(-t) N(Phi(t) w)]. The
    integrating-factor (Lawson) method applies a Runge-Kutta step to it and transforms back. *)
Definition lawson (tb : tableau) (Phi : R -> cvec -> cvec) (N : cvec -> cvec) (h : R) (u : cvec) : cvec :=
  Phi h (rk_step tb (fun t w => Phi (- t) (N (Phi t w))) 0 h u).

(** ** Rooted trees *)
Inductive tree := Node (ts : list tree).
Fixpoint order (t : tree) : nat :=
  match t with Node ts => S (fold_right (fun t n => (order t + n)%nat) O ts) end.
(** Density. *)
Fixpoint gamma (t : tree) : Z :=
  match t with Node ts => (Z.of_nat (order t) * fold_right (fun t n => gamma t * n)%Z 1%Z ts)%Z end.

Definition qdot (a b : list Q) : Q := fold_right Qplus 0%Q (map (fun ab => Qmult (fst ab) (snd ab)) (combine a b)).
Definition qpmul (a b : list Q) : list Q := map (fun ab => Qmult (fst ab) (snd ab)) (combine a b).
(** Internal weights, one per stage: product over the subtrees of [sum_j a_ij phi_j]. *)
Fixpoint internal (a : list (list Q)) (t : tree) : list Q :=
  match t with Node ts =>
    fold_right (fun t w => qpmul (map (fun row => qdot row (internal a t)) a) w) (map (fun _ => 1%Q) a) ts
  end.
(** Elementary weight of the method with weights [b]. *)
Definition eweight (a : list (list Q)) (b : list Q) (t : tree) : Q := qdot b (internal a t).

Definition order_condition (a : list (list Q)) (b : list Q) (t : tree) : Prop :=
  Qeq (eweight a b t) (1 / inject_Z (gamma t)).
(** Order [p]: the condition of every rooted tree with at most [p] nodes; the abscissae are the
    row sums. *)
Definition has_order (a : list (list Q)) (b c : list Q) (p : nat) : Prop :=
  Forall2 (fun row ci => Qeq (fold_right Qplus 0%Q row) ci) a c /\
  forall t, (order t <= p)%nat -> order_condition a b t.

(** ** Deciding the order: all trees of bounded order *)

Lemma tree_ind' (P : tree -> Prop) : (forall ts, Forall P ts -> P (Node ts)) -> forall t, P t.
Proof.
  intros H. fix IH 1. intros [ts]. apply H. induction ts as [|t ts IHts]; constructor; [apply IH|exact IHts].
Defined.

(** Forests with [n] nodes, using trees of at most [fuel] levels. *)
Fixpoint forests (fuel n : nat) : list (list tree) :=
  match n with
  | O => [[]]
  | S _ =>
      match fuel with
      | O => []
      | S fuel =>
          flat_map (fun k => flat_map (fun f => map (fun g => Node f :: g) (forests fuel (n - S k)))
                                      (forests fuel k))
                   (seq 0 n)
      end
  end.
Definition forest_order (ts : list tree) : nat := fold_right (fun t n => (order t + n)%nat) O ts.

Lemma forests_complete : forall fuel n ts, (n <= fuel)%nat -> forest_order ts = n -> In ts (forests fuel n).
Proof.
  induction fuel as [|fuel IH]; intros n ts Hn Ho.
  - assert (n = O) by lia. subst n. destruct ts as [|[ts1] ts]; [left; reflexivity|cbn in H; lia].
  - destruct n as [|n].
    + destruct ts as [|[ts1] ts]; [left; reflexivity|cbn in Ho; lia].
    + destruct ts as [|[f] g]; [discriminate|]. cbn [forests].
      cbn [forest_order fold_right order] in Ho. fold (forest_order f) (forest_order g) in Ho.
      apply in_flat_map. exists (forest_order f). split; [apply in_seq; lia|].
      apply in_flat_map. exists f. split; [apply IH; lia|].
      apply in_map. apply IH; lia.
Qed.

Definition order_check (a : list (list Q)) (b : list Q) (p : nat) : bool :=
  forallb (fun k => forallb (fun f => Qeq_bool (eweight a b (Node f)) (1 / inject_Z (gamma (Node f))))
                            (forests k k)) (seq 0 p).
Lemma order_check_ok a b p : order_check a b p = true ->
  forall t, (order t <= p)%nat -> order_condition a b t.
Proof.
  intros H [f] Ho. unfold order_check in H. rewrite forallb_forall in H.
  cbn [order] in Ho. fold (forest_order f) in Ho.
  specialize (H (forest_order f)). rewrite forallb_forall in H.
  apply Qeq_bool_iff. apply H; [apply in_seq; lia|]. apply forests_complete; lia.
Qed.
Definition rowsum_check (a : list (list Q)) (c : list Q) : bool :=
  Nat.eqb (length a) (length c) &&
  forallb (fun rc => Qeq_bool (fold_right Qplus 0%Q (fst rc)) (snd rc)) (combine a c).
Lemma rowsum_check_ok a : forall c, rowsum_check a c = true ->
  Forall2 (fun row ci => Qeq (fold_right Qplus 0%Q row) ci) a c.
Proof.
  unfold rowsum_check. induction a as [|r a IH]; intros [|x c] H; try discriminate; [constructor|].
  cbn in H. apply andb_true_iff in H. destruct H as [H1 H2]. apply andb_true_iff in H2. destruct H2 as [H2 H3].
  constructor; [apply Qeq_bool_iff; exact H2|]. apply IH. cbn. rewrite H1. exact H3.
Qed.
Lemma has_order_check a b c p : rowsum_check a c && order_check a b p = true -> has_order a b c p.
Proof.
  intros H. apply andb_true_iff in H. destruct H as [H1 H2].
  split; [apply rowsum_check_ok; exact H1|apply order_check_ok; exact H2].
Qed.

(** ** Classical tableaux *)
Open Scope Q_scope.

(** Kutta's classical fourth-order method. *)
Definition RK4 : tableau :=
  mk_tableau [[]; [1#2]; [0; 1#2]; [0; 0; 1]] [1#6; 1#3; 1#3; 1#6] [0; 1#2; 1#2; 1].
(** The same with the new value as fifth stage (first same as last). *)
Definition RK4_fsal : tableau :=
  mk_tableau [[]; [1#2]; [0; 1#2]; [0; 0; 1]; [1#6; 1#3; 1#3; 1#6]]
             [1#6; 1#3; 1#3; 1#6; 0] [0; 1#2; 1#2; 1; 1].
(** Embedded third-order weights. *)
Definition RK4_fsal_hat : list Q := [1#6; 1#3; 1#3; 0; 1#6].

(** Dormand and Prince's method of order 5 and its embedded method of order 4. *)
Definition DP5 : tableau :=
  mk_tableau
    [[]; [1#5]; [3#40; 9#40]; [44#45; -56#15; 32#9];
     [19372#6561; -25360#2187; 64448#6561; -212#729];
     [9017#3168; -355#33; 46732#5247; 49#176; -5103#18656];
     [35#384; 0; 500#1113; 125#192; -2187#6784; 11#84]]
    [35#384; 0; 500#1113; 125#192; -2187#6784; 11#84; 0]
    [0; 1#5; 3#10; 4#5; 8#9; 1; 1].
Definition DP5_hat : list Q :=
  [5179#57600; 0; 7571#16695; 393#640; -92097#339200; 187#2100; 1#40].
Close Scope Q_scope.

Lemma RK4_order : has_order (tb_a RK4) (tb_b RK4) (tb_c RK4) 4.
Proof. apply has_order_check. vm_compute. reflexivity. Qed.
Lemma RK4_fsal_order : has_order (tb_a RK4_fsal) (tb_b RK4_fsal) (tb_c RK4_fsal) 4.
Proof. apply has_order_check. vm_compute. reflexivity. Qed.
Lemma RK4_fsal_hat_order : has_order (tb_a RK4_fsal) RK4_fsal_hat (tb_c RK4_fsal) 3.
Proof. apply has_order_check. vm_compute. reflexivity. Qed.
Lemma DP5_order : has_order (tb_a DP5) (tb_b DP5) (tb_c DP5) 5.
Proof. apply has_order_check. vm_compute. reflexivity. Qed.
Lemma DP5_hat_order : has_order (tb_a DP5) DP5_hat (tb_c DP5) 4.
Proof. apply has_order_check. vm_compute. reflexivity. Qed.
(** The embedded methods are genuinely of lower order. *)
Lemma RK4_fsal_hat_not_4 : ~ has_order (tb_a RK4_fsal) RK4_fsal_hat (tb_c RK4_fsal) 4.
Proof.
  intros [_ H]. specialize (H (Node [Node [Node [Node []]]]) (le_n _)). unfold order_condition in H.
  vm_compute in H. discriminate.
Qed.
Lemma DP5_hat_not_5 : ~ has_order (tb_a DP5) DP5_hat (tb_c DP5) 5.
Proof.
  intros [_ H]. specialize (H (Node [Node []; Node []; Node []; Node []]) (le_n _)). unfold order_condition in H.
  vm_compute in H. discriminate.
Qed.

(** ** Linear flows

    Vectors are compared on the indices in [dom] (all of them for 1-D operators, those below the
    matrix size for matrices). *)
Definition veq (dom : nat -> Prop) (a b : cvec) : Prop := forall i, dom i -> a i = b i.
Definition cadd (a b : cvec) : cvec := fun i => (a i + b i)%C.
Definition cscal (c : C) (a : cvec) : cvec := fun i => (c * a i)%C.

Record linear (dom : nat -> Prop) (P : cvec -> cvec) : Prop := {
  lin_ext  : forall a b, veq dom a b -> veq dom (P a) (P b);
  lin_add  : forall a b, veq dom (P (cadd a b)) (cadd (P a) (P b));
  lin_scal : forall c a, veq dom (P (cscal c a)) (cscal c (P a)) }.
Record flow (dom : nat -> Prop) (Phi : R -> cvec -> cvec) : Prop := {
  flow_lin  : forall t, linear dom (Phi t);
  flow_0    : forall a, veq dom (Phi 0 a) a;
  flow_comp : forall s t a, veq dom (Phi s (Phi t a)) (Phi (s + t) a) }.
(** The nonlinear function only looks at the entries in [dom]. *)
Definition respects (dom : nat -> Prop) (N : cvec -> cvec) : Prop :=
  forall a b, veq dom a b -> veq dom (N a) (N b).

Global Instance veq_equiv dom : Equivalence (veq dom).
Proof.
  split.
  - intros a i _. reflexivity.
  - intros a b H i Hi. symmetry. apply H. exact Hi.
  - intros a b c H1 H2 i Hi. rewrite H1 by exact Hi. apply H2. exact Hi.
Qed.
Global Instance cadd_proper dom : Proper (veq dom ==> veq dom ==> veq dom) cadd.
Proof. intros a b H c d H' i Hi. unfold cadd. rewrite H, H' by exact Hi. reflexivity. Qed.
Global Instance cscal_proper dom c : Proper (veq dom ==> veq dom) (cscal c).
Proof. intros a b H i Hi. unfold cscal. rewrite H by exact Hi. reflexivity. Qed.

(** The same method written without transforming: stage values [N_i] at time [c_i h],
    [v_i = Phi(c_i h) u + h sum_j a_ij Phi((c_i - c_j) h) N_j]. *)
Fixpoint if_comb (Phi : R -> cvec -> cvec) (h c : R) (qs : list Q) (ns : list (Q * cvec)) : cvec :=
  match qs, ns with
  | q :: qs, (cj, n) :: ns =>
      cadd (cscal (RtoC (Q2R q)) (Phi ((c - Q2R cj) * h) n)) (if_comb Phi h c qs ns)
  | _, _ => fun _ => RtoC 0
  end.
Definition if_value (Phi : R -> cvec -> cvec) (h c : R) (qs : list Q) (ns : list (Q * cvec)) (u : cvec) : cvec :=
  cadd (Phi (c * h) u) (cscal (RtoC h) (if_comb Phi h c qs ns)).
Fixpoint if_stages (Phi : R -> cvec -> cvec) (N : cvec -> cvec) (h : R) (u : cvec)
         (rows : list (list Q)) (cs : list Q) (ns : list (Q * cvec)) : list (Q * cvec) :=
  match rows, cs with
  | row :: rows, c :: cs =>
      if_stages Phi N h u rows cs (ns ++ [(c, N (if_value Phi h (Q2R c) row ns u))])
  | _, _ => ns
  end.
Definition if_step (tb : tableau) Phi N h u : cvec :=
  if_value Phi h 1 (tb_b tb) (if_stages Phi N h u (tb_a tb) (tb_c tb) []) u.

Section Lawson.
  Variable dom : nat -> Prop.
  Variable Phi : R -> cvec -> cvec.
  Variable N : cvec -> cvec.
  Hypothesis HP : flow dom Phi.
  Hypothesis HN : respects dom N.

  Lemma flow_ext t a b : veq dom a b -> veq dom (Phi t a) (Phi t b).
  Proof. apply (lin_ext _ _ (flow_lin _ _ HP t)). Qed.
  Global Instance Phi_proper t : Proper (veq dom ==> veq dom) (Phi t).
  Proof. intros a b H. apply flow_ext. exact H. Qed.
  Lemma flow_time s t a : s = t -> veq dom (Phi s a) (Phi t a).
  Proof. intros ->. reflexivity. Qed.
  Lemma flow_zero t : veq dom (Phi t (fun _ => RtoC 0)) (fun _ => RtoC 0).
  Proof.
    transitivity (Phi t (cscal 0 (fun _ => RtoC 0))).
    - apply flow_ext. intros i _. unfold cscal. ring.
    - rewrite (lin_scal _ _ (flow_lin _ _ HP t)). intros i _. unfold cscal. ring.
  Qed.

  (** Stage [j] of the transformed equation is [Phi(-c_j h)] of stage value [j]. *)
  Definition matches (h : R) (k : cvec) (n : Q * cvec) : Prop :=
    veq dom k (Phi (- (Q2R (fst n) * h)) (snd n)).

  Lemma comb_matches h c : forall qs ks ns, Forall2 (matches h) ks ns ->
    veq dom (Phi (c * h) (lincomb qs ks)) (if_comb Phi h c qs ns).
  Proof.
    induction qs as [|q qs IH]; intros ks ns Hm.
    - cbn. apply flow_zero.
    - destruct Hm as [|k [cj n] ks ns Hk Hm]; [cbn; apply flow_zero|]. cbn [lincomb if_comb].
      transitivity (Phi (c * h) (cadd (cscal (RtoC (Q2R q)) k) (lincomb qs ks))).
      { apply flow_ext. intros i _. reflexivity. }
      rewrite (lin_add _ _ (flow_lin _ _ HP _)), (lin_scal _ _ (flow_lin _ _ HP _)), (IH _ _ Hm).
      unfold matches in Hk. cbn [fst snd] in Hk. rewrite Hk, (flow_comp _ _ HP).
      rewrite (flow_time (c * h + - (Q2R cj * h)) ((c - Q2R cj) * h)) by ring. reflexivity.
  Qed.

  Lemma value_matches h c qs ks ns u : Forall2 (matches h) ks ns ->
    veq dom (Phi (c * h) (fun i => (u i + RtoC h * lincomb qs ks i)%C)) (if_value Phi h c qs ns u).
  Proof.
    intros Hm. unfold if_value.
    transitivity (Phi (c * h) (cadd u (cscal (RtoC h) (lincomb qs ks)))).
    { apply flow_ext. intros i _. reflexivity. }
    rewrite (lin_add _ _ (flow_lin _ _ HP _)), (lin_scal _ _ (flow_lin _ _ HP _)), (comb_matches h c qs ks ns Hm).
    reflexivity.
  Qed.

  Lemma stages_match h u : forall rows cs ks ns, Forall2 (matches h) ks ns ->
    Forall2 (matches h) (rk_stages (fun t w => Phi (- t) (N (Phi t w))) 0 h u rows cs ks)
                        (if_stages Phi N h u rows cs ns).
  Proof.
    induction rows as [|row rows IH]; intros cs ks ns Hm; [exact Hm|].
    destruct cs as [|c cs]; [exact Hm|]. cbn [rk_stages if_stages]. apply IH.
    apply Forall2_app; [exact Hm|]. constructor; [|constructor].
    unfold matches. cbn [fst snd]. rewrite Rplus_0_l. apply flow_ext. apply HN. apply value_matches. exact Hm.
  Qed.

  (** The integrating-factor method in the original variable. *)
  Theorem lawson_if_step tb h u : veq dom (lawson tb Phi N h u) (if_step tb Phi N h u).
  Proof.
    unfold lawson, if_step, rk_step.
    rewrite (flow_time h (1 * h)) by ring.
    apply value_matches. apply stages_match. constructor.
  Qed.
End Lawson.
