(** * Orders of magnitude of vectors that depend on a step size

    Spec file: bounds [C h^k] that hold uniformly over a family of situations (here: starting points
    on a solution), vectors measured by their largest entry below [n]. *)

From Coq Require Import ZArith List Bool Reals Lra Lia Setoid Morphisms.
From Coquelicot Require Import Complex.
From Verif Require Import CInst SpecRK SchemeIFReal.
Import ListNotations.
Local Open Scope R_scope.

(** Every entry below [n] has modulus at most [x]. *)
Definition vle (n : nat) (v : cvec) (x : R) : Prop := forall i, (i < n)%nat -> Cmod (v i) <= x.
Definition csub (a b : cvec) : cvec := fun i => (a i - b i)%C.
Definition czero : cvec := fun _ => RtoC 0.
Notation rscal c a := (cscal (RtoC c) a).

Lemma RtoC_m1 : RtoC (-1) = (- RtoC 1)%C.
Proof. unfold RtoC, Copp; cbn. f_equal; ring. Qed.

Global Instance csub_proper dom : Proper (veq dom ==> veq dom ==> veq dom) csub.
Proof. intros a b H c d H' i Hi. unfold csub. rewrite H, H' by exact Hi. reflexivity. Qed.

Section Vle.
  Variable n : nat.
  Lemma vle_mono v x y : vle n v x -> x <= y -> vle n v y.
  Proof. intros H Hxy i Hi. specialize (H i Hi). lra. Qed.
  Lemma vle_ext a b x : veq (below n) a b -> vle n a x -> vle n b x.
  Proof. intros E H i Hi. rewrite <- (E i Hi). apply H. exact Hi. Qed.
  Lemma vle_add a b x y : vle n a x -> vle n b y -> vle n (cadd a b) (x + y).
  Proof.
    intros H1 H2 i Hi. specialize (H1 i Hi). specialize (H2 i Hi). unfold cadd.
    eapply Rle_trans; [apply Cmod_triangle|]. lra.
  Qed.
  Lemma vle_sub a b x y : vle n a x -> vle n b y -> vle n (csub a b) (x + y).
  Proof.
    intros H1 H2 i Hi. specialize (H1 i Hi). specialize (H2 i Hi). unfold csub, Cminus.
    eapply Rle_trans; [apply Cmod_triangle|]. rewrite Cmod_opp. lra.
  Qed.
  Lemma vle_scal c a x : vle n a x -> vle n (cscal c a) (Cmod c * x).
  Proof.
    intros H i Hi. specialize (H i Hi). unfold cscal. rewrite Cmod_mult.
    apply Rmult_le_compat_l; [apply Cmod_ge_0|exact H].
  Qed.
  Lemma vle_rscal (c : R) a x : vle n a x -> vle n (rscal c a) (Rabs c * x).
  Proof. intros H. rewrite <- Cmod_R. apply vle_scal. exact H. Qed.
  Lemma vle_zero x : 0 <= x -> vle n czero x.
  Proof. intros H i _. unfold czero. rewrite Cmod_0. exact H. Qed.
  Lemma vle_sym a b x : vle n (csub a b) x -> vle n (csub b a) x.
  Proof. intros H i Hi. specialize (H i Hi). unfold csub in *. rewrite <- Cmod_opp. replace (- (b i - a i))%C with (a i - b i)%C by ring. exact H. Qed.
  Lemma vle_trans a b c x y : vle n (csub a b) x -> vle n (csub b c) y -> vle n (csub a c) (x + y).
  Proof.
    intros H1 H2. apply (vle_ext (cadd (csub a b) (csub b c))); [|apply vle_add; assumption].
    intros i _. unfold cadd, csub. ring.
  Qed.
  Lemma vle_0_eq a b : vle n (csub a b) 0 -> veq (below n) a b.
  Proof.
    intros H i Hi. specialize (H i Hi). unfold csub in H. assert (G := Cmod_ge_0 (a i - b i)%C).
    assert (Z : Cmod (a i - b i)%C = 0) by lra. apply Cmod_eq_0 in Z.
    replace (a i) with (a i - b i + b i)%C by ring. rewrite Z. ring.
  Qed.
  Lemma vle_eq_0 a b : veq (below n) a b -> vle n (csub a b) 0.
  Proof.
    intros H i Hi. unfold csub. rewrite (H i Hi). replace (b i - b i)%C with (RtoC 0) by ring. rewrite Cmod_0. lra.
  Qed.
  (** A bound for every vector. *)
  Lemma vle_exists v : exists x, 0 <= x /\ vle n v x.
  Proof.
    unfold vle. induction n as [|m IH]; [exists 0; split; [lra|]; intros; lia|].
    destruct IH as (x & Hx & H). exists (x + Cmod (v m)). assert (P := Cmod_ge_0 (v m)). split; [lra|].
    intros i Hi. destruct (Nat.eq_dec i m) as [->|]; [lra|]. specialize (H i ltac:(lia)). lra.
  Qed.
  Lemma vle_nonneg v x : (0 < n)%nat -> vle n v x -> 0 <= x.
  Proof. intros Hn H. specialize (H 0%nat Hn). assert (G := Cmod_ge_0 (v 0%nat)). lra. Qed.

  (** Real-linear operators (the derivative of a nonlinear function of complex entries need not be
      complex-linear). *)
  Record rlinear (P : cvec -> cvec) : Prop := {
    rl_add : forall a b, veq (below n) (P (cadd a b)) (cadd (P a) (P b));
    rl_scal : forall (c : R) a, veq (below n) (P (rscal c a)) (rscal c (P a)) }.
  (** Norm of an operator at most [K]. *)
  Definition opn (P : cvec -> cvec) (K : R) : Prop := forall v x, 0 <= x -> vle n v x -> vle n (P v) (K * x).

  Lemma linear_rlinear P : linear (below n) P -> rlinear P.
  Proof. intros H. split; intros; [apply (lin_add _ _ H)|apply (lin_scal _ _ H)]. Qed.
  Lemma rl_sub P a b : rlinear P -> veq (below n) (P (csub a b)) (csub (P a) (P b)).
  Proof.
    intros H i Hi.
    assert (E : csub a b = cadd a (rscal (-1) b)).
    { apply FunctionalExtensionality.functional_extensionality; intros j. unfold csub, cadd, cscal.
      rewrite RtoC_m1. ring. }
    rewrite E, (rl_add _ H a (rscal (-1) b) i Hi). unfold cadd. rewrite (rl_scal _ H (-1) b i Hi).
    unfold csub, cscal. rewrite RtoC_m1. ring.
  Qed.
  Lemma rl_ext P K a b : rlinear P -> opn P K -> veq (below n) a b -> veq (below n) (P a) (P b).
  Proof.
    intros HL HK E. apply vle_0_eq. apply (vle_ext (P (csub a b))); [apply rl_sub; exact HL|].
    replace 0 with (K * 0) by ring. apply HK; [lra|]. apply vle_eq_0. exact E.
  Qed.
  Lemma opn_mono P K K' : opn P K -> K <= K' -> opn P K'.
  Proof. intros H HK v x Hx Hv. apply (vle_mono _ (K * x)); [apply H; assumption|]. apply Rmult_le_compat_r; assumption. Qed.
  Lemma opn_comp P Q K K' : 0 <= K' -> opn P K -> opn Q K' -> opn (fun v => P (Q v)) (K * K').
  Proof.
    intros HK HP HQ v x Hx Hv. rewrite Rmult_assoc. apply HP; [apply Rmult_le_pos; lra|]. apply HQ; assumption.
  Qed.
  Lemma opn_add P Q K K' : opn P K -> opn Q K' -> opn (fun v => cadd (P v) (Q v)) (K + K').
  Proof. intros HP HQ v x Hx Hv. rewrite Rmult_plus_distr_r. apply vle_add; [apply HP|apply HQ]; assumption. Qed.
  Lemma opn_sub P Q K K' : opn P K -> opn Q K' -> opn (fun v => csub (P v) (Q v)) (K + K').
  Proof. intros HP HQ v x Hx Hv. rewrite Rmult_plus_distr_r. apply vle_sub; [apply HP|apply HQ]; assumption. Qed.
  Lemma opn_rscal (c : R) P K : opn P K -> opn (fun v => rscal c (P v)) (Rabs c * K).
  Proof. intros HP v x Hx Hv. rewrite Rmult_assoc. apply vle_rscal. apply HP; assumption. Qed.
  Lemma opn_id : opn (fun v => v) 1.
  Proof. intros v x _ H. rewrite Rmult_1_l. exact H. Qed.
  Lemma rlinear_comp P Q K : opn P K -> rlinear P -> rlinear Q -> rlinear (fun v => P (Q v)).
  Proof.
    intros HK HP HQ. split.
    - intros a b. transitivity (P (cadd (Q a) (Q b))); [apply (rl_ext P K _ _ HP HK), (rl_add _ HQ)|apply (rl_add _ HP)].
    - intros c a. transitivity (P (rscal c (Q a))); [apply (rl_ext P K _ _ HP HK), (rl_scal _ HQ)|apply (rl_scal _ HP)].
  Qed.
End Vle.

(** ** Families *)
Section Families.
  Variable n : nat.
  (** Situations, and the step sizes that make sense there. *)
  Variable I : Type.
  Variable adm : I -> R -> Prop.
  Hypothesis adm_pos : forall i h, adm i h -> 0 < h.
  Notation fam := (I -> R -> cvec).
  Notation opfam := (I -> R -> cvec -> cvec).

  (** [F = O(h^k)]. *)
  Definition bigO (k : nat) (F : fam) : Prop :=
    exists C h0, 0 <= C /\ 0 < h0 /\ forall i h, adm i h -> h <= h0 -> vle n (F i h) (C * h ^ k).
  (** Operators of norm [O(h^k)]. *)
  Definition opO (k : nat) (P : opfam) : Prop :=
    exists C h0, 0 <= C /\ 0 < h0 /\ forall i h, adm i h -> h <= h0 -> opn n (P i h) (C * h ^ k).

  Lemma pow_le_1 h k : 0 < h -> h <= 1 -> h ^ S k <= h ^ k.
  Proof. intros H1 H2. cbn [pow]. assert (0 <= h ^ k) by (apply pow_le; lra). nra. Qed.
  Lemma pow_weak h k j : 0 < h -> h <= 1 -> (k <= j)%nat -> h ^ j <= h ^ k.
  Proof.
    intros H1 H2 H. induction H as [|j H IH]; [lra|]. apply Rle_trans with (h ^ j); [apply pow_le_1; assumption|exact IH].
  Qed.

  Lemma O_ext k F G : (forall i h, adm i h -> veq (below n) (F i h) (G i h)) -> bigO k F -> bigO k G.
  Proof.
    intros E (C & h0 & HC & Hh & H). exists C, h0. split; [exact HC|]. split; [exact Hh|].
    intros i h Ha Hl. apply (vle_ext n (F i h)); [apply E; exact Ha|apply H; assumption].
  Qed.
  Lemma O_weak k j F : (k <= j)%nat -> bigO j F -> bigO k F.
  Proof.
    intros Hk (C & h0 & HC & Hh & H). exists C, (Rmin h0 1). split; [exact HC|]. split; [apply Rmin_glb_lt; lra|].
    intros i h Ha Hl. assert (Hp := adm_pos i h Ha). assert (L1 := Rmin_l h0 1). assert (L2 := Rmin_r h0 1).
    apply (vle_mono n _ (C * h ^ j)); [apply H; [exact Ha|lra]|].
    apply Rmult_le_compat_l; [exact HC|]. apply pow_weak; [exact Hp|lra|exact Hk].
  Qed.
  Lemma O_add k F G : bigO k F -> bigO k G -> bigO k (fun i h => cadd (F i h) (G i h)).
  Proof.
    intros (C & h0 & HC & Hh & H) (C' & h1 & HC' & Hh' & H'). exists (C + C'), (Rmin h0 h1).
    split; [lra|]. split; [apply Rmin_glb_lt; lra|]. intros i h Ha Hl.
    assert (L1 := Rmin_l h0 h1). assert (L2 := Rmin_r h0 h1). rewrite Rmult_plus_distr_r.
    apply vle_add; [apply H|apply H']; (exact Ha || lra).
  Qed.
  Lemma O_sub k F G : bigO k F -> bigO k G -> bigO k (fun i h => csub (F i h) (G i h)).
  Proof.
    intros (C & h0 & HC & Hh & H) (C' & h1 & HC' & Hh' & H'). exists (C + C'), (Rmin h0 h1).
    split; [lra|]. split; [apply Rmin_glb_lt; lra|]. intros i h Ha Hl.
    assert (L1 := Rmin_l h0 h1). assert (L2 := Rmin_r h0 h1). rewrite Rmult_plus_distr_r.
    apply vle_sub; [apply H|apply H']; (exact Ha || lra).
  Qed.
  Lemma O_zero k : bigO k (fun _ _ => czero).
  Proof.
    exists 0, 1. split; [lra|]. split; [lra|]. intros i h _ _. apply vle_zero. rewrite Rmult_0_l. lra.
  Qed.
  (** Multiples by [c h^j]. *)
  Lemma O_mul (c : R) j k F : bigO k F -> bigO (j + k) (fun i h => rscal (c * h ^ j) (F i h)).
  Proof.
    intros (C & h0 & HC & Hh & H). exists (Rabs c * C), h0. split; [apply Rmult_le_pos; [apply Rabs_pos|exact HC]|].
    split; [exact Hh|]. intros i h Ha Hl. assert (Hp := adm_pos i h Ha).
    apply (vle_mono n _ (Rabs (c * h ^ j) * (C * h ^ k))); [apply vle_rscal; apply H; assumption|].
    rewrite Rabs_mult, (Rabs_pos_eq (h ^ j)) by (apply pow_le; lra). rewrite pow_add. right. ring.
  Qed.
  Lemma O_const (c : R) k F : bigO k F -> bigO k (fun i h => rscal c (F i h)).
  Proof.
    intros H. apply (O_ext (0 + k) (fun i h => rscal (c * h ^ 0) (F i h))).
    - intros i h _. cbn [pow]. rewrite Rmult_1_r. reflexivity.
    - apply O_mul. exact H.
  Qed.
  Lemma O_op j k P F : opO j P -> bigO k F -> bigO (j + k) (fun i h => P i h (F i h)).
  Proof.
    intros (C & h0 & HC & Hh & H) (C' & h1 & HC' & Hh' & H'). exists (C * C'), (Rmin h0 h1).
    split; [apply Rmult_le_pos; assumption|]. split; [apply Rmin_glb_lt; lra|]. intros i h Ha Hl.
    assert (Hp := adm_pos i h Ha). assert (L1 := Rmin_l h0 h1). assert (L2 := Rmin_r h0 h1).
    replace (C * C' * h ^ (j + k)) with (C * h ^ j * (C' * h ^ k)) by (rewrite pow_add; ring).
    apply H; [exact Ha|lra| |apply H'; [exact Ha|lra]]. apply Rmult_le_pos; [exact HC'|]. apply pow_le. lra.
  Qed.
  (** Remainders quadratic in their argument. *)
  Definition quadratic (Q : opfam) : Prop :=
    exists K r h0, 0 <= K /\ 0 < r /\ 0 < h0 /\ forall i h, adm i h -> h <= h0 -> forall v x, 0 <= x <= r ->
      vle n v x -> vle n (Q i h v) (K * x ^ 2).
  Lemma O_quad k Q F : (0 < k)%nat -> quadratic Q -> bigO k F -> bigO (k + k) (fun i h => Q i h (F i h)).
  Proof.
    intros Hk (K & r & h1 & HK & Hr & Hh1 & HQ) (C & h0 & HC & Hh & H).
    exists (K * C ^ 2), (Rmin (Rmin h0 h1) (Rmin 1 (r / (C + 1)))).
    split; [apply Rmult_le_pos; [exact HK|apply pow2_ge_0]|].
    split.
    { repeat apply Rmin_glb_lt; try lra. apply Rdiv_lt_0_compat; lra. }
    intros i h Ha Hl. assert (Hp := adm_pos i h Ha).
    assert (L1 := Rmin_l (Rmin h0 h1) (Rmin 1 (r / (C + 1)))). assert (L2 := Rmin_r (Rmin h0 h1) (Rmin 1 (r / (C + 1)))).
    assert (L3 := Rmin_l h0 h1). assert (L4 := Rmin_r h0 h1).
    assert (L5 := Rmin_l 1 (r / (C + 1))). assert (L6 := Rmin_r 1 (r / (C + 1))).
    assert (Hhk : h ^ k <= h).
    { rewrite <- (pow_1 h) at 2. apply pow_weak; [exact Hp|lra|lia]. }
    assert (Hk0 : 0 <= h ^ k) by (apply pow_le; lra).
    replace (K * C ^ 2 * h ^ (k + k)) with (K * (C * h ^ k) ^ 2) by (rewrite pow_add; ring).
    apply (HQ i h Ha); [lra| |apply H; [exact Ha|lra]]. split; [apply Rmult_le_pos; lra|].
    apply Rle_trans with ((C + 1) * (r / (C + 1))); [|right; field; lra].
    apply Rmult_le_compat; lra.
  Qed.

  Lemma opO_ext k P Q : (forall i h v, adm i h -> veq (below n) (P i h v) (Q i h v)) -> opO k P -> opO k Q.
  Proof.
    intros E (C & h0 & HC & Hh & H). exists C, h0. split; [exact HC|]. split; [exact Hh|].
    intros i h Ha Hl v x Hx Hv. apply (vle_ext n (P i h v)); [apply E; exact Ha|apply H; assumption].
  Qed.
  Lemma opO_weak k j P : (k <= j)%nat -> opO j P -> opO k P.
  Proof.
    intros Hk (C & h0 & HC & Hh & H). exists C, (Rmin h0 1). split; [exact HC|]. split; [apply Rmin_glb_lt; lra|].
    intros i h Ha Hl. assert (Hp := adm_pos i h Ha). assert (L1 := Rmin_l h0 1). assert (L2 := Rmin_r h0 1).
    apply (opn_mono n _ (C * h ^ j)); [apply H; [exact Ha|lra]|].
    apply Rmult_le_compat_l; [exact HC|]. apply pow_weak; [exact Hp|lra|exact Hk].
  Qed.
  Lemma opO_add k P Q : opO k P -> opO k Q -> opO k (fun i h v => cadd (P i h v) (Q i h v)).
  Proof.
    intros (C & h0 & HC & Hh & H) (C' & h1 & HC' & Hh' & H'). exists (C + C'), (Rmin h0 h1).
    split; [lra|]. split; [apply Rmin_glb_lt; lra|]. intros i h Ha Hl.
    assert (L1 := Rmin_l h0 h1). assert (L2 := Rmin_r h0 h1). rewrite Rmult_plus_distr_r.
    apply opn_add; [apply H|apply H']; (exact Ha || lra).
  Qed.
  Lemma opO_sub k P Q : opO k P -> opO k Q -> opO k (fun i h v => csub (P i h v) (Q i h v)).
  Proof.
    intros (C & h0 & HC & Hh & H) (C' & h1 & HC' & Hh' & H'). exists (C + C'), (Rmin h0 h1).
    split; [lra|]. split; [apply Rmin_glb_lt; lra|]. intros i h Ha Hl.
    assert (L1 := Rmin_l h0 h1). assert (L2 := Rmin_r h0 h1). rewrite Rmult_plus_distr_r.
    apply opn_sub; [apply H|apply H']; (exact Ha || lra).
  Qed.
  Lemma opO_const (c : R) k P : opO k P -> opO k (fun i h v => rscal c (P i h v)).
  Proof.
    intros (C & h0 & HC & Hh & H). exists (Rabs c * C), h0. split; [apply Rmult_le_pos; [apply Rabs_pos|exact HC]|].
    split; [exact Hh|]. intros i h Ha Hl. rewrite Rmult_assoc. apply opn_rscal. apply H; assumption.
  Qed.
  Lemma opO_comp j k P Q : opO j P -> opO k Q -> opO (j + k) (fun i h v => P i h (Q i h v)).
  Proof.
    intros (C & h0 & HC & Hh & H) (C' & h1 & HC' & Hh' & H'). exists (C * C'), (Rmin h0 h1).
    split; [apply Rmult_le_pos; assumption|]. split; [apply Rmin_glb_lt; lra|]. intros i h Ha Hl.
    assert (Hp := adm_pos i h Ha). assert (L1 := Rmin_l h0 h1). assert (L2 := Rmin_r h0 h1).
    replace (C * C' * h ^ (j + k)) with (C * h ^ j * (C' * h ^ k)) by (rewrite pow_add; ring).
    apply opn_comp; [apply Rmult_le_pos; [exact HC'|apply pow_le; lra]|apply H|apply H']; (exact Ha || lra).
  Qed.
  Lemma opO_id : opO 0 (fun _ _ v => v).
  Proof.
    exists 1, 1. split; [lra|]. split; [lra|]. intros i h _ _. cbn [pow]. rewrite Rmult_1_r. apply opn_id.
  Qed.
  Lemma opO_zero k : opO k (fun _ _ _ => czero).
  Proof.
    exists 0, 1. split; [lra|]. split; [lra|]. intros i h _ _ v x Hx _. apply vle_zero. rewrite Rmult_0_l, Rmult_0_l. lra.
  Qed.
End Families.
