(** * Solutions of equations with polynomial nonlinear functions

    Every solution of [u' = L u + N(u)] on a bounded interval is smooth in the sense of [Solution.smooth] and
    [OrderLocal.Jsmooth], with any number of derivatives, if the entries of [N(v)] are polynomials in the entries of [v] and their
    complex conjugates. *)

From Coq Require Import ZArith List Bool Reals Lra Lia.
From Coquelicot Require Import Hierarchy Derive AutoDerive Continuity Complex.
From Verif Require Import Scalars CInst SpecRK SchemeIFReal SpecPhi SpecPoly ContourReal PropsETD ContourMatrix MatrixFlow Asym Solution OrderWords OrderLocal Fourier.
Import ListNotations.
Local Open Scope R_scope.

(** Polynomials in the entries of a vector and their conjugates. *)
Inductive pexp := PC (c : C) | PV (i : nat) | PJ (i : nat) | PAdd (a b : pexp) | PMul (a b : pexp).
Fixpoint pconj (e : pexp) : pexp :=
  match e with PC c => PC (Cconj c) | PV i => PJ i | PJ i => PV i | PAdd a b => PAdd (pconj a) (pconj b) | PMul a b => PMul (pconj a) (pconj b) end.
Fixpoint psum (m : nat) (f : nat -> pexp) : pexp := match m with O => PC 0 | S m => PAdd (psum m f) (f m) end.
(** Derivatives with respect to an entry and to its conjugate. *)
Definition delta (i j : nat) : pexp := PC (if Nat.eqb i j then 1 else 0).
Fixpoint dA (j : nat) (e : pexp) : pexp :=
  match e with PC _ | PJ _ => PC 0 | PV i => delta i j | PAdd a b => PAdd (dA j a) (dA j b) | PMul a b => PAdd (PMul (dA j a) b) (PMul a (dA j b)) end.
Fixpoint dB (j : nat) (e : pexp) : pexp :=
  match e with PC _ | PV _ => PC 0 | PJ i => delta i j | PAdd a b => PAdd (dB j a) (dB j b) | PMul a b => PAdd (PMul (dB j a) b) (PMul a (dB j b)) end.

Lemma Cconj_involutive (z : C) : Cconj (Cconj z) = z.
Proof. destruct z as [a b]. unfold Cconj; cbn. rewrite Ropp_involutive. reflexivity. Qed.
Lemma Cconj_plus (x y : C) : Cconj (x + y)%C = (Cconj x + Cconj y)%C.
Proof. unfold Cconj, Cplus; cbn. f_equal; ring. Qed.
Lemma Cconj_mult (x y : C) : Cconj (x * y)%C = (Cconj x * Cconj y)%C.
Proof. unfold Cconj, Cmult; cbn. f_equal; ring. Qed.
Lemma Cconj_0 : Cconj 0 = 0.
Proof. unfold Cconj, RtoC; cbn. f_equal; ring. Qed.
Lemma Cmod_Cconj (x : C) : Cmod (Cconj x) = Cmod x.
Proof. unfold Cmod, Cconj; cbn. f_equal. ring. Qed.
Lemma is_Cder_conj f t l : is_Cder f t l -> is_Cder (fun s => Cconj (f s)) t (Cconj l).
Proof. intros [H1 H2]. split; cbn; [exact H1|]. apply (@is_derive_opp _ R_NormedModule). exact H2. Qed.

(** Bounds for finitely many indices. *)
Lemma fin_bound n (P : nat -> R -> Prop) : (forall i B B', P i B -> B <= B' -> P i B') ->
  (forall i, (i < n)%nat -> exists B, 0 <= B /\ P i B) -> exists B, 0 <= B /\ forall i, (i < n)%nat -> P i B.
Proof.
  intros Hm. induction n as [|n IH]; intros H; [exists 0; split; [lra|]; intros; lia|].
  destruct IH as (B & HB & G); [intros; apply H; lia|]. destruct (H n ltac:(lia)) as (B' & HB' & G').
  exists (B + B'). split; [lra|]. intros i Hi. destruct (Nat.eq_dec i n) as [->|]; [apply (Hm _ B'); [exact G'|lra]|apply (Hm _ B); [apply G; lia|lra]].
Qed.

Section Values.
  Variable n : nat.
  Fixpoint pev (e : pexp) (v : cvec) : C :=
    match e with
    | PC c => c
    | PV i => if Nat.ltb i n then v i else 0
    | PJ i => if Nat.ltb i n then Cconj (v i) else 0
    | PAdd a b => (pev a v + pev b v)%C
    | PMul a b => (pev a v * pev b v)%C
    end.
  Lemma pev_conj e v : pev (pconj e) v = Cconj (pev e v).
  Proof.
    induction e as [c|i|i|a IHa b IHb|a IHa b IHb]; cbn [pconj pev].
    - reflexivity.
    - destruct (Nat.ltb i n); [reflexivity|]. symmetry. apply Cconj_0.
    - destruct (Nat.ltb i n); [symmetry; apply Cconj_involutive|]. symmetry. apply Cconj_0.
    - rewrite IHa, IHb, Cconj_plus. reflexivity.
    - rewrite IHa, IHb, Cconj_mult. reflexivity.
  Qed.
  Lemma pev_psum m f v : pev (psum m f) v = csum m (fun k => pev (f k) v).
  Proof. induction m as [|m IH]; cbn [psum pev csum]; [reflexivity|]. rewrite IH. reflexivity. Qed.
  Lemma pev_ext e v w : veq (below n) v w -> pev e v = pev e w.
  Proof.
    intros H. induction e as [c|i|i|a IHa b IHb|a IHa b IHb]; cbn [pev]; [reflexivity| | |congruence|congruence];
      (destruct (Nat.ltb_spec i n) as [Hi|Hi]; [|reflexivity]); rewrite (H i Hi); reflexivity.
  Qed.

  Lemma pev_bound e K : 0 <= K -> exists B, 0 <= B /\ forall v, vle n v K -> Cmod (pev e v) <= B.
  Proof.
    intros HK. induction e as [c|i|i|a IHa b IHb|a IHa b IHb]; cbn [pev].
    - exists (Cmod c). split; [apply Cmod_ge_0|]. intros; lra.
    - exists K. split; [exact HK|]. intros v Hv. destruct (Nat.ltb_spec i n) as [Hi|Hi]; [apply Hv; exact Hi|rewrite Cmod_0; exact HK].
    - exists K. split; [exact HK|]. intros v Hv. destruct (Nat.ltb_spec i n) as [Hi|Hi]; [rewrite Cmod_Cconj; apply Hv; exact Hi|rewrite Cmod_0; exact HK].
    - destruct IHa as (A & HA & Ga). destruct IHb as (B & HB & Gb). exists (A + B). split; [lra|]. intros v Hv.
      eapply Rle_trans; [apply Cmod_triangle|]. specialize (Ga v Hv). specialize (Gb v Hv). lra.
    - destruct IHa as (A & HA & Ga). destruct IHb as (B & HB & Gb). exists (A * B). split; [apply Rmult_le_pos; assumption|]. intros v Hv.
      rewrite Cmod_mult. apply Rmult_le_compat; auto using Cmod_ge_0.
  Qed.
  Lemma pev_lip e K : 0 <= K -> exists M, 0 <= M /\ forall v w x, 0 <= x -> vle n v K -> vle n w K -> vle n (csub v w) x -> Cmod (pev e v - pev e w)%C <= M * x.
  Proof.
    intros HK. induction e as [c|i|i|a IHa b IHb|a IHa b IHb]; cbn [pev].
    - exists 0. split; [lra|]. intros v w x Hx _ _ _. replace (c - c)%C with (RtoC 0) by ring. rewrite Cmod_0. lra.
    - exists 1. split; [lra|]. intros v w x Hx _ _ H. rewrite Rmult_1_l. destruct (Nat.ltb_spec i n) as [Hi|Hi]; [exact (H i Hi)|].
      replace (0 - 0)%C with (RtoC 0) by ring. rewrite Cmod_0. lra.
    - exists 1. split; [lra|]. intros v w x Hx _ _ H. rewrite Rmult_1_l. destruct (Nat.ltb_spec i n) as [Hi|Hi].
      + replace (Cconj (v i) - Cconj (w i))%C with (Cconj (v i - w i)%C) by (unfold Cconj, Cminus, Cplus, Copp; cbn; f_equal; ring). rewrite Cmod_Cconj. exact (H i Hi).
      + replace (0 - 0)%C with (RtoC 0) by ring. rewrite Cmod_0. lra.
    - destruct IHa as (A & HA & Ga). destruct IHb as (B & HB & Gb). exists (A + B). split; [lra|]. intros v w x Hx Hv Hw H.
      replace (pev a v + pev b v - (pev a w + pev b w))%C with ((pev a v - pev a w) + (pev b v - pev b w))%C by ring.
      eapply Rle_trans; [apply Cmod_triangle|]. specialize (Ga v w x Hx Hv Hw H). specialize (Gb v w x Hx Hv Hw H). lra.
    - destruct IHa as (A & HA & Ga). destruct IHb as (B & HB & Gb). destruct (pev_bound a K HK) as (A' & HA' & Ga'). destruct (pev_bound b K HK) as (B' & HB' & Gb').
      exists (A * B' + A' * B). split; [apply Rplus_le_le_0_compat; apply Rmult_le_pos; assumption|]. intros v w x Hx Hv Hw H.
      replace (pev a v * pev b v - pev a w * pev b w)%C with ((pev a v - pev a w) * pev b v + pev a w * (pev b v - pev b w))%C by ring.
      eapply Rle_trans; [apply Cmod_triangle|]. rewrite !Cmod_mult.
      assert (X1 : Cmod (pev a v - pev a w)%C * Cmod (pev b v) <= A * x * B') by (apply Rmult_le_compat; auto using Cmod_ge_0).
      assert (X2 : Cmod (pev a w) * Cmod (pev b v - pev b w)%C <= A' * (B * x)) by (apply Rmult_le_compat; auto using Cmod_ge_0).
      lra.
  Qed.

  (** The derivative at [a] in direction [v]. *)
  Definition jac (e : pexp) (a v : cvec) : C := csum n (fun j => pev (dA j e) a * v j + pev (dB j e) a * Cconj (v j))%C.
  Lemma jac_PC c a v : jac (PC c) a v = 0.
  Proof. unfold jac. apply csum_0. intros j _. cbn. ring. Qed.
  Lemma jac_PV i a v : jac (PV i) a v = if Nat.ltb i n then v i else 0.
  Proof.
    unfold jac. cbn [dA dB pev delta]. destruct (Nat.ltb_spec i n) as [Hi|Hi].
    - rewrite (csum_single n i _ Hi); [rewrite Nat.eqb_refl; ring|]. intros k _ Hk. destruct (Nat.eqb_spec i k); [lia|ring].
    - apply csum_0. intros k Hk. destruct (Nat.eqb_spec i k); [lia|ring].
  Qed.
  Lemma jac_PJ i a v : jac (PJ i) a v = if Nat.ltb i n then Cconj (v i) else 0.
  Proof.
    unfold jac. cbn [dA dB pev delta]. destruct (Nat.ltb_spec i n) as [Hi|Hi].
    - rewrite (csum_single n i _ Hi); [rewrite Nat.eqb_refl; ring|]. intros k _ Hk. destruct (Nat.eqb_spec i k); [lia|ring].
    - apply csum_0. intros k Hk. destruct (Nat.eqb_spec i k); [lia|ring].
  Qed.
  Lemma jac_PAdd e f a v : jac (PAdd e f) a v = (jac e a v + jac f a v)%C.
  Proof. unfold jac. rewrite <- csum_plus. apply csum_ext. intros j _. cbn [dA dB pev]. ring. Qed.
  Lemma jac_PMul e f a v : jac (PMul e f) a v = (jac e a v * pev f a + pev e a * jac f a v)%C.
  Proof.
    unfold jac. rewrite <- csum_scal, <- csum_scal_right, <- csum_plus. apply csum_ext. intros j _. cbn [dA dB pev]. ring.
  Qed.
  Lemma jac_bound e K : 0 <= K -> exists M, 0 <= M /\ forall a v x, 0 <= x -> vle n a K -> vle n v x -> Cmod (jac e a v) <= M * x.
  Proof.
    intros HK. induction e as [c|i|i|e IHa f IHb|e IHa f IHb].
    - exists 0. split; [lra|]. intros a v x Hx _ _. rewrite jac_PC, Cmod_0. lra.
    - exists 1. split; [lra|]. intros a v x Hx _ H. rewrite jac_PV, Rmult_1_l. destruct (Nat.ltb_spec i n) as [Hi|Hi]; [exact (H i Hi)|rewrite Cmod_0; lra].
    - exists 1. split; [lra|]. intros a v x Hx _ H. rewrite jac_PJ, Rmult_1_l. destruct (Nat.ltb_spec i n) as [Hi|Hi]; [rewrite Cmod_Cconj; exact (H i Hi)|rewrite Cmod_0; lra].
    - destruct IHa as (A & HA & Ga). destruct IHb as (B & HB & Gb). exists (A + B). split; [lra|]. intros a v x Hx Ha Hv. rewrite jac_PAdd.
      eapply Rle_trans; [apply Cmod_triangle|]. specialize (Ga a v x Hx Ha Hv). specialize (Gb a v x Hx Ha Hv). lra.
    - destruct IHa as (A & HA & Ga). destruct IHb as (B & HB & Gb). destruct (pev_bound e K HK) as (A' & HA' & Ga'). destruct (pev_bound f K HK) as (B' & HB' & Gb').
      exists (A * B' + A' * B). split; [apply Rplus_le_le_0_compat; apply Rmult_le_pos; assumption|]. intros a v x Hx Ha Hv. rewrite jac_PMul.
      eapply Rle_trans; [apply Cmod_triangle|]. rewrite !Cmod_mult.
      assert (X1 : Cmod (jac e a v) * Cmod (pev f a) <= A * x * B') by (apply Rmult_le_compat; auto using Cmod_ge_0).
      assert (X2 : Cmod (pev e a) * Cmod (jac f a v) <= A' * (B * x)) by (apply Rmult_le_compat; auto using Cmod_ge_0). lra.
  Qed.
  Lemma jac_add e a v w : jac e a (cadd v w) = (jac e a v + jac e a w)%C.
  Proof. unfold jac. rewrite <- csum_plus. apply csum_ext. intros j _. unfold cadd. rewrite Cconj_plus. ring. Qed.
  Lemma jac_rscal e a (c : R) v : jac e a (rscal c v) = (RtoC c * jac e a v)%C.
  Proof.
    unfold jac. rewrite <- csum_scal. apply csum_ext. intros j _. unfold cscal. rewrite Cconj_mult.
    replace (Cconj (RtoC c)) with (RtoC c) by (unfold Cconj, RtoC; cbn; f_equal; ring). ring.
  Qed.
  (** Quadratic remainder. *)
  Lemma pev_quad e K : 0 <= K -> exists M, 0 <= M /\ forall a v x, 0 <= x <= 1 -> vle n a K -> vle n (csub v a) x ->
    Cmod (pev e v - pev e a - jac e a (csub v a))%C <= M * x ^ 2.
  Proof.
    intros HK. induction e as [c|i|i|e IHa f IHb|e IHa f IHb].
    - exists 0. split; [lra|]. intros a v x Hx _ _. rewrite jac_PC. cbn [pev]. replace (c - c - 0)%C with (RtoC 0) by ring. rewrite Cmod_0. lra.
    - exists 0. split; [lra|]. intros a v x Hx _ _. rewrite jac_PV. cbn [pev]. unfold csub. destruct (Nat.ltb i n).
      + replace (v i - a i - (v i - a i))%C with (RtoC 0) by ring. rewrite Cmod_0. lra.
      + replace (0 - 0 - 0)%C with (RtoC 0) by ring. rewrite Cmod_0. lra.
    - exists 0. split; [lra|]. intros a v x Hx _ _. rewrite jac_PJ. cbn [pev]. unfold csub. destruct (Nat.ltb i n).
      + replace (Cconj (v i) - Cconj (a i) - Cconj (v i - a i))%C with (RtoC 0) by (unfold Cconj, Cminus, Cplus, Copp, RtoC; cbn; f_equal; ring). rewrite Cmod_0. lra.
      + replace (0 - 0 - 0)%C with (RtoC 0) by ring. rewrite Cmod_0. lra.
    - destruct IHa as (A & HA & Ga). destruct IHb as (B & HB & Gb). exists (A + B). split; [lra|]. intros a v x Hx Ha Hv. rewrite jac_PAdd. cbn [pev].
      replace (pev e v + pev f v - (pev e a + pev f a) - (jac e a (csub v a) + jac f a (csub v a)))%C
        with ((pev e v - pev e a - jac e a (csub v a)) + (pev f v - pev f a - jac f a (csub v a)))%C by ring.
      eapply Rle_trans; [apply Cmod_triangle|]. specialize (Ga a v x Hx Ha Hv). specialize (Gb a v x Hx Ha Hv). lra.
    - destruct IHa as (A & HA & Ga). destruct IHb as (B & HB & Gb). destruct (pev_bound e K HK) as (A' & HA' & Ga').
      destruct (jac_bound e K HK) as (A2 & HA2 & Ga2). destruct (jac_bound f K HK) as (B2 & HB2 & Gb2). destruct (pev_bound f (K + 1) ltac:(lra)) as (B' & HB' & Gb').
      exists (A * B' + A2 * B2 + (A' + A2) * B). split; [repeat apply Rplus_le_le_0_compat; apply Rmult_le_pos; lra|].
      intros a v x Hx Ha Hv. rewrite jac_PMul. cbn [pev].
      assert (Hv' : vle n v (K + 1)).
      { intros i Hi. specialize (Ha i Hi). specialize (Hv i Hi). unfold csub in Hv. assert (X := Cmod_triangle (v i - a i)%C (a i)).
        replace (v i - a i + a i)%C with (v i) in X by ring. lra. }
      specialize (Ga a v x Hx Ha Hv). specialize (Gb a v x Hx Ha Hv). specialize (Ga' a Ha). specialize (Gb' v Hv').
      specialize (Ga2 a (csub v a) x (proj1 Hx) Ha Hv). specialize (Gb2 a (csub v a) x (proj1 Hx) Ha Hv).
      set (d1 := jac e a (csub v a)) in *. set (d2 := jac f a (csub v a)) in *.
      replace (pev e v * pev f v - pev e a * pev f a - (d1 * pev f a + pev e a * d2))%C
        with ((pev e v - pev e a - d1) * pev f v + d1 * d2 + (pev e a + d1) * (pev f v - pev f a - d2))%C by ring.
      assert (P2 : 0 <= x ^ 2) by (apply pow_le; lra).
      assert (X1 : Cmod ((pev e v - pev e a - d1) * pev f v)%C <= A * x ^ 2 * B') by (rewrite Cmod_mult; apply Rmult_le_compat; auto using Cmod_ge_0).
      assert (X2 : Cmod (d1 * d2)%C <= A2 * x * (B2 * x)) by (rewrite Cmod_mult; apply Rmult_le_compat; auto using Cmod_ge_0).
      assert (X3 : Cmod ((pev e a + d1) * (pev f v - pev f a - d2))%C <= (A' + A2) * (B * x ^ 2)).
      { rewrite Cmod_mult. apply Rmult_le_compat; auto using Cmod_ge_0. eapply Rle_trans; [apply Cmod_triangle|].
        assert (A2 * x <= A2 * 1) by (apply Rmult_le_compat_l; lra). lra. }
      assert (Y := Cmod_triangle ((pev e v - pev e a - d1) * pev f v + d1 * d2)%C ((pev e a + d1) * (pev f v - pev f a - d2))%C).
      assert (Y' := Cmod_triangle ((pev e v - pev e a - d1) * pev f v)%C (d1 * d2)%C).
      replace ((A * B' + A2 * B2 + (A' + A2) * B) * x ^ 2) with (A * x ^ 2 * B' + A2 * x * (B2 * x) + (A' + A2) * (B * x ^ 2)) by ring. lra.
  Qed.
End Values.

Lemma csum_minus m (f g : nat -> C) : (csum m f - csum m g)%C = csum m (fun j => f j - g j)%C.
Proof. induction m as [|m IH]; cbn [csum]; [ring|rewrite <- IH; ring]. Qed.

Section Solution.
  Variable n : nat.
  Variable L : nat -> nat -> C.
  Variable E : nat -> pexp.
  Variable N : cvec -> cvec.
  Hypothesis HN : forall v i, (i < n)%nat -> N v i = pev n (E i) v.
  Variables t0 t1 : R.
  Hypothesis Ht : t0 < t1.
  Variable u : R -> cvec.
  Hypothesis Hu : forall t i, t0 <= t <= t1 -> (i < n)%nat -> is_Cder (fun s => u s i) t (mdot n L (u t) i + N (u t) i)%C.

  (** The right-hand side, and derivatives with respect to time. *)
  Definition rhs (i : nat) : pexp := PAdd (psum n (fun j => PMul (PC (L i j)) (PV j))) (E i).
  Lemma rhs_ev i v : (i < n)%nat -> pev n (rhs i) v = (mdot n L v i + N v i)%C.
  Proof.
    intros Hi. unfold rhs. cbn [pev]. rewrite pev_psum, HN by exact Hi. f_equal. unfold mdot. apply csum_ext. intros j Hj. cbn [pev].
    destruct (Nat.ltb_spec j n); [reflexivity|lia].
  Qed.
  Fixpoint pD (e : pexp) : pexp :=
    match e with
    | PC _ => PC 0
    | PV i => if Nat.ltb i n then rhs i else PC 0
    | PJ i => if Nat.ltb i n then pconj (rhs i) else PC 0
    | PAdd a b => PAdd (pD a) (pD b)
    | PMul a b => PAdd (PMul (pD a) b) (PMul a (pD b))
    end.
  Lemma pev_der e t : t0 <= t <= t1 -> is_Cder (fun s => pev n e (u s)) t (pev n (pD e) (u t)).
  Proof.
    intros H. induction e as [c|i|i|a IHa b IHb|a IHa b IHb]; cbn [pD pev].
    - apply is_Cder_const.
    - destruct (Nat.ltb_spec i n) as [Hi|Hi]; [rewrite rhs_ev by exact Hi; apply Hu; assumption|apply is_Cder_const].
    - destruct (Nat.ltb_spec i n) as [Hi|Hi]; [rewrite pev_conj, rhs_ev by exact Hi; apply is_Cder_conj, Hu; assumption|apply is_Cder_const].
    - apply is_Cder_plus; assumption.
    - apply (is_Cder_mult (fun s => pev n a (u s)) (fun s => pev n b (u s))); assumption.
  Qed.

  Lemma u_bounded : exists K, 0 <= K /\ forall t, t0 <= t <= t1 -> vle n (u t) K.
  Proof.
    assert (B1 : forall f : R -> R, (forall t, t0 <= t <= t1 -> exists l, is_derive f t l) -> exists B, 0 <= B /\ forall t, t0 <= t <= t1 -> Rabs (f t) <= B).
    { intros f Hf.
      destruct (continuity_ab_maj (fun t => Rabs (f t)) t0 t1 (Rlt_le _ _ Ht)) as (m & Hm & _).
      - intros c Hc. destruct (Hf c Hc) as [l Hl]. apply (continuity_pt_comp f Rabs); [|apply Rcontinuity_abs].
        apply derivable_continuous_pt. exists l. apply is_derive_Reals. exact Hl.
      - exists (Rabs (f m)). split; [apply Rabs_pos|]. intros t H. apply Hm. exact H. }
    destruct (fin_bound n (fun i B => forall t, t0 <= t <= t1 -> Cmod (u t i) <= B)) as (K & HK & G).
    - intros i B B' H HB t H'. specialize (H t H'). lra.
    - intros i Hi. destruct (B1 (fun t => fst (u t i))) as (X & HX & GX); [intros t H; eexists; apply (proj1 (Hu t i H Hi))|].
      destruct (B1 (fun t => snd (u t i))) as (Y & HY & GY); [intros t H; eexists; apply (proj2 (Hu t i H Hi))|].
      exists (X + Y). split; [lra|]. intros t H. assert (Z := Cmod_parts (u t i)). specialize (GX t H). specialize (GY t H). lra.
    - exists K. split; [exact HK|]. intros t H i Hi. apply G; assumption.
  Qed.

  (** Polynomials along the solution: bounds, and Taylor expansions of first and second order. *)
  Variable K : R.
  Hypothesis HK : 0 <= K.
  Hypothesis HuK : forall t, t0 <= t <= t1 -> vle n (u t) K.
  Lemma along_taylor (g g1 g2 : R -> C) B : (forall t, t0 <= t <= t1 -> is_Cder g t (g1 t)) -> (forall t, t0 <= t <= t1 -> is_Cder g1 t (g2 t)) ->
    (forall t, t0 <= t <= t1 -> Cmod (g2 t) <= B) -> forall s t, t0 <= s <= t1 -> t0 <= t <= t1 -> Cmod (g s - g t - RtoC (s - t) * g1 t)%C <= 2 * B * (s - t) ^ 2.
  Proof.
    intros H1 H2 HB s t Hs Ht'. destruct (Rle_dec t s) as [Hl|Hl].
    - set (F := (fun k r => match k with O => g (t + r) | 1%nat => g1 (t + r) | _ => g2 (t + r) end) : nat -> R -> C). assert (Y := taylor_cplx B (s - t) 2 F).
      assert (Z : Cmod (F 0%nat (s - t)%R - ctay F 2 (s - t)%R)%C <= 2 * B * (s - t) ^ 2).
      { refine (Y _ _ (s - t) _); [| |lra].
        - intros k r Hk Hr. assert (Hr' : t0 <= t + r <= t1) by lra. destruct k as [|[|k]]; [| |lia]; [exact (is_Cder_shift g t r _ (H1 _ Hr'))|exact (is_Cder_shift g1 t r _ (H2 _ Hr'))].
        - intros r Hr. apply HB. lra. }
      unfold ctay, F in Z. cbn [csum fact pow INR] in Z. rewrite !Rplus_0_r in Z. replace (t + (s - t)) with s in Z by ring.
      eapply Rle_trans; [|exact Z]. right. f_equal.
      replace (1 / 1) with 1 by field. match goal with |- context [RtoC ((s - t) * 1 / ?d)] => replace ((s - t) * 1 / d) with (s - t) by (cbn; field) end. ring.
    - set (F := (fun k r => match k with O => g (t + - r) | 1%nat => (RtoC (-1) * g1 (t + - r)%R)%C | _ => g2 (t + - r) end) : nat -> R -> C). assert (Y := taylor_cplx B (t - s) 2 F).
      assert (Z : Cmod (F 0%nat (t - s)%R - ctay F 2 (t - s)%R)%C <= 2 * B * (t - s) ^ 2).
      { assert (Dn : forall f l r, is_Cder f (t + - r) l -> is_Cder (fun r => f (t + - r)) r (RtoC (-1) * l)%C).
        { intros f l r Hf. apply (is_Cder_comp f (fun r => t + - r) r l (-1)); [exact Hf|]. auto_derive; [exact I|ring]. }
        refine (Y _ _ (t - s) _); [| |lra].
        - intros k r Hk Hr. assert (Hr' : t0 <= t + - r <= t1) by lra. destruct k as [|[|k]]; [| |lia].
          + exact (Dn g (g1 (t + - r)) r (H1 _ Hr')).
          + change (is_Cder (fun r => RtoC (-1) * g1 (t + - r)%R)%C r (g2 (t + - r))).
            assert (X : g2 (t + - r) = (RtoC (-1) * (RtoC (-1) * g2 (t + - r)%R))%C) by (rewrite RtoC_m1; ring). rewrite X.
            exact (is_Cder_scal (RtoC (-1)) _ r _ (Dn g1 (g2 (t + - r)) r (H2 _ Hr'))).
        - intros r Hr. apply HB. lra. }
      unfold ctay, F in Z. cbn [csum fact pow INR] in Z. replace (t + - (t - s)) with s in Z by ring. replace (t + - 0) with t in Z by ring.
      eapply Rle_trans; [eapply Rle_trans; [|exact Z]|right; ring]. right. f_equal.
      replace (1 / 1) with 1 by field. match goal with |- context [RtoC ((t - s) * 1 / ?d)] => replace ((t - s) * 1 / d) with (t - s) by (cbn; field) end.
      rewrite RtoC_m1. replace (RtoC (t - s)) with (- RtoC (s - t))%C by (rewrite <- RtoC_opp; f_equal; ring). ring.
  Qed.
  Lemma along_lip (g g1 : R -> C) B : (forall t, t0 <= t <= t1 -> is_Cder g t (g1 t)) ->
    (forall t, t0 <= t <= t1 -> Cmod (g1 t) <= B) -> forall s t, t0 <= s <= t1 -> t0 <= t <= t1 -> Cmod (g s - g t)%C <= 2 * B * Rabs (s - t).
  Proof.
    intros H1 HB.
    assert (G : forall s t, t0 <= t -> t <= s -> s <= t1 -> Cmod (g s - g t)%C <= 2 * B * (s - t)).
    { intros s t A1 A2 A3. set (F := (fun k r => match k with O => g (t + r) | _ => g1 (t + r) end) : nat -> R -> C). assert (Y := taylor_cplx B (s - t) 1 F).
      assert (Z : Cmod (F 0%nat (s - t)%R - ctay F 1 (s - t)%R)%C <= 2 * B * (s - t) ^ 1).
      { refine (Y _ _ (s - t) _); [| |lra].
        - intros k r Hk Hr. assert (Hr' : t0 <= t + r <= t1) by lra. destruct k as [|k]; [|lia]. exact (is_Cder_shift g t r _ (H1 _ Hr')).
        - intros r Hr. apply HB. lra. }
      unfold ctay, F in Z. cbn [csum fact pow INR] in Z. rewrite !Rplus_0_r in Z. replace (t + (s - t)) with s in Z by ring.
      eapply Rle_trans; [eapply Rle_trans; [|exact Z]|right; ring]. right. f_equal. replace (1 / 1) with 1 by field. ring. }
    intros s t Hs Ht'. destruct (Rle_dec t s) as [Hl|Hl].
    - rewrite Rabs_pos_eq by lra. apply G; lra.
    - rewrite Rabs_left by lra. rewrite <- Cmod_opp. replace (- (g s - g t))%C with (g t - g s)%C by ring. replace (- (s - t)) with (t - s) by ring. apply G; lra.
  Qed.
  Lemma along_bound e : exists B, 0 <= B /\ forall t, t0 <= t <= t1 -> Cmod (pev n e (u t)) <= B.
  Proof. destruct (pev_bound n e K HK) as (B & HB & G). exists B. split; [exact HB|]. intros t H. apply G, HuK, H. Qed.

  (** ** The derivative of the nonlinear function along the solution *)
  Definition Jp (t : R) (v : cvec) : cvec := fun i => jac n (E i) (u t) v.
  Definition J1p (t : R) (v : cvec) : cvec := fun i => csum n (fun j => pev n (pD (dA j (E i))) (u t) * v j + pev n (pD (dB j (E i))) (u t) * Cconj (v j))%C.
  Definition fp (k : nat) (t : R) : cvec := fun i => pev n (Nat.iter k pD (E i)) (u t).

  (** Sums [sum_j (a_j v_j + b_j conj v_j)]. *)
  Lemma pair_sum_bound (a b : nat -> C) v B x : 0 <= x -> (forall j, (j < n)%nat -> Cmod (a j) <= B) -> (forall j, (j < n)%nat -> Cmod (b j) <= B) -> vle n v x ->
    Cmod (csum n (fun j => a j * v j + b j * Cconj (v j))%C) <= INR n * (2 * (B * x)).
  Proof.
    intros Hx Ha Hb Hv. apply csum_norm_const. intros j Hj. eapply Rle_trans; [apply Cmod_triangle|]. rewrite !Cmod_mult, Cmod_Cconj.
    assert (X1 : Cmod (a j) * Cmod (v j) <= B * x) by (apply Rmult_le_compat; auto using Cmod_ge_0).
    assert (X2 : Cmod (b j) * Cmod (v j) <= B * x) by (apply Rmult_le_compat; auto using Cmod_ge_0). lra.
  Qed.
  Lemma bnd1 m (F : nat -> pexp) : exists B, 0 <= B /\ forall j, (j < m)%nat -> forall t, t0 <= t <= t1 -> Cmod (pev n (F j) (u t)) <= B.
  Proof.
    apply (fin_bound m (fun j B => forall t, t0 <= t <= t1 -> Cmod (pev n (F j) (u t)) <= B)); [|intros j _; apply along_bound].
    intros i B B' H HB t H'. specialize (H t H'). lra.
  Qed.
  Lemma bnd2 m l (F : nat -> nat -> pexp) : exists B, 0 <= B /\ forall i j, (i < m)%nat -> (j < l)%nat -> forall t, t0 <= t <= t1 -> Cmod (pev n (F i j) (u t)) <= B.
  Proof.
    destruct (fin_bound m (fun i B => forall j, (j < l)%nat -> forall t, t0 <= t <= t1 -> Cmod (pev n (F i j) (u t)) <= B)) as (B & HB & G).
    - intros i B B' H HB j Hj t H'. specialize (H j Hj t H'). lra.
    - intros i _. apply (bnd1 l (F i)).
    - exists B. split; [exact HB|]. intros i j Hi Hj. apply G; assumption.
  Qed.

  Lemma solution_smooth_K q : exists K', smooth n q L N t0 t1 1 K' u fp Jp /\ Jsmooth n t0 t1 K' Jp J1p.
  Proof.
    destruct (bnd2 (S q) n (fun k i => Nat.iter k pD (E i))) as (Bf & HBf & Gf).
    destruct (fin_bound n (fun i M => forall v w x, 0 <= x -> vle n v (K + 1) -> vle n w (K + 1) -> vle n (csub v w) x -> Cmod (pev n (E i) v - pev n (E i) w)%C <= M * x)) as (Ml & HMl & Gl).
    { intros i B B' H HB v w x Hx H1 H2 H3. specialize (H v w x Hx H1 H2 H3). assert (B * x <= B' * x) by (apply Rmult_le_compat_r; lra). lra. }
    { intros i _. apply pev_lip. lra. }
    destruct (fin_bound n (fun i M => forall a v x, 0 <= x -> vle n a K -> vle n v x -> Cmod (jac n (E i) a v) <= M * x)) as (Mj & HMj & Gj).
    { intros i B B' H HB v w x Hx H1 H2. specialize (H v w x Hx H1 H2). assert (B * x <= B' * x) by (apply Rmult_le_compat_r; lra). lra. }
    { intros i _. apply jac_bound. exact HK. }
    destruct (fin_bound n (fun i M => forall a v x, 0 <= x <= 1 -> vle n a K -> vle n (csub v a) x -> Cmod (pev n (E i) v - pev n (E i) a - jac n (E i) a (csub v a))%C <= M * x ^ 2)) as (Mq & HMq & Gq).
    { intros i B B' H HB v w x Hx H1 H2. specialize (H v w x Hx H1 H2). assert (P2 : 0 <= x ^ 2) by (apply pow_le; lra). assert (B * x ^ 2 <= B' * x ^ 2) by (apply Rmult_le_compat_r; lra). lra. }
    { intros i _. apply pev_quad. exact HK. }
    destruct (bnd2 n n (fun i j => pD (dA j (E i)))) as (A1 & HA1 & GA1). destruct (bnd2 n n (fun i j => pD (dB j (E i)))) as (B1 & HB1 & GB1).
    destruct (bnd2 n n (fun i j => pD (pD (dA j (E i))))) as (A2 & HA2 & GA2). destruct (bnd2 n n (fun i j => pD (pD (dB j (E i))))) as (B2 & HB2 & GB2).
    assert (Pn := pos_INR n). set (D1 := A1 + B1). set (D2 := A2 + B2).
    assert (P1 : 0 <= INR n * (4 * D1)) by (apply Rmult_le_pos; unfold D1; lra). assert (P2 : 0 <= INR n * (4 * D2)) by (apply Rmult_le_pos; unfold D2; lra).
    set (K' := K + Bf + Ml + Mj + Mq + INR n * (4 * D1) + INR n * (4 * D2)).
    assert (HK' : 0 <= K') by (unfold K'; lra).
    assert (Lift : forall M x, 0 <= M -> M <= K' -> 0 <= x -> M * x <= K' * x) by (intros M x HM HMK Hx; apply Rmult_le_compat_r; lra).
    exists K'. split; [split|split].
    - exact Ht.
    - lra.
    - exact HK'.
    - intros v w Hvw i Hi. unfold below in Hi. rewrite !HN by exact Hi. apply pev_ext. exact Hvw.
    - exact Hu.
    - intros t H. eapply vle_mono; [apply HuK; exact H|]. unfold K'. lra.
    - intros t H i Hi. unfold below in Hi. unfold fp. cbn [Nat.iter nat_rect]. rewrite HN by exact Hi. reflexivity.
    - intros k t i _ H Hi. unfold fp. apply (pev_der (Nat.iter k pD (E i))). exact H.
    - intros k t Hk H i Hi. unfold fp. assert (X := Gf k i ltac:(lia) Hi t H). unfold K'. lra.
    - intros t v w x H Hx Hv Hw Hvw i Hi. unfold csub. rewrite !HN by exact Hi.
      assert (T : forall y, vle n (csub y (u t)) 1 -> vle n y (K + 1)).
      { intros y Hy k Hk. specialize (Hy k Hk). unfold csub in Hy. assert (X := HuK t H k Hk). assert (Y := Cmod_triangle (y k - u t k)%C (u t k)).
        replace (y k - u t k + u t k)%C with (y k) in Y by ring. lra. }
      eapply Rle_trans; [apply (Gl i Hi v w x Hx (T v Hv) (T w Hw) Hvw)|]. apply Lift; try assumption. unfold K'. lra.
    - intros t H. split.
      + intros a b i Hi. unfold Jp. rewrite jac_add. reflexivity.
      + intros c a i Hi. unfold Jp. rewrite jac_rscal. reflexivity.
    - intros t H v x Hx Hv i Hi. unfold Jp. eapply Rle_trans; [apply (Gj i Hi (u t) v x Hx (HuK t H) Hv)|]. apply Lift; try assumption. unfold K'. lra.
    - intros t v x H Hx Hv i Hi. unfold Jp. change (csub (csub (N v) (N (u t))) (fun i => jac n (E i) (u t) (csub v (u t))) i) with (N v i - N (u t) i - jac n (E i) (u t) (csub v (u t)))%C.
      rewrite !HN by exact Hi. eapply Rle_trans; [apply (Gq i Hi (u t) v x Hx (HuK t H) Hv)|]. apply Lift; [assumption|unfold K'; lra|apply pow_le; lra].
    - intros s t Hs Ht' v x Hx Hv i Hi. unfold Jp, csub, jac.
      assert (Eq : (csum n (fun j => pev n (dA j (E i)) (u s) * v j + pev n (dB j (E i)) (u s) * Cconj (v j)) - csum n (fun j => pev n (dA j (E i)) (u t) * v j + pev n (dB j (E i)) (u t) * Cconj (v j)))%C
                 = csum n (fun j => (pev n (dA j (E i)) (u s) - pev n (dA j (E i)) (u t)) * v j + (pev n (dB j (E i)) (u s) - pev n (dB j (E i)) (u t)) * Cconj (v j))%C).
      { rewrite csum_minus. apply csum_ext. intros j _. ring. }
      rewrite Eq. assert (Pst := Rabs_pos (s - t)).
      eapply Rle_trans; [apply (pair_sum_bound (fun j => pev n (dA j (E i)) (u s) - pev n (dA j (E i)) (u t))%C (fun j => pev n (dB j (E i)) (u s) - pev n (dB j (E i)) (u t))%C v (2 * D1 * Rabs (s - t)) x Hx); [| |exact Hv]|].
      + intros j Hj. apply (along_lip (fun t => pev n (dA j (E i)) (u t)) (fun t => pev n (pD (dA j (E i))) (u t)) D1); try assumption.
        * intros r Hr. apply pev_der. exact Hr.
        * intros r Hr. assert (X := GA1 i j Hi Hj r Hr). unfold D1. lra.
      + intros j Hj. apply (along_lip (fun t => pev n (dB j (E i)) (u t)) (fun t => pev n (pD (dB j (E i))) (u t)) D1); try assumption.
        * intros r Hr. apply pev_der. exact Hr.
        * intros r Hr. assert (X := GB1 i j Hi Hj r Hr). unfold D1. lra.
      + replace (INR n * (2 * (2 * D1 * Rabs (s - t) * x))) with (INR n * (4 * D1) * (Rabs (s - t) * x)) by ring. replace (K' * Rabs (s - t) * x) with (K' * (Rabs (s - t) * x)) by ring. apply Lift; [exact P1|unfold K'; lra|apply Rmult_le_pos; assumption].
    - intros t H. split.
      + intros a b i Hi. unfold J1p, cadd. rewrite <- csum_plus. apply csum_ext. intros j _. rewrite Cconj_plus. ring.
      + intros c a i Hi. unfold J1p, cscal. rewrite <- csum_scal. apply csum_ext. intros j _. rewrite Cconj_mult.
        replace (Cconj (RtoC c)) with (RtoC c) by (unfold Cconj, RtoC; cbn; f_equal; ring). ring.
    - intros t H v x Hx Hv i Hi. unfold J1p.
      eapply Rle_trans; [apply (pair_sum_bound (fun j => pev n (pD (dA j (E i))) (u t)) (fun j => pev n (pD (dB j (E i))) (u t)) v D1 x Hx); [| |exact Hv]|].
      + intros j Hj. assert (X := GA1 i j Hi Hj t H). unfold D1. lra.
      + intros j Hj. assert (X := GB1 i j Hi Hj t H). unfold D1. lra.
      + apply Rle_trans with (INR n * (4 * D1) * x); [|apply Lift; [exact P1|unfold K'; lra|exact Hx]].
        replace (INR n * (2 * (D1 * x))) with (INR n * (2 * D1) * x) by ring. apply Rmult_le_compat_r; [exact Hx|]. apply Rmult_le_compat_l; [exact Pn|]. unfold D1. lra.
    - intros s t Hs Ht' v x Hx Hv i Hi. unfold Jp, J1p, csub, cscal, jac.
      match goal with |- Cmod (?a - ?b - ?c * ?d)%C <= _ =>
        assert (Eq : (a - b - c * d)%C = csum n (fun j => (pev n (dA j (E i)) (u s) - pev n (dA j (E i)) (u t) - RtoC (s - t) * pev n (pD (dA j (E i))) (u t)) * v j
                       + (pev n (dB j (E i)) (u s) - pev n (dB j (E i)) (u t) - RtoC (s - t) * pev n (pD (dB j (E i))) (u t)) * Cconj (v j))%C) end.
      { rewrite <- csum_scal, !csum_minus. apply csum_ext. intros j _. ring. }
      rewrite Eq. assert (Pst : 0 <= (s - t) ^ 2) by apply pow2_ge_0.
      eapply Rle_trans; [apply (pair_sum_bound (fun j => pev n (dA j (E i)) (u s) - pev n (dA j (E i)) (u t) - RtoC (s - t) * pev n (pD (dA j (E i))) (u t))%C
         (fun j => pev n (dB j (E i)) (u s) - pev n (dB j (E i)) (u t) - RtoC (s - t) * pev n (pD (dB j (E i))) (u t))%C v (2 * D2 * (s - t) ^ 2) x Hx); [| |exact Hv]|].
      + intros j Hj. apply (along_taylor (fun t => pev n (dA j (E i)) (u t)) (fun t => pev n (pD (dA j (E i))) (u t)) (fun t => pev n (pD (pD (dA j (E i)))) (u t)) D2); try assumption.
        * intros r Hr. apply pev_der. exact Hr.
        * intros r Hr. apply pev_der. exact Hr.
        * intros r Hr. assert (X := GA2 i j Hi Hj r Hr). unfold D2. lra.
      + intros j Hj. apply (along_taylor (fun t => pev n (dB j (E i)) (u t)) (fun t => pev n (pD (dB j (E i))) (u t)) (fun t => pev n (pD (pD (dB j (E i)))) (u t)) D2); try assumption.
        * intros r Hr. apply pev_der. exact Hr.
        * intros r Hr. apply pev_der. exact Hr.
        * intros r Hr. assert (X := GB2 i j Hi Hj r Hr). unfold D2. lra.
      + replace (INR n * (2 * (2 * D2 * (s - t) ^ 2 * x))) with (INR n * (4 * D2) * ((s - t) ^ 2 * x)) by ring. replace (K' * (s - t) ^ 2 * x) with (K' * ((s - t) ^ 2 * x)) by ring. apply Lift; [exact P2|unfold K'; lra|apply Rmult_le_pos; assumption].
  Qed.
End Solution.

(** Solutions of polynomial equations are smooth. *)
Theorem polynomial_smooth n q L (E : nat -> pexp) N t0 t1 u : (forall v i, (i < n)%nat -> N v i = pev n (E i) v) -> t0 < t1 ->
  (forall t i, t0 <= t <= t1 -> (i < n)%nat -> is_Cder (fun s => u s i) t (mdot n L (u t) i + N (u t) i)%C) ->
  exists rho K f J J1, smooth n q L N t0 t1 rho K u f J /\ Jsmooth n t0 t1 K J J1.
Proof.
  intros HN Ht Hu. destruct (u_bounded n L N t0 t1 Ht u Hu) as (K & HK & HuK).
  destruct (solution_smooth_K n L E N HN t0 t1 Ht u Hu K HK HuK q) as (K' & H1 & H2).
  exists 1, K', (fp n L E u), (Jp n E u), (J1p n L E u). exact (conj H1 H2).
Qed.
