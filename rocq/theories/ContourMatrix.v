(** * Contour sums with matrix resolvents

    Algebra and row-sum norms of [n] x [n] complex matrices, the sums
    [1/M sum_j r_j f(r_j) (r_j - z)^-1] used for matrix operators, and their distance from the
    power series of [f] at [z]. *)

From Coq Require Import ZArith Reals Lra Lia FunctionalExtensionality Arith Setoid Morphisms.
From Coquelicot Require Import Coquelicot.
From Verif Require Import Scalars Arrays CInst SpecPhi SpecRK SpecPoly SchemeIFReal ContourReal
     SchemeETDCoefs PropsETD.
Local Open Scope R_scope.

Notation cmat := (nat -> nat -> C).
Ltac rm1 := replace (RtoC (-1)) with (- RtoC 1)%C by (rewrite <- RtoC_opp; reflexivity).

(** ** Real sums *)
Lemma sumf_add n f g : sumf n (fun k => f k + g k) = sumf n f + sumf n g.
Proof. induction n as [|n IH]; cbn [sumf]; [lra|]. rewrite IH. lra. Qed.
Lemma sumf_mul n c f : sumf n (fun k => c * f k) = c * sumf n f.
Proof. induction n as [|n IH]; cbn [sumf]; [lra|]. rewrite IH. lra. Qed.
Lemma sumf_le n f g : (forall k, (k < n)%nat -> f k <= g k) -> sumf n f <= sumf n g.
Proof.
  induction n as [|n IH]; intros H; cbn [sumf]; [lra|].
  assert (sumf n f <= sumf n g) by (apply IH; intros; apply H; lia). assert (f n <= g n) by (apply H; lia). lra.
Qed.
Lemma sumf_nonneg n f : (forall k, (k < n)%nat -> 0 <= f k) -> 0 <= sumf n f.
Proof. intros H. induction n as [|n IH]; cbn [sumf]; [lra|]. assert (0 <= f n) by (apply H; lia). assert (0 <= sumf n f) by (apply IH; intros; apply H; lia). lra. Qed.
Lemma sumf_ge n f i : (forall k, (k < n)%nat -> 0 <= f k) -> (i < n)%nat -> f i <= sumf n f.
Proof.
  induction n as [|n IH]; intros H Hi; [lia|]. cbn [sumf].
  assert (0 <= f n) by (apply H; lia). assert (0 <= sumf n f) by (apply sumf_nonneg; intros; apply H; lia).
  destruct (Nat.eq_dec i n) as [->|]; [lra|]. assert (f i <= sumf n f) by (apply IH; [intros; apply H; lia|lia]). lra.
Qed.
Lemma sumf_swap2 n m f : sumf n (fun i => sumf m (fun j => f i j)) = sumf m (fun j => sumf n (fun i => f i j)).
Proof.
  induction n as [|n IH]; cbn [sumf].
  - symmetry. induction m as [|m IH]; cbn [sumf]; [reflexivity|]. rewrite IH. lra.
  - rewrite IH, <- sumf_add. reflexivity.
Qed.
Lemma sumf_const n c : sumf n (fun _ => c) = INR n * c.
Proof. induction n as [|n IH]; cbn [sumf]; [cbn; lra|]. rewrite IH, S_INR. lra. Qed.
Lemma Cmod_csum n f : Cmod (csum n f) <= sumf n (fun k => Cmod (f k)).
Proof.
  induction n as [|n IH]; cbn [csum sumf]; [rewrite Cmod_0; lra|].
  eapply Rle_trans; [apply Cmod_triangle|]. lra.
Qed.
Lemma csum_scal_right n c f : csum n (fun i => f i * c)%C = (csum n f * c)%C.
Proof. induction n as [|n IH]; cbn [csum]; [ring|]. rewrite IH. ring. Qed.
Lemma csum_const_c n c : csum n (fun _ => c) = (RtoC (INR n) * c)%C.
Proof. induction n as [|n IH]; cbn [csum]; [cbn; ring|]. rewrite IH, S_INR, RtoC_plus. ring. Qed.
Lemma csum_single n i (f : nat -> C) : (i < n)%nat -> (forall k, (k < n)%nat -> k <> i -> f k = 0) -> csum n f = f i.
Proof.
  induction n as [|n IH]; intros Hi H; [lia|]. cbn [csum]. destruct (Nat.eq_dec i n) as [->|Hn].
  - rewrite csum_0; [ring|]. intros k Hk. apply H; lia.
  - rewrite IH by (try lia; intros; apply H; lia). rewrite (H n) by lia. ring.
Qed.

Section Algebra.
  Variable n : nat.

  #[global] Instance meq_equiv : Equivalence (meq n).
  Proof.
    split.
    - intros a i j _ _. reflexivity.
    - intros a b H i j Hi Hj. symmetry. apply H; assumption.
    - intros a b c H1 H2 i j Hi Hj. rewrite H1 by assumption. apply H2; assumption.
  Qed.
  #[global] Instance mprod_proper : Proper (meq n ==> meq n ==> meq n) (mprod n).
  Proof.
    intros a a' Ha b b' Hb i j Hi Hj. apply csum_ext. intros k Hk. rewrite Ha, Hb by assumption. reflexivity.
  Qed.
  Definition mplus (a b : cmat) : cmat := fun i j => (a i j + b i j)%C.
  Definition mtimes (c : C) (a : cmat) : cmat := fun i j => (c * a i j)%C.
  Definition mminus (a b : cmat) : cmat := fun i j => (a i j - b i j)%C.
  #[global] Instance mplus_proper : Proper (meq n ==> meq n ==> meq n) mplus.
  Proof. intros a a' Ha b b' Hb i j Hi Hj. unfold mplus. rewrite Ha, Hb by assumption. reflexivity. Qed.
  #[global] Instance mminus_proper : Proper (meq n ==> meq n ==> meq n) mminus.
  Proof. intros a a' Ha b b' Hb i j Hi Hj. unfold mminus. rewrite Ha, Hb by assumption. reflexivity. Qed.
  #[global] Instance mtimes_proper : Proper (eq ==> meq n ==> meq n) mtimes.
  Proof. intros c c' -> b b' Hb i j Hi Hj. unfold mtimes. rewrite Hb by assumption. reflexivity. Qed.

  Lemma mprod_assoc a b c : meq n (mprod n (mprod n a b) c) (mprod n a (mprod n b c)).
  Proof.
    intros i j _ _. unfold mprod.
    transitivity (csum n (fun k => csum n (fun l => (a i l * b l k * c k j)%C))).
    - apply csum_ext. intros k _. rewrite <- csum_scal_right. reflexivity.
    - rewrite csum_swap. apply csum_ext. intros l _. rewrite <- csum_scal. apply csum_ext. intros. ring.
  Qed.
  Lemma mprod_ident_l a : meq n (mprod n mident a) a.
  Proof.
    intros i j Hi _. unfold mprod. rewrite (csum_single n i _ Hi).
    - unfold mident. rewrite Nat.eqb_refl. ring.
    - intros k _ Hk. unfold mident. destruct (Nat.eqb_spec i k); [congruence|]. ring.
  Qed.
  Lemma mprod_ident_r a : meq n (mprod n a mident) a.
  Proof.
    intros i j _ Hj. unfold mprod. rewrite (csum_single n j _ Hj).
    - unfold mident. rewrite Nat.eqb_refl. ring.
    - intros k _ Hk. unfold mident. destruct (Nat.eqb_spec k j); [congruence|]. ring.
  Qed.
  Lemma mprod_plus_r a b c : meq n (mprod n a (mplus b c)) (mplus (mprod n a b) (mprod n a c)).
  Proof. intros i j _ _. unfold mprod, mplus. rewrite <- csum_plus. apply csum_ext. intros. ring. Qed.
  Lemma mprod_plus_l a b c : meq n (mprod n (mplus a b) c) (mplus (mprod n a c) (mprod n b c)).
  Proof. intros i j _ _. unfold mprod, mplus. rewrite <- csum_plus. apply csum_ext. intros. ring. Qed.
  Lemma mprod_times_r x a b : meq n (mprod n a (mtimes x b)) (mtimes x (mprod n a b)).
  Proof. intros i j _ _. unfold mprod, mtimes. rewrite <- csum_scal. apply csum_ext. intros. ring. Qed.
  Lemma mprod_times_l x a b : meq n (mprod n (mtimes x a) b) (mtimes x (mprod n a b)).
  Proof. intros i j _ _. unfold mprod, mtimes. rewrite <- csum_scal. apply csum_ext. intros. ring. Qed.
  Lemma mprod_minus_l a b c : meq n (mprod n (mminus a b) c) (mminus (mprod n a c) (mprod n b c)).
  Proof.
    intros i j _ _. unfold mprod, mminus.
    transitivity (csum n (fun k => (a i k * c k j + RtoC (-1) * (b i k * c k j))%C)).
    - apply csum_ext. intros. rm1. ring.
    - rewrite csum_plus, csum_scal. rm1. ring.
  Qed.
  Lemma mprod_minus_r a b c : meq n (mprod n a (mminus b c)) (mminus (mprod n a b) (mprod n a c)).
  Proof.
    intros i j _ _. unfold mprod, mminus.
    transitivity (csum n (fun k => (a i k * b k j + RtoC (-1) * (a i k * c k j))%C)).
    - apply csum_ext. intros. rm1. ring.
    - rewrite csum_plus, csum_scal. rm1. ring.
  Qed.

  (** Powers and polynomials. *)
  Fixpoint mpow (z : cmat) (k : nat) : cmat :=
    match k with O => mident | S k => mprod n z (mpow z k) end.
  Definition mpoly (z : cmat) (a : nat -> C) (m : nat) : cmat := fun i j => csum m (fun k => (a k * mpow z k i j)%C).

  Lemma mpow_ext z z' k : meq n z z' -> meq n (mpow z k) (mpow z' k).
  Proof. intros H. induction k as [|k IH]; cbn [mpow]; [reflexivity|]. apply mprod_proper; assumption. Qed.
  Lemma mpoly_S z a m : meq n (mpoly z a (S m)) (mplus (mpoly z a m) (mtimes (a m) (mpow z m))).
  Proof. intros i j _ _. reflexivity. Qed.
  Lemma mpow_comm z k : meq n (mprod n z (mpow z k)) (mprod n (mpow z k) z).
  Proof.
    induction k as [|k IH]; cbn [mpow].
    - rewrite mprod_ident_l, mprod_ident_r. reflexivity.
    - rewrite IH at 1. rewrite mprod_assoc. reflexivity.
  Qed.

  (** Inverses. *)
  Definition is_inv (m q : cmat) : Prop := meq n (mprod n m q) mident /\ meq n (mprod n q m) mident.

  (** [w I - z]. *)
  Definition shift (w : C) (z : cmat) : cmat := mminus (mtimes w mident) z.

  (** [(w - z)^-1 (w^m - z^m) = sum_(k<m) w^(m-1-k) z^k]. *)
  Lemma resolvent_powers w z q m : is_inv (shift w z) q ->
    meq n (mprod n q (mminus (mtimes (cpow w m) mident) (mpow z m)))
          (fun i j => csum m (fun k => (cpow w (m - 1 - k) * mpow z k i j)%C)).
  Proof.
    intros [_ Hq]. induction m as [|m IH].
    - intros i j Hi Hj. unfold mprod. apply csum_0. intros k Hk. unfold mminus, mtimes. cbn [cpow mpow]. ring.
    - assert (E : meq n (mminus (mtimes (cpow w (S m)) mident) (mpow z (S m)))
                    (mplus (mtimes w (mminus (mtimes (cpow w m) mident) (mpow z m))) (mprod n (shift w z) (mpow z m)))).
      { unfold shift. rewrite mprod_minus_l, mprod_times_l, mprod_ident_l. intros i j _ _.
        unfold mplus, mtimes, mminus. cbn [cpow mpow]. ring. }
      rewrite E, mprod_plus_r, mprod_times_r, IH, <- mprod_assoc, Hq, mprod_ident_l.
      intros i j Hi Hj. unfold mplus, mtimes. cbn [csum]. rewrite Nat.sub_succ, Nat.sub_0_r, Nat.sub_diag. cbn [cpow].
      rewrite <- csum_scal. f_equal; [|ring]. apply csum_ext. intros k Hk.
      replace (m - k)%nat with (S (m - 1 - k)) by lia. cbn [cpow]. ring.
  Qed.

  (** Row sums. *)
  Definition rown (m : cmat) (i : nat) : R := sumf n (fun j => Cmod (m i j)).
  Lemma rown_nonneg m i : 0 <= rown m i.
  Proof. apply sumf_nonneg. intros. apply Cmod_ge_0. Qed.
  Lemma rown_ext a b i : meq n a b -> (i < n)%nat -> rown a i = rown b i.
  Proof. intros H Hi. apply sumf_ext. intros j Hj. rewrite H by assumption. reflexivity. Qed.
  Lemma rown_plus a b i : rown (mplus a b) i <= rown a i + rown b i.
  Proof. unfold rown. rewrite <- sumf_add. apply sumf_le. intros. apply Cmod_triangle. Qed.
  Lemma rown_times c a i : rown (mtimes c a) i = Cmod c * rown a i.
  Proof. unfold rown. rewrite <- sumf_mul. apply sumf_ext. intros. apply Cmod_mult. Qed.
  Lemma rown_minus a b i : rown (mminus a b) i <= rown a i + rown b i.
  Proof.
    unfold rown. rewrite <- sumf_add. apply sumf_le. intros. unfold mminus, Cminus.
    eapply Rle_trans; [apply Cmod_triangle|]. rewrite Cmod_opp. lra.
  Qed.
  Lemma rown_ident i : (i < n)%nat -> rown mident i = 1.
  Proof.
    intros Hi. unfold rown. transitivity (Cmod (mident i i)).
    - apply (sumf_one n (fun j => Cmod (mident i j)) i Hi). intros k _ Hk. unfold mident. destruct (Nat.eqb_spec i k); [congruence|]. apply Cmod_0.
    - unfold mident. rewrite Nat.eqb_refl. apply Cmod_1.
  Qed.
  Lemma rown_prod a b i x : (forall k, (k < n)%nat -> rown b k <= x) -> rown (mprod n a b) i <= rown a i * x.
  Proof.
    intros H. unfold rown, mprod.
    eapply Rle_trans; [apply sumf_le; intros j _; apply Cmod_csum|].
    rewrite sumf_swap2, Rmult_comm, <- sumf_mul. apply sumf_le. intros k Hk.
    rewrite (sumf_ext n _ (fun j => Cmod (a i k) * Cmod (b k j))) by (intros; apply Cmod_mult).
    rewrite sumf_mul. assert (G := H k Hk). assert (P := Cmod_ge_0 (a i k)). unfold rown in G. nra.
  Qed.
  Lemma rown_pow z x k i : (forall i, (i < n)%nat -> rown z i <= x) -> (i < n)%nat -> rown (mpow z k) i <= x ^ k.
  Proof.
    intros H. revert i. induction k as [|k IH]; intros i Hi; cbn [mpow pow].
    - rewrite rown_ident by exact Hi. lra.
    - eapply Rle_trans; [apply (rown_prod _ _ _ (x ^ k)); exact IH|].
      assert (0 <= x ^ k) by (eapply Rle_trans; [apply (rown_nonneg (mpow z k) i)|apply IH; exact Hi]).
      assert (G := H i Hi). nra.
  Qed.
  Lemma rown_csum m (f : nat -> cmat) i : rown (fun i j => csum m (fun k => f k i j)) i <= sumf m (fun k => rown (f k) i).
  Proof. unfold rown. rewrite sumf_swap2. apply sumf_le. intros j _. apply Cmod_csum. Qed.
  Lemma rown_mpoly z a m x i : (forall i, (i < n)%nat -> rown z i <= x) -> (i < n)%nat ->
    rown (mpoly z a m) i <= sumf m (fun k => Cmod (a k) * x ^ k).
  Proof.
    intros H Hi. unfold mpoly. eapply Rle_trans; [apply (rown_csum m (fun k i j => (a k * mpow z k i j)%C))|].
    apply sumf_le. intros k _. change (rown (mtimes (a k) (mpow z k)) i <= Cmod (a k) * x ^ k).
    rewrite rown_times. apply Rmult_le_compat_l; [apply Cmod_ge_0|]. apply rown_pow; assumption.
  Qed.
  Lemma entry_rown m i j : (j < n)%nat -> Cmod (m i j) <= rown m i.
  Proof. intros Hj. apply (sumf_ge n (fun j => Cmod (m i j))); [|exact Hj]. intros. apply Cmod_ge_0. Qed.
End Algebra.

(** ** Contour sums *)
Section Contour.
  Variable cfg : etdcfg Rops.
  Notation M := (contour_points cfg).
  Notation Rad := (contour_radius cfg : R).
  Notation r := (rho cfg).
  Variable n : nat.

  (** [1/M sum_l r_l f(r_l) Q_l]. *)
  Definition contour (f : C -> C) (Q : nat -> cmat) : cmat :=
    fun i j => (csum M (fun l => r l * f (r l) * Q l i j) / RtoC (INR M))%C.
  (** [R^M] times the coefficient of [x^k] of the polynomial that interpolates [f] at the nodes. *)
  Definition dcoef (f : C -> C) (k : nat) : C :=
    (- csum M (fun l => f (r l) * cpow (r l) (M - k)) / RtoC (INR M))%C.

  Hypothesis HM : (0 < M)%nat.
  Let HMR : INR M <> 0.
  Proof. apply not_0_INR. lia. Qed.
  Let HMC : RtoC (INR M) <> 0.
  Proof. apply C2_neq. exact HMR. Qed.

  (** [R^M I + z^M]. *)
  Definition damp (z : cmat) : cmat := mplus (mtimes (cpow (RtoC Rad) M) mident) (mpow n z M).

  (** For every function [f] and every matrix [z]. *)
  Theorem contour_identity (z : cmat) (Q : nat -> cmat) (f : C -> C) :
    (forall l, (l < M)%nat -> is_inv n (shift (r l) z) (Q l)) ->
    meq n (mprod n (contour f Q) (damp z)) (mpoly n z (dcoef f) M).
  Proof.
    intros HQ i j Hi Hj.
    assert (E : forall l, (l < M)%nat -> mprod n (Q l) (damp z) i j
                = (- csum M (fun k => cpow (r l) (M - 1 - k) * mpow n z k i j))%C).
    { intros l Hl. rewrite <- (resolvent_powers n (r l) z (Q l) M (HQ l Hl) i j Hi Hj).
      unfold mprod. transitivity ((- RtoC 1) * csum n (fun k => (Q l i k * mminus (mtimes (cpow (r l) M) mident) (mpow n z M) k j)%C))%C; [|ring].
      rewrite <- csum_scal. apply csum_ext. intros k _. unfold damp, mplus, mminus, mtimes. rewrite rho_pow_M by exact HM. ring. }
    transitivity (csum M (fun l => r l * f (r l) * mprod n (Q l) (damp z) i j) / RtoC (INR M))%C.
    { unfold mprod at 1. unfold contour.
      transitivity (csum n (fun k => csum M (fun l => (r l * f (r l) * Q l i k) * damp z k j)) / RtoC (INR M))%C.
      - unfold Cdiv. rewrite <- csum_scal_right. apply csum_ext. intros k _. rewrite csum_scal_right. ring.
      - f_equal. rewrite csum_swap. apply csum_ext. intros l _. unfold mprod. rewrite <- csum_scal. apply csum_ext. intros. ring. }
    rewrite (csum_ext M _ (fun l => csum M (fun k => (- (f (r l) * cpow (r l) (M - k)) * mpow n z k i j)%C))).
    2: { intros l Hl. rewrite (E l Hl).
         transitivity ((- (r l * f (r l))) * csum M (fun k => cpow (r l) (M - 1 - k) * mpow n z k i j))%C; [ring|].
         rewrite <- csum_scal. apply csum_ext. intros k Hk.
         replace (M - k)%nat with (S (M - 1 - k)) by lia. cbn [cpow]. ring. }
    rewrite csum_swap. unfold mpoly, Cdiv. rewrite <- csum_scal_right. apply csum_ext. intros k _.
    unfold dcoef. rewrite csum_scal_right.
    rewrite (csum_ext M (fun l => (- (f (r l) * cpow (r l) (M - k)))%C) (fun l => ((- RtoC 1) * (f (r l) * cpow (r l) (M - k)))%C)) by (intros; ring).
    rewrite csum_scal. unfold Cdiv. ring.
  Qed.

  (** Polynomials of degree below [M] are reproduced. *)
  Lemma dcoef_poly (a : nat -> C) k : (k < M)%nat ->
    dcoef (fun w => csum M (fun l => (a l * cpow w l)%C)) k = (cpow (RtoC Rad) M * a k)%C.
  Proof.
    intros Hk. unfold dcoef.
    assert (E : csum M (fun l => (csum M (fun m => a m * cpow (r l) m) * cpow (r l) (M - k))%C)
                = (- (RtoC (INR M) * (cpow (RtoC Rad) M * a k)))%C).
    { rewrite (csum_ext M _ (fun l => csum M (fun m => (a m * cpow (r l) (m + (M - k)))%C))).
      2: { intros l _. rewrite <- csum_scal_right. apply csum_ext. intros m _. rewrite cpow_add. ring. }
      rewrite csum_swap. rewrite (csum_single M k _ Hk).
      - rewrite csum_scal. replace (k + (M - k))%nat with M by lia.
        rewrite (csum_ext M _ (fun _ => (- cpow (RtoC Rad) M)%C)) by (intros; apply rho_pow_M; exact HM).
        rewrite csum_const_c. ring.
      - intros m Hm Hmk. rewrite csum_scal.
        destruct (Nat.lt_ge_cases (m + (M - k)) M) as [Hlt|Hge].
        + rewrite rho_pow_sum by lia. ring.
        + rewrite (csum_ext M _ (fun l => ((- cpow (RtoC Rad) M) * cpow (r l) (m - k))%C)).
          * rewrite csum_scal, rho_pow_sum by lia. ring.
          * intros l _. replace (m + (M - k))%nat with (M + (m - k))%nat by lia.
            rewrite cpow_add, rho_pow_M by exact HM. reflexivity. }
    rewrite E. field. exact HMC.
  Qed.

  Theorem contour_poly (z : cmat) (Q : nat -> cmat) (a : nat -> C) :
    (forall l, (l < M)%nat -> is_inv n (shift (r l) z) (Q l)) ->
    meq n (mprod n (contour (fun w => csum M (fun l => (a l * cpow w l)%C)) Q) (damp z))
          (mtimes (cpow (RtoC Rad) M) (mpoly n z a M)).
  Proof.
    intros HQ. rewrite contour_identity by exact HQ. intros i j _ _. unfold mpoly, mtimes. rewrite <- csum_scal.
    apply csum_ext. intros k Hk. rewrite dcoef_poly by exact Hk. ring.
  Qed.

  Lemma dcoef_bound f k b : (k <= M)%nat -> (forall l, (l < M)%nat -> Cmod (f (r l)) <= b) ->
    Cmod (dcoef f k) <= b * Rabs Rad ^ (M - k).
  Proof.
    intros Hk H. unfold dcoef. rewrite Cmod_div by exact HMC. rewrite Cmod_opp, Cmod_R, Rabs_pos_eq by apply pos_INR.
    assert (HMp : 0 < INR M) by (apply lt_0_INR; exact HM).
    apply Rmult_le_reg_r with (INR M); [exact HMp|]. unfold Rdiv. rewrite Rmult_assoc, Rinv_l, Rmult_1_r by exact HMR.
    rewrite (Rmult_comm _ (INR M)). apply csum_norm_const. intros l Hl.
    rewrite Cmod_mult, Cmod_cpow, Cmod_rho by exact HM. apply Rmult_le_compat_r; [apply pow_le, Rabs_pos|]. apply H. exact Hl.
  Qed.
  Lemma dcoef_minus f g k : dcoef (fun w => (f w - g w)%C) k = (dcoef f k - dcoef g k)%C.
  Proof.
    unfold dcoef. rewrite (csum_ext M _ (fun l => (f (r l) * cpow (r l) (M - k) + (- RtoC 1) * (g (r l) * cpow (r l) (M - k)))%C)) by (intros; ring).
    rewrite csum_plus, csum_scal. field. exact HMC.
  Qed.
End Contour.

(** ** Power series of psi *)

(** [psi_r(w) = sum_k r!/(k+r)! w^k] ([psi_0] is the exponential). *)
Definition pcoef (r k : nat) : R := INR (fact r) / INR (fact (k + r)).

Lemma fact_mul_le a b : (fact a * fact b <= fact (a + b))%nat.
Proof.
  induction a as [|a IH]; [cbn; lia|]. cbn [Nat.add]. change (fact (S a)) with (S a * fact a)%nat.
  change (fact (S (a + b))) with (S (a + b) * fact (a + b))%nat. nia.
Qed.
Lemma pcoef_le r k : 0 <= pcoef r k <= / INR (fact k).
Proof.
  unfold pcoef. assert (P := INR_fact_lt_0 r). assert (Pk := INR_fact_lt_0 k). assert (Pr := INR_fact_lt_0 (k + r)).
  split; [apply Rmult_le_pos; [lra|left; apply Rinv_0_lt_compat; lra]|].
  apply Rmult_le_reg_r with (INR (fact (k + r)) * INR (fact k)); [nra|].
  replace (INR (fact r) / INR (fact (k + r)) * (INR (fact (k + r)) * INR (fact k))) with (INR (fact r) * INR (fact k)) by (field; lra).
  replace (/ INR (fact k) * (INR (fact (k + r)) * INR (fact k))) with (INR (fact (k + r))) by (field; lra).
  rewrite <- mult_INR. apply le_INR. rewrite Nat.mul_comm. apply fact_mul_le.
Qed.

Lemma phi_exp_rem k w : (cpow w k * phi k w = exp_rem k w)%C.
Proof.
  induction k as [|k IH].
  - unfold exp_rem. cbn [cpow csum phi]. ring.
  - cbn [cpow]. replace (w * cpow w k * phi (S k) w)%C with (cpow w k * (w * phi (S k) w))%C by ring.
    rewrite phi_rec. unfold exp_rem in *. cbn [csum].
    replace (cpow w k * (phi k w - RtoC (/ INR (fact k))))%C
      with (cpow w k * phi k w - cpow w k * RtoC (/ INR (fact k)))%C by ring.
    rewrite IH. ring.
Qed.
Lemma phi_taylor k m (w : C) : w <> 0 ->
  Cmod (phi k w - csum m (fun l => RtoC (/ INR (fact (l + k))) * cpow w l))%C <= Cmod w ^ m / INR (fact (m + k)) * exp (Cmod w).
Proof.
  intros Hw.
  assert (E : (cpow w k * (phi k w - csum m (fun l => RtoC (/ INR (fact (l + k))) * cpow w l)))%C = exp_rem (m + k) w).
  { induction m as [|m IH].
    - cbn [csum Nat.add]. rewrite <- phi_exp_rem. ring.
    - cbn [csum Nat.add]. transitivity (exp_rem (m + k) w - cpow w (m + k) * RtoC (/ INR (fact (m + k))))%C.
      + rewrite <- IH, cpow_add. ring.
      + unfold exp_rem. cbn [csum]. ring. }
  assert (B := exp_rem_bound (m + k) w). rewrite <- E, Cmod_mult, Cmod_cpow in B.
  assert (P : 0 < Cmod w ^ k) by (apply pow_lt, Cmod_gt_0, Hw).
  apply Rmult_le_reg_l with (Cmod w ^ k); [exact P|]. eapply Rle_trans; [exact B|]. rewrite pow_add. right. field.
  apply INR_fact_neq_0.
Qed.
Lemma psi_taylor k m (w : C) : (1 <= k <= 3)%nat -> w <> 0 ->
  Cmod (psi_code k w - csum m (fun l => RtoC (pcoef k l) * cpow w l))%C <= Cmod w ^ m / INR (fact m) * exp (Cmod w).
Proof.
  intros Hk Hw. rewrite psi_code_phi by assumption.
  assert (E : csum m (fun l => RtoC (pcoef k l) * cpow w l)%C
              = (RtoC (INR (fact k)) * csum m (fun l => RtoC (/ INR (fact (l + k))) * cpow w l))%C).
  { rewrite <- csum_scal. apply csum_ext. intros l _. unfold pcoef, Rdiv. rewrite RtoC_mult. ring. }
  rewrite E. replace (RtoC (INR (fact k)) * phi k w - RtoC (INR (fact k)) * csum m (fun l => RtoC (/ INR (fact (l + k))) * cpow w l))%C
    with (RtoC (INR (fact k)) * (phi k w - csum m (fun l => RtoC (/ INR (fact (l + k))) * cpow w l)))%C by ring.
  rewrite Cmod_mult, Cmod_R, Rabs_pos_eq by apply pos_INR.
  eapply Rle_trans; [apply Rmult_le_compat_l; [apply pos_INR|apply phi_taylor; exact Hw]|].
  replace (INR (fact k) * (Cmod w ^ m / INR (fact (m + k)) * exp (Cmod w)))
    with (pcoef k m * (Cmod w ^ m * exp (Cmod w))) by (unfold pcoef; field; apply INR_fact_neq_0).
  replace (Cmod w ^ m / INR (fact m) * exp (Cmod w)) with (/ INR (fact m) * (Cmod w ^ m * exp (Cmod w))) by (field; apply INR_fact_neq_0).
  apply Rmult_le_compat_r; [|apply pcoef_le].
  apply Rmult_le_pos; [apply pow_le, Cmod_ge_0|left; apply exp_pos].
Qed.

(** Real partial sums. *)
Lemma exp_partial x m : 0 <= x -> sumf m (fun k => / INR (fact k) * x ^ k) <= exp x.
Proof.
  intros Hx. destruct m as [|m]; [cbn; left; apply exp_pos|].
  eapply Rle_trans; [|apply (exp_ge_taylor x m Hx)]. right.
  induction m as [|m IH]; cbn [sumf sum_f_R0].
  - cbn. lra.
  - cbn [sumf] in IH. rewrite IH. lra.
Qed.
Lemma exp_tail x m p : 0 <= x -> sumf p (fun k => / INR (fact (m + k)) * x ^ (m + k)) <= x ^ m / INR (fact m) * exp x.
Proof.
  intros Hx. eapply Rle_trans; [|apply Rmult_le_compat_l; [|apply (exp_partial x p Hx)]].
  2: { apply Rmult_le_pos; [apply pow_le; lra|left; apply Rinv_0_lt_compat, INR_fact_lt_0]. }
  rewrite <- sumf_mul. apply sumf_le. intros k _. rewrite pow_add.
  assert (Pm := INR_fact_lt_0 m). assert (Pk := INR_fact_lt_0 k). assert (Pmk := INR_fact_lt_0 (m + k)).
  assert (0 <= x ^ m) by (apply pow_le; lra). assert (0 <= x ^ k) by (apply pow_le; lra).
  replace (x ^ m / INR (fact m) * (/ INR (fact k) * x ^ k)) with (/ (INR (fact m) * INR (fact k)) * (x ^ m * x ^ k)) by (field; lra).
  apply Rmult_le_compat_r; [nra|]. apply Rinv_le_contravar; [nra|]. rewrite <- mult_INR. apply le_INR, fact_mul_le.
Qed.

Section Series.
  Variable n : nat.
  (** Partial sums of [psi_r(z)] for a matrix [z]. *)
  Definition psum (r : nat) (z : cmat) (m : nat) : cmat := mpoly n z (fun k => RtoC (pcoef r k)) m.
  (** [P] is the sum of the series, entry by entry. *)
  Definition is_psi (r : nat) (z P : cmat) : Prop :=
    forall i j, (i < n)%nat -> (j < n)%nat -> forall eps : R, 0 < eps ->
      exists K, forall m, (K <= m)%nat -> Cmod (psum r z m i j - P i j)%C < eps.

  Variable z : cmat.
  Variable x : R.
  Hypothesis Hx : 0 <= x.
  Hypothesis Hz : forall i, (i < n)%nat -> rown n z i <= x.

  Lemma psum_tail r m p i : (i < n)%nat ->
    rown n (mminus (psum r z (m + p)) (psum r z m)) i <= x ^ m / INR (fact m) * exp x.
  Proof.
    intros Hi. eapply Rle_trans; [|apply (exp_tail x m p Hx)].
    rewrite (rown_ext n _ (fun i j => csum p (fun k => (RtoC (pcoef r (m + k)) * mpow n z (m + k) i j)%C))); [|intros i' j' _ _|exact Hi].
    - eapply Rle_trans; [apply (rown_csum n p (fun k i j => (RtoC (pcoef r (m + k)) * mpow n z (m + k) i j)%C))|].
      apply sumf_le. intros k _.
      change (rown n (mtimes (RtoC (pcoef r (m + k))) (mpow n z (m + k))) i <= / INR (fact (m + k)) * x ^ (m + k)).
      rewrite rown_times, Cmod_R, Rabs_pos_eq by apply pcoef_le.
      apply Rmult_le_compat; [apply pcoef_le|apply rown_nonneg|apply pcoef_le|apply rown_pow; assumption].
    - unfold mminus, psum, mpoly. induction p as [|p IH]; [rewrite Nat.add_0_r; cbn [csum]; ring|].
      rewrite Nat.add_succ_r. cbn [csum]. rewrite <- IH. ring.
  Qed.
  Lemma rown_lim (A : nat -> cmat) (P : cmat) b i :
    (forall j, (j < n)%nat -> forall eps : R, 0 < eps -> exists K, forall m, (K <= m)%nat -> Cmod (A m i j - P i j)%C < eps) ->
    (forall m, rown n (A m) i <= b) -> rown n P i <= b.
  Proof.
    intros HA Hb. apply le_epsilon. intros eps He.
    assert (G : forall q, (q <= n)%nat -> exists K, forall m, (K <= m)%nat -> sumf q (fun j => Cmod (P i j)) <= sumf q (fun j => Cmod (A m i j)) + INR q * (eps / INR (S n))).
    { induction q as [|q IH]; intros Hq; [exists O; intros; cbn; lra|].
      destruct (IH ltac:(lia)) as [K1 H1].
      assert (Pn : 0 < INR (S n)) by (apply lt_0_INR; lia).
      destruct (HA q ltac:(lia) (eps / INR (S n)) ltac:(apply Rdiv_lt_0_compat; assumption)) as [K2 H2].
      exists (max K1 K2). intros m Hm. cbn [sumf]. assert (G1 := H1 m ltac:(lia)). assert (G2 := H2 m ltac:(lia)).
      rewrite S_INR.
      assert (Cmod (P i q) <= Cmod (A m i q) + Cmod (A m i q - P i q)%C).
      { replace (P i q) with (A m i q + - (A m i q - P i q))%C at 1 by ring. eapply Rle_trans; [apply Cmod_triangle|]. rewrite Cmod_opp. lra. }
      lra. }
    destruct (G n (le_n n)) as [K HK]. specialize (HK K (le_n K)). specialize (Hb K). unfold rown in *.
    assert (INR n * (eps / INR (S n)) <= eps).
    { assert (Pn : 0 < INR (S n)) by (apply lt_0_INR; lia). apply Rmult_le_reg_r with (INR (S n)); [exact Pn|].
      replace (INR n * (eps / INR (S n)) * INR (S n)) with (INR n * eps) by (field; lra). rewrite S_INR. nra. }
    lra.
  Qed.
  Lemma psi_tail r P m i : is_psi r z P -> (i < n)%nat ->
    rown n (mminus P (psum r z m)) i <= x ^ m / INR (fact m) * exp x.
  Proof.
    intros HP Hi. apply (rown_lim (fun p => mminus (psum r z (m + p)) (psum r z m))).
    - intros j Hj eps He. destruct (HP i j Hi Hj eps He) as [K HK]. exists K. intros p Hp. unfold mminus.
      replace (psum r z (m + p) i j - psum r z m i j - (P i j - psum r z m i j))%C with (psum r z (m + p) i j - P i j)%C by ring.
      apply HK. lia.
    - intros p. apply psum_tail. exact Hi.
  Qed.
  Lemma psi_norm r P i : is_psi r z P -> (i < n)%nat -> rown n P i <= exp x.
  Proof.
    intros HP Hi. assert (G := psi_tail r P 0 i HP Hi). cbn [pow fact INR] in G. 
    rewrite (rown_ext n P (mminus P (psum r z 0))); [lra|intros ? ? _ _; unfold mminus, psum, mpoly; cbn; ring|exact Hi].
  Qed.
End Series.

(** ** Accuracy of the contour sums *)

(** Bound for a matrix of norm at most [x < R]. *)
Definition merr (cfg : etdcfg Rops) (x : R) : R :=
  let M := contour_points cfg in let Rad := contour_radius cfg : R in
  (x ^ M / INR (fact M) * exp x + INR M * (Rad ^ M / INR (fact M) * exp Rad) + (x / Rad) ^ M * exp x)
  / (1 - (x / Rad) ^ M).

Section Accuracy.
  Variable cfg : etdcfg Rops.
  Notation M := (contour_points cfg).
  Notation Rad := (contour_radius cfg : R).
  Notation r := (rho cfg).
  Hypothesis HM : (0 < M)%nat.
  Hypothesis HR : 0 < Rad.

  Lemma rho_neq l : r l <> 0.
  Proof. intros E. assert (G := Cmod_rho cfg HM l). rewrite E, Cmod_0, Rabs_pos_eq in G by lra. lra. Qed.

  (** The part of [psi_k] that the interpolation does not see. *)
  Definition prem (k : nat) (w : C) : C := (psi_code k w - csum M (fun l => RtoC (pcoef k l) * cpow w l))%C.
  Definition rembound : R := Rad ^ M / INR (fact M) * exp Rad.
  Lemma prem_bound k l : (1 <= k <= 3)%nat -> Cmod (prem k (r l)) <= rembound.
  Proof.
    intros Hk. eapply Rle_trans; [apply psi_taylor; [exact Hk|apply rho_neq]|].
    rewrite Cmod_rho by exact HM. rewrite Rabs_pos_eq by lra. unfold rembound. lra.
  Qed.
  Lemma dcoef_psi k m : (m < M)%nat ->
    dcoef cfg (psi_code k) m = (cpow (RtoC Rad) M * RtoC (pcoef k m) + dcoef cfg (prem k) m)%C.
  Proof.
    intros Hm. unfold prem. rewrite dcoef_minus by exact HM. rewrite (dcoef_poly cfg HM (fun l => RtoC (pcoef k l)) m Hm). ring.
  Qed.
  Lemma rembound_pos : 0 <= rembound.
  Proof.
    unfold rembound. apply Rmult_le_pos; [|left; apply exp_pos].
    apply Rmult_le_pos; [apply pow_le; lra|left; apply Rinv_0_lt_compat, INR_fact_lt_0].
  Qed.
  Lemma pow_ratio_lt x : 0 <= x < Rad -> 0 <= (x / Rad) ^ M < 1.
  Proof.
    intros Hx. assert (0 <= x / Rad) by (apply Rmult_le_pos; [lra|left; apply Rinv_0_lt_compat; lra]).
    split; [apply pow_le; lra|]. apply pow_lt_1_compat; [|exact HM]. split; [lra|].
    apply Rmult_lt_reg_r with Rad; [lra|]. unfold Rdiv. rewrite Rmult_assoc, Rinv_l by lra. lra.
  Qed.
  Lemma merr_pos x : 0 <= x < Rad -> 0 <= merr cfg x.
  Proof.
    intros Hx. assert (B := pow_ratio_lt x Hx). unfold merr. fold rembound.
    apply Rmult_le_pos; [|left; apply Rinv_0_lt_compat; lra].
    assert (P := rembound_pos). assert (Q := pos_INR M). assert (E := exp_pos x).
    assert (0 <= x ^ M / INR (fact M)) by (apply Rmult_le_pos; [apply pow_le; lra|left; apply Rinv_0_lt_compat, INR_fact_lt_0]).
    assert (0 <= x ^ M / INR (fact M) * exp x) by nra. assert (0 <= INR M * rembound) by nra.
    assert (0 <= (x / Rad) ^ M * exp x) by nra. lra.
  Qed.

  Section OneMatrix.
    Variable n : nat.
    Variable z : cmat.
    Variable Q : nat -> cmat.
    Hypothesis HQ : forall l, (l < M)%nat -> is_inv n (shift (r l) z) (Q l).
    Variable x : R.
    Hypothesis Hx : 0 <= x < Rad.
    Hypothesis Hz : forall i, (i < n)%nat -> rown n z i <= x.

    Theorem contour_error k P i : (1 <= k <= 3)%nat -> is_psi n k z P -> (i < n)%nat ->
      rown n (mminus (contour cfg (psi_code k) Q) P) i <= merr cfg x.
    Proof.
      intros Hk HP Hi. set (A := contour cfg (psi_code k) Q). set (D := mminus A P).
      assert (E : meq n (mtimes (cpow (RtoC Rad) M) D)
                (mminus (mplus (mtimes (cpow (RtoC Rad) M) (mminus (psum n k z M) P)) (mpoly n z (dcoef cfg (prem k)) M))
                        (mplus (mprod n P (mpow n z M)) (mprod n D (mpow n z M))))).
      { assert (I := contour_identity cfg n HM z Q (psi_code k) HQ). fold A in I. unfold damp in I.
        rewrite mprod_plus_r, mprod_times_r, mprod_ident_r in I.
        assert (I2 : meq n (mprod n D (mpow n z M)) (mminus (mprod n A (mpow n z M)) (mprod n P (mpow n z M)))) by apply mprod_minus_l.
        rewrite I2. intros i' j' Hi' Hj'. specialize (I i' j' Hi' Hj').
        unfold D. unfold mminus, mplus, mtimes in *.
        assert (S : mpoly n z (dcoef cfg (psi_code k)) M i' j'
                    = (cpow (RtoC Rad) M * psum n k z M i' j' + mpoly n z (dcoef cfg (prem k)) M i' j')%C).
        { unfold mpoly, psum, mpoly. rewrite <- csum_scal, <- csum_plus. apply csum_ext. intros m Hm.
          rewrite dcoef_psi by exact Hm. ring. }
        rewrite S in I. transitivity ((cpow (RtoC Rad) M * A i' j' + mprod n A (mpow n z M) i' j') - mprod n A (mpow n z M) i' j' - cpow (RtoC Rad) M * P i' j')%C; [ring|].
        rewrite I. ring. }
      assert (B := rown_ext n _ _ i E Hi). rewrite rown_times, Cmod_cpow, Cmod_R, Rabs_pos_eq in B by lra.
      match type of B with _ = ?X => assert (B2 : X <= Rad ^ M * (x ^ M / INR (fact M) * exp x) + INR M * rembound * Rad ^ M + (exp x * x ^ M + rown n D i * x ^ M)) end.
      { eapply Rle_trans; [apply rown_minus|]. apply Rplus_le_compat.
        - eapply Rle_trans; [apply rown_plus|]. apply Rplus_le_compat.
          + rewrite rown_times, Cmod_cpow, Cmod_R, Rabs_pos_eq by lra.
            apply Rmult_le_compat_l; [apply pow_le; lra|].
            rewrite (rown_ext n (mminus (psum n k z M) P) (mtimes (-1) (mminus P (psum n k z M)))); [|intros i1 j1 _ _; unfold mtimes, mminus; cbv beta; rm1; ring|exact Hi].
            rewrite rown_times. replace (Cmod (-1)) with 1 by (rewrite Cmod_R, Rabs_left; lra). rewrite Rmult_1_l.
            apply psi_tail; [lra|exact Hz|exact HP|exact Hi].
          + eapply Rle_trans; [apply (rown_mpoly n z _ M x i Hz Hi)|].
            eapply Rle_trans; [|right; rewrite Rmult_assoc; apply (sumf_const M (rembound * Rad ^ M))].
            apply sumf_le. intros m Hm.
            eapply Rle_trans; [apply Rmult_le_compat_r; [apply pow_le; lra|]; apply (dcoef_bound cfg HM (prem k) m rembound); [lia|intros; apply prem_bound; exact Hk]|].
            rewrite Rabs_pos_eq by lra. rewrite Rmult_assoc. apply Rmult_le_compat_l; [apply rembound_pos|].
            replace M with ((M - m) + m)%nat at 2 by lia. rewrite pow_add. apply Rmult_le_compat_l; [apply pow_le; lra|].
            apply pow_incr. lra.
        - eapply Rle_trans; [apply rown_plus|]. apply Rplus_le_compat.
          + eapply Rle_trans; [apply (rown_prod n P (mpow n z M) i (x ^ M)); intros; apply rown_pow; assumption|].
            apply Rmult_le_compat_r; [apply pow_le; lra|]. apply (psi_norm n z x ltac:(lra) Hz k P i HP Hi).
          + apply (rown_prod n D (mpow n z M) i (x ^ M)). intros; apply rown_pow; assumption. }
      rewrite <- B in B2. assert (PR : 0 < Rad ^ M) by (apply pow_lt; lra).
      assert (L := pow_ratio_lt x Hx). unfold merr. fold rembound.
      apply Rmult_le_reg_r with (1 - (x / Rad) ^ M); [lra|].
      unfold Rdiv at 2. rewrite Rmult_assoc, Rinv_l, Rmult_1_r by lra.
      apply Rmult_le_reg_l with (Rad ^ M); [exact PR|].
      assert (EX : Rad ^ M * (x / Rad) ^ M = x ^ M) by (rewrite <- Rpow_mult_distr; f_equal; field; lra).
      replace (Rad ^ M * (rown n D i * (1 - (x / Rad) ^ M))) with (Rad ^ M * rown n D i - rown n D i * (Rad ^ M * (x / Rad) ^ M)) by ring.
      rewrite EX.
      replace (Rad ^ M * (x ^ M / INR (fact M) * exp x + INR M * rembound + (x / Rad) ^ M * exp x))
        with (Rad ^ M * (x ^ M / INR (fact M) * exp x) + INR M * rembound * Rad ^ M + exp x * (Rad ^ M * (x / Rad) ^ M)) by ring.
      rewrite EX. lra.
    Qed.
  End OneMatrix.
End Accuracy.

(** ** Change of basis *)
Section Similar.
  Variable n : nat.
  Variables S T : cmat.
  Hypothesis HST : is_inv n S T.
  (** [y = T z S]. *)
  Definition simto (z : cmat) : cmat := mprod n T (mprod n z S).

  Lemma sim_ident : meq n (simto mident) mident.
  Proof. unfold simto. rewrite mprod_ident_l. apply HST. Qed.
  Lemma sim_prod a b : meq n (mprod n (simto a) (simto b)) (simto (mprod n a b)).
  Proof.
    unfold simto. rewrite mprod_assoc, mprod_assoc.
    assert (E : meq n (mprod n S (mprod n T (mprod n b S))) (mprod n b S)).
    { rewrite <- mprod_assoc. destruct HST as [H1 _]. rewrite H1. apply mprod_ident_l. }
    rewrite E, <- (mprod_assoc n a b S). reflexivity.
  Qed.
  Lemma sim_minus a b : meq n (simto (mminus a b)) (mminus (simto a) (simto b)).
  Proof.
    unfold simto. rewrite mprod_minus_l. apply mprod_minus_r.
  Qed.
  Lemma sim_times c a : meq n (simto (mtimes c a)) (mtimes c (simto a)).
  Proof. unfold simto. rewrite mprod_times_l, mprod_times_r. reflexivity. Qed.
  Lemma sim_ext a b : meq n a b -> meq n (simto a) (simto b).
  Proof. intros H. unfold simto. apply mprod_proper; [reflexivity|]. apply mprod_proper; [exact H|reflexivity]. Qed.
  Lemma sim_inv m q : is_inv n m q -> is_inv n (simto m) (simto q).
  Proof.
    intros [H1 H2]. split; rewrite sim_prod; rewrite <- sim_ident; apply sim_ext; assumption.
  Qed.
  Lemma sim_shift w z : meq n (simto (shift w z)) (shift w (simto z)).
  Proof. unfold shift. rewrite sim_minus, sim_times, sim_ident. reflexivity. Qed.
  Lemma sim_pow z k : meq n (simto (mpow n z k)) (mpow n (simto z) k).
  Proof.
    induction k as [|k IH]; cbn [mpow]; [apply sim_ident|]. rewrite <- sim_prod. apply mprod_proper; [reflexivity|exact IH].
  Qed.
  Lemma sim_sum m (f : nat -> cmat) : 
    meq n (simto (fun i j => csum m (fun k => f k i j))) (fun i j => csum m (fun k => simto (f k) i j)).
  Proof.
    induction m as [|m IH].
    - intros i j _ _. cbn [csum]. unfold simto, mprod. apply csum_0. intros k _. rewrite csum_0; [ring|]. intros l _. ring.
    - transitivity (mplus (simto (fun i j => csum m (fun k => f k i j))) (simto (f m))).
      + unfold simto. rewrite <- mprod_plus_r, <- mprod_plus_l. reflexivity.
      + rewrite IH. reflexivity.
  Qed.
  Lemma sim_poly z a m : meq n (simto (mpoly n z a m)) (mpoly n (simto z) a m).
  Proof.
    unfold mpoly. etransitivity; [apply (sim_sum m (fun k => mtimes (a k) (mpow n z k)))|].
    intros i j Hi Hj. apply csum_ext. intros k _. rewrite (sim_times (a k) (mpow n z k) i j Hi Hj).
    unfold mtimes. rewrite (sim_pow z k i j Hi Hj). reflexivity.
  Qed.
  Lemma sim_contour cfg f Q : meq n (simto (contour cfg f Q)) (contour cfg f (fun l => simto (Q l))).
  Proof.
    transitivity (mtimes (/ RtoC (INR (contour_points cfg)))%C
                   (simto (fun i j => csum (contour_points cfg) (fun l => mtimes (rho cfg l * f (rho cfg l))%C (Q l) i j)))).
    - rewrite <- sim_times. apply sim_ext. intros i j _ _. unfold contour, mtimes, Cdiv. ring.
    - rewrite (sim_sum (contour_points cfg) (fun l => mtimes (rho cfg l * f (rho cfg l))%C (Q l))). intros i j Hi Hj.
      unfold contour, mtimes at 1. rewrite Cmult_comm. unfold Cdiv. f_equal. apply csum_ext. intros l _.
      apply (sim_times _ (Q l) i j Hi Hj).
  Qed.
  (** Entry by entry, [simto] is bounded by a constant times the largest entry. *)
  Lemma sim_small (eps : R) : 0 < eps -> exists delta : R, 0 < delta /\
    forall a : cmat, (forall i j, (i < n)%nat -> (j < n)%nat -> Cmod (a i j) < delta) ->
    forall i j, (i < n)%nat -> (j < n)%nat -> Cmod (simto a i j) < eps.
  Proof.
    intros He.
    set (c := sumf n (fun i => sumf n (fun j => Cmod (T i j))) * sumf n (fun i => sumf n (fun j => Cmod (S i j)))).
    assert (Hc : 0 <= c).
    { apply Rmult_le_pos; apply sumf_nonneg; intros; apply sumf_nonneg; intros; apply Cmod_ge_0. }
    exists (eps / (c + 1)). assert (Hd : 0 < eps / (c + 1)) by (apply Rdiv_lt_0_compat; lra). split; [exact Hd|].
    intros a Ha i j Hi Hj. set (d := eps / (c + 1)) in *.
    assert (B : Cmod (simto a i j) <= c * d).
    { unfold simto, mprod. eapply Rle_trans; [apply Cmod_csum|].
      eapply Rle_trans; [apply (sumf_le n _ (fun k => Cmod (T i k) * (d * sumf n (fun i => sumf n (fun j => Cmod (S i j))))))|].
      - intros k Hk. rewrite Cmod_mult. apply Rmult_le_compat_l; [apply Cmod_ge_0|].
        eapply Rle_trans; [apply Cmod_csum|]. rewrite <- sumf_mul. apply sumf_le. intros l Hl. rewrite Cmod_mult.
        apply Rmult_le_compat; [apply Cmod_ge_0|apply Cmod_ge_0|left; apply Ha; assumption|].
        apply (sumf_ge n (fun j => Cmod (S l j))); [intros; apply Cmod_ge_0|exact Hj].
      - rewrite (sumf_ext n _ (fun k => (d * sumf n (fun i => sumf n (fun j => Cmod (S i j)))) * Cmod (T i k))) by (intros; ring).
        rewrite sumf_mul. unfold c.
        assert (sumf n (fun k => Cmod (T i k)) <= sumf n (fun i => sumf n (fun j => Cmod (T i j)))).
        { apply (sumf_ge n (fun i => sumf n (fun j => Cmod (T i j)))); [intros; apply sumf_nonneg; intros; apply Cmod_ge_0|exact Hi]. }
        assert (0 <= sumf n (fun i => sumf n (fun j => Cmod (S i j)))) by (apply sumf_nonneg; intros; apply sumf_nonneg; intros; apply Cmod_ge_0).
        rewrite (Rmult_comm (sumf n (fun i => sumf n (fun j => Cmod (T i j))))), (Rmult_comm _ d), <- Rmult_assoc.
        apply Rmult_le_compat_l; [apply Rmult_le_pos; lra|assumption]. }
    assert (c * d < eps).
    { unfold d. apply Rmult_lt_reg_r with (c + 1); [lra|]. replace (c * (eps / (c + 1)) * (c + 1)) with (c * eps) by (field; lra). nra. }
    lra.
  Qed.
  Lemma sim_psi k z P : is_psi n k z P -> is_psi n k (simto z) (simto P).
  Proof.
    intros H i j Hi Hj eps He. destruct (sim_small eps He) as (delta & Hd & Hs).
    assert (G : exists K, forall m, (K <= m)%nat -> forall i j, (i < n)%nat -> (j < n)%nat -> Cmod (mminus (psum n k z m) P i j) < delta).
    { assert (G : forall p q, exists K, forall m, (K <= m)%nat -> forall i j, (i < n)%nat -> (j < n)%nat -> (i * n + j < p * n + q)%nat -> Cmod (mminus (psum n k z m) P i j) < delta).
      { intros p q. remember (p * n + q)%nat as t. clear Heqt. induction t as [|t [K IH]]; [exists O; intros; lia|].
        destruct (Nat.eq_dec n 0) as [->|Hn]; [exists O; intros; lia|].
        destruct (Nat.lt_ge_cases (t / n) n) as [Ht|Ht].
        - destruct (H (t / n)%nat (t mod n)%nat Ht (Nat.mod_upper_bound t n Hn) delta Hd) as [K2 HK2].
          exists (max K K2). intros m Hm i1 j1 Hi1 Hj1 Hlt. destruct (Nat.eq_dec (i1 * n + j1) t) as [E|E].
          + assert (i1 = t / n)%nat by (apply (Nat.div_unique t n i1 j1); lia).
            assert (j1 = t mod n)%nat by (apply (Nat.mod_unique t n i1 j1); lia). subst i1 j1. apply HK2. lia.
          + apply IH; lia.
        - exists K. intros m Hm i1 j1 Hi1 Hj1 Hlt. apply IH; try assumption.
          assert (n * n <= t)%nat by (transitivity (n * (t / n))%nat; [nia|apply Nat.mul_div_le; exact Hn]). nia. }
      destruct (G n O) as [K HK]. exists K. intros m Hm i1 j1 Hi1 Hj1. apply HK; try assumption. nia. }
    destruct G as [K HK]. exists K. intros m Hm. 
    replace (psum n k (simto z) m i j - simto P i j)%C with (simto (mminus (psum n k z m) P) i j).
    - apply Hs; [|exact Hi|exact Hj]. intros. apply HK; assumption.
    - rewrite (sim_minus _ _ i j Hi Hj). unfold mminus. f_equal. apply sim_poly; assumption.
  Qed.
End Similar.

(** The contour sum of any matrix that is similar to a small one: by Jordan's form this covers
    every matrix with spectral radius below [R]. *)
Theorem contour_error_similar (cfg : etdcfg Rops) n (S T z : cmat) (Q : nat -> cmat) (x : R) k (P : cmat) i :
  (0 < contour_points cfg)%nat -> 0 < contour_radius cfg -> is_inv n S T ->
  (forall l, (l < contour_points cfg)%nat -> is_inv n (shift (rho cfg l) z) (Q l)) ->
  0 <= x < contour_radius cfg -> (forall i, (i < n)%nat -> rown n (simto n S T z) i <= x) ->
  (1 <= k <= 3)%nat -> is_psi n k z P -> (i < n)%nat ->
  rown n (simto n S T (mminus (contour cfg (psi_code k) Q) P)) i <= merr cfg x.
Proof.
  intros HM HR HST HQ Hx Hz Hk HP Hi.
  assert (HQ' : forall l, (l < contour_points cfg)%nat -> is_inv n (shift (rho cfg l) (simto n S T z)) (simto n S T (Q l))).
  { intros l Hl. destruct (sim_inv n S T HST _ _ (HQ l Hl)) as [H1 H2].
    assert (E := sim_shift n S T HST (rho cfg l) z). split; rewrite <- E; assumption. }
  assert (G := contour_error cfg HM HR n _ _ HQ' x Hx Hz k _ i Hk (sim_psi n S T HST k z P HP) Hi).
  eapply Rle_trans; [|exact G]. right. apply rown_ext; [|exact Hi].
  rewrite sim_minus. apply mminus_proper; [apply sim_contour|reflexivity].
Qed.

(** ** The series converges for every matrix *)
Lemma Cmod_parts (w : C) : Cmod w <= Rabs (fst w) + Rabs (snd w).
Proof.
  replace w with (RtoC (fst w) + Ci * RtoC (snd w))%C at 1.
  - eapply Rle_trans; [apply Cmod_triangle|]. rewrite Cmod_mult, !Cmod_R.
    replace (Cmod Ci) with 1; [lra|]. unfold Cmod, Ci; cbn [fst snd]. rewrite <- sqrt_1 at 1. f_equal. ring.
  - destruct w as [a b]. unfold Ci, Cplus, Cmult, RtoC; cbn [fst snd]. apply C_eq; ring.
Qed.
Lemma parts_Cmod (w : C) : Rabs (fst w) <= Cmod w /\ Rabs (snd w) <= Cmod w.
Proof. split; (eapply Rle_trans; [|apply Rmax_Cmod]); [apply Rmax_l|apply Rmax_r]. Qed.

Lemma tail_small x (eps : R) : 0 <= x -> 0 < eps -> exists m, x ^ m / INR (fact m) * exp x < eps.
Proof.
  intros Hx He. assert (E := exp_pos x).
  destruct (cv_speed_pow_fact x (eps / exp x)) as [m Hm]; [apply Rdiv_lt_0_compat; lra|].
  exists m. specialize (Hm m (le_n m)). unfold R_dist in Hm. rewrite Rminus_0_r, Rabs_pos_eq in Hm.
  - apply Rmult_lt_reg_r with (/ exp x); [apply Rinv_0_lt_compat; lra|].
    rewrite Rmult_assoc, Rinv_r, Rmult_1_r by lra. exact Hm.
  - apply Rmult_le_pos; [apply pow_le; lra|left; apply Rinv_0_lt_compat, INR_fact_lt_0].
Qed.
Lemma mat_bounded n (z : cmat) : exists x, 0 <= x /\ forall i, (i < n)%nat -> rown n z i <= x.
Proof.
  exists (sumf n (rown n z)). split.
  - apply sumf_nonneg. intros. apply rown_nonneg.
  - intros i Hi. apply (sumf_ge n (rown n z)); [intros; apply rown_nonneg|exact Hi].
Qed.

Lemma psi_exists n k z : exists P, is_psi n k z P.
Proof.
  destruct (mat_bounded n z) as (x & Hx & Hz).
  assert (D : forall i j, (i < n)%nat -> (j < n)%nat -> forall eps, 0 < eps -> exists K, forall a b, (K <= a)%nat -> (K <= b)%nat ->
            Cmod (psum n k z a i j - psum n k z b i j)%C < eps).
  { intros i j Hi Hj eps He. destruct (tail_small x (eps / 2) Hx ltac:(lra)) as [K HK]. exists K.
    assert (G : forall a, (K <= a)%nat -> Cmod (psum n k z a i j - psum n k z K i j)%C <= x ^ K / INR (fact K) * exp x).
    { intros a Ha. replace a with (K + (a - K))%nat by lia.
      eapply Rle_trans; [apply (entry_rown n (mminus (psum n k z (K + (a - K))) (psum n k z K)) i j Hj)|].
      apply psum_tail; assumption. }
    intros a b Ha Hb. assert (G1 := G a Ha). assert (G2 := G b Hb).
    replace (psum n k z a i j - psum n k z b i j)%C
      with ((psum n k z a i j - psum n k z K i j) + - (psum n k z b i j - psum n k z K i j))%C by ring.
    eapply Rle_lt_trans; [apply Cmod_triangle|]. rewrite Cmod_opp. lra. }
  assert (L : forall i j, (i < n)%nat -> (j < n)%nat ->
            ex_finite_lim_seq (fun m => fst (psum n k z m i j)) /\ ex_finite_lim_seq (fun m => snd (psum n k z m i j))).
  { intros i j Hi Hj. split; apply ex_lim_seq_cauchy_corr; intros eps;
      destruct (D i j Hi Hj eps (cond_pos eps)) as [K HK]; exists K; intros a b Ha Hb;
      (eapply Rle_lt_trans; [|apply (HK a b Ha Hb)]);
      destruct (parts_Cmod (psum n k z a i j - psum n k z b i j)%C) as [P1 P2]; assumption. }
  exists (fun i j => (real (Lim_seq (fun m => fst (psum n k z m i j))), real (Lim_seq (fun m => snd (psum n k z m i j))))).
  intros i j Hi Hj eps He. destruct (L i j Hi Hj) as [[l1 H1] [l2 H2]].
  rewrite (is_lim_seq_unique _ _ H1), (is_lim_seq_unique _ _ H2). cbn [real].
  apply is_lim_seq_spec in H1. apply is_lim_seq_spec in H2.
  assert (He2 : 0 < eps / 2) by lra.
  destruct (H1 (mkposreal _ He2)) as [K1 HK1]. destruct (H2 (mkposreal _ He2)) as [K2 HK2]. cbn [pos] in *.
  exists (max K1 K2). intros m Hm. eapply Rle_lt_trans; [apply Cmod_parts|].
  assert (G1 := HK1 m ltac:(lia)). assert (G2 := HK2 m ltac:(lia)). cbn [fst snd Cminus Cplus Copp].
  unfold Rminus in *. lra.
Qed.

Lemma psi_unique n k z P P' : is_psi n k z P -> is_psi n k z P' -> meq n P P'.
Proof.
  intros H H' i j Hi Hj. 
  assert (E : Cmod (P i j - P' i j)%C <= 0).
  { apply le_epsilon. intros eps He. destruct (H i j Hi Hj (eps / 2) ltac:(lra)) as [K HK].
    destruct (H' i j Hi Hj (eps / 2) ltac:(lra)) as [K' HK']. set (m := max K K').
    assert (G := HK m ltac:(lia)). assert (G' := HK' m ltac:(lia)).
    replace (P i j - P' i j)%C with (- (psum n k z m i j - P i j) + (psum n k z m i j - P' i j))%C by ring.
    eapply Rle_trans; [apply Cmod_triangle|]. rewrite Cmod_opp. lra. }
  assert (E0 : (P i j - P' i j)%C = 0) by (apply Cmod_eq_0; apply Rle_antisym; [exact E|apply Cmod_ge_0]).
  replace (P i j) with ((P i j - P' i j) + P' i j)%C by ring. rewrite E0. ring.
Qed.

(** [I + z psi_1(z)] is the exponential. *)
Lemma psi_0_1 n z P1 : is_psi n 1 z P1 -> is_psi n 0 z (mplus mident (mprod n z P1)).
Proof.
  intros H1.
  assert (S1 : forall m, meq n (psum n 0 z (S m)) (mplus mident (mprod n z (psum n 1 z m)))).
  { intros m i j Hi Hj. unfold psum, mpoly. rewrite csum_shift. unfold mplus. f_equal.
    - unfold pcoef. cbn [fact Nat.add INR mpow]. replace (1 / 1)%R with 1 by field. ring.
    - unfold mprod. transitivity (csum n (fun l => csum m (fun k => (z i l * (RtoC (pcoef 1 k) * mpow n z k l j))%C))).
      + rewrite csum_swap. apply csum_ext. intros k _. cbn [mpow]. unfold mprod. rewrite <- csum_scal.
        apply csum_ext. intros l _.
        replace (pcoef 0 (S k)) with (pcoef 1 k); [ring|]. unfold pcoef.
        replace (S k + 0)%nat with (k + 1)%nat by lia. cbn [fact Nat.mul Nat.add INR]. reflexivity.
      + apply csum_ext. intros l _. rewrite csum_scal. reflexivity. }
  intros i j Hi Hj eps He.
  destruct (mat_bounded n z) as (x & Hx & Hz).
  assert (He' : 0 < eps / (x + 1)) by (apply Rdiv_lt_0_compat; lra).
  assert (G : exists K, forall m, (K <= m)%nat -> forall l, (l < n)%nat -> Cmod (psum n 1 z m l j - P1 l j)%C <= eps / (x + 1)).
  { assert (G : forall q, (q <= n)%nat -> exists K, forall m, (K <= m)%nat -> forall l, (l < q)%nat -> Cmod (psum n 1 z m l j - P1 l j)%C <= eps / (x + 1)).
    { induction q as [|q IH]; intros Hq; [exists O; intros; lia|].
      destruct (IH ltac:(lia)) as [K HK]. destruct (H1 q j ltac:(lia) Hj _ He') as [K2 HK2].
      exists (max K K2). intros m Hm l Hl. destruct (Nat.eq_dec l q) as [->|].
      - left. apply HK2. lia.
      - apply HK; lia. }
    apply (G n). lia. }
  destruct G as [K HK]. exists (S K). intros m Hm. destruct m as [|m]; [lia|]. specialize (HK m ltac:(lia)).
  rewrite (S1 m i j Hi Hj). unfold mplus.
  replace (mident i j + mprod n z (psum n 1 z m) i j - (mident i j + mprod n z P1 i j))%C
    with (csum n (fun l => z i l * (psum n 1 z m l j - P1 l j))%C).
  - eapply Rle_lt_trans; [apply Cmod_csum|].
    eapply Rle_lt_trans; [apply (sumf_le n _ (fun l => eps / (x + 1) * Cmod (z i l)))|].
    + intros l Hl. rewrite Cmod_mult, Rmult_comm. apply Rmult_le_compat_r; [apply Cmod_ge_0|]. apply HK. exact Hl.
    + rewrite sumf_mul. fold (rown n z i). assert (B := Hz i Hi). assert (B0 := rown_nonneg n z i).
      apply Rle_lt_trans with (eps / (x + 1) * x); [apply Rmult_le_compat_l; lra|].
      apply Rmult_lt_reg_r with (x + 1); [lra|]. replace (eps / (x + 1) * x * (x + 1)) with (eps * x) by (field; lra). nra.
  - unfold mprod. rewrite (csum_ext n _ (fun l => (z i l * psum n 1 z m l j + (- RtoC 1) * (z i l * P1 l j))%C)) by (intros; ring).
    rewrite csum_plus, csum_scal. ring.
Qed.

(** ** Diagonal matrices *)
Definition diagm (d : nat -> C) : cmat := fun i j => if Nat.eqb i j then d i else RtoC 0.
Definition psi_exact (k : nat) (w : C) : C := (RtoC (INR (fact k)) * phi k w)%C.

Lemma diagm_prod n d e : meq n (mprod n (diagm d) (diagm e)) (diagm (fun i => d i * e i)%C).
Proof.
  intros i j Hi Hj. unfold mprod. rewrite (csum_single n i _ Hi).
  - unfold diagm. rewrite Nat.eqb_refl. destruct (Nat.eqb_spec i j) as [->|]; [reflexivity|]. ring.
  - intros k _ Hk. unfold diagm. destruct (Nat.eqb_spec i k); [congruence|]. ring.
Qed.
Lemma diagm_pow n d k : meq n (mpow n (diagm d) k) (diagm (fun i => cpow (d i) k)).
Proof.
  induction k as [|k IH]; cbn [mpow cpow].
  - reflexivity.
  - transitivity (mprod n (diagm d) (diagm (fun i => cpow (d i) k))).
    + apply mprod_proper; [reflexivity|exact IH].
    + apply diagm_prod.
Qed.
Lemma diagm_psum n k d m : meq n (psum n k (diagm d) m) (diagm (fun i => csum m (fun l => RtoC (pcoef k l) * cpow (d i) l)%C)).
Proof.
  intros i j Hi Hj. unfold psum, mpoly. rewrite (csum_ext m _ (fun l => (RtoC (pcoef k l) * diagm (fun i => cpow (d i) l) i j)%C)).
  2: { intros l _. rewrite (diagm_pow n d l i j Hi Hj). reflexivity. }
  unfold diagm. destruct (Nat.eqb_spec i j) as [->|]; [reflexivity|]. apply csum_0. intros. ring.
Qed.
Lemma psi_exact_taylor k m w :
  Cmod (psi_exact k w - csum m (fun l => RtoC (pcoef k l) * cpow w l))%C <= Cmod w ^ m / INR (fact m) * exp (Cmod w).
Proof.
  destruct (Ceq_dec w 0) as [->|Hw].
  - rewrite Cmod_0. destruct m as [|m].
    + cbn [csum pow fact INR]. unfold psi_exact. rewrite phi_0, <- RtoC_mult, Rinv_r by apply INR_fact_neq_0.
      replace (1 - 0)%C with (RtoC 1) by ring. rewrite Cmod_1, exp_0. lra.
    + rewrite csum_shift, csum_0 by (intros l _; cbn [cpow]; ring). unfold psi_exact. rewrite phi_0, <- RtoC_mult, Rinv_r by apply INR_fact_neq_0.
      unfold pcoef. cbn [Nat.add cpow]. unfold Rdiv. rewrite Rinv_r by apply INR_fact_neq_0.
      replace (1 - (1 * 1 + 0))%C with (RtoC 0) by ring. rewrite Cmod_0. rewrite exp_0, pow_i by lia. lra.
  - unfold psi_exact.
    assert (E : csum m (fun l => RtoC (pcoef k l) * cpow w l)%C
                = (RtoC (INR (fact k)) * csum m (fun l => RtoC (/ INR (fact (l + k))) * cpow w l))%C).
    { rewrite <- csum_scal. apply csum_ext. intros l _. unfold pcoef, Rdiv. rewrite RtoC_mult. ring. }
    rewrite E. replace (RtoC (INR (fact k)) * phi k w - RtoC (INR (fact k)) * csum m (fun l => RtoC (/ INR (fact (l + k))) * cpow w l))%C
      with (RtoC (INR (fact k)) * (phi k w - csum m (fun l => RtoC (/ INR (fact (l + k))) * cpow w l)))%C by ring.
    rewrite Cmod_mult, Cmod_R, Rabs_pos_eq by apply pos_INR.
    eapply Rle_trans; [apply Rmult_le_compat_l; [apply pos_INR|apply phi_taylor; exact Hw]|].
    replace (INR (fact k) * (Cmod w ^ m / INR (fact (m + k)) * exp (Cmod w)))
      with (pcoef k m * (Cmod w ^ m * exp (Cmod w))) by (unfold pcoef; field; apply INR_fact_neq_0).
    replace (Cmod w ^ m / INR (fact m) * exp (Cmod w)) with (/ INR (fact m) * (Cmod w ^ m * exp (Cmod w))) by (field; apply INR_fact_neq_0).
    apply Rmult_le_compat_r; [|apply pcoef_le].
    apply Rmult_le_pos; [apply pow_le, Cmod_ge_0|left; apply exp_pos].
Qed.
(** For a diagonal matrix the series gives [psi] of the entries. *)
Lemma diagm_psi n k d : is_psi n k (diagm d) (diagm (fun i => psi_exact k (d i))).
Proof.
  intros i j Hi Hj eps He. 
  destruct (cv_speed_pow_fact (Cmod (d i)) (eps / exp (Cmod (d i)))) as [K HK]; [apply Rdiv_lt_0_compat; [lra|apply exp_pos]|].
  exists K. intros m Hm. rewrite (diagm_psum n k d m i j Hi Hj). unfold diagm. destruct (Nat.eqb_spec i j) as [->|].
  - replace (csum m (fun l => RtoC (pcoef k l) * cpow (d j) l) - psi_exact k (d j))%C
      with (- (psi_exact k (d j) - csum m (fun l => RtoC (pcoef k l) * cpow (d j) l)))%C by ring.
    rewrite Cmod_opp. eapply Rle_lt_trans; [apply psi_exact_taylor|].
    specialize (HK m ltac:(lia)). unfold R_dist in HK. rewrite Rminus_0_r, Rabs_pos_eq in HK.
    + assert (E := exp_pos (Cmod (d j))). apply Rmult_lt_reg_r with (/ exp (Cmod (d j))); [apply Rinv_0_lt_compat; lra|].
      rewrite Rmult_assoc, Rinv_r, Rmult_1_r by lra. exact HK.
    + apply Rmult_le_pos; [apply pow_le, Cmod_ge_0|left; apply Rinv_0_lt_compat, INR_fact_lt_0].
  - replace (0 - 0)%C with (RtoC 0) by ring. rewrite Cmod_0. exact He.
Qed.

(** The contour sum at one number. *)
Definition cscalar (cfg : etdcfg Rops) (f : C -> C) (w : C) : C :=
  (csum (contour_points cfg) (fun l => rho cfg l * f (rho cfg l) * / (rho cfg l - w)) / RtoC (INR (contour_points cfg)))%C.

Lemma diagm_shift w d : shift w (diagm d) = diagm (fun i => (w - d i)%C).
Proof.
  apply functional_extensionality; intros i. apply functional_extensionality; intros j.
  unfold shift, mminus, mtimes, mident, diagm. destruct (Nat.eqb i j); ring.
Qed.
Lemma diagm_inv n d q : is_inv n (diagm d) q ->
  (forall i, (i < n)%nat -> d i <> 0) /\ meq n q (diagm (fun i => / d i)%C).
Proof.
  intros [H _].
  assert (E : forall i j, (i < n)%nat -> (j < n)%nat -> (d i * q i j)%C = mident i j).
  { intros i j Hi Hj. rewrite <- (H i j Hi Hj). unfold mprod. rewrite (csum_single n i _ Hi).
    - unfold diagm. rewrite Nat.eqb_refl. reflexivity.
    - intros k _ Hk. unfold diagm. destruct (Nat.eqb_spec i k); [congruence|]. ring. }
  assert (N : forall i, (i < n)%nat -> d i <> 0).
  { intros i Hi Z. assert (G := E i i Hi Hi). unfold mident in G. rewrite Nat.eqb_refl, Z in G.
    rewrite Cmult_0_l in G. injection G. intros; lra. }
  split; [exact N|]. intros i j Hi Hj. assert (G := E i j Hi Hj). assert (Ni := N i Hi).
  replace (q i j) with (/ d i * (d i * q i j))%C by (field; exact Ni). rewrite G. unfold mident, diagm.
  destruct (Nat.eqb i j); ring.
Qed.
Lemma diagm_contour (cfg : etdcfg Rops) n d f Q :
  (forall l, (l < contour_points cfg)%nat -> is_inv n (shift (rho cfg l) (diagm d)) (Q l)) ->
  meq n (contour cfg f Q) (diagm (fun i => cscalar cfg f (d i))).
Proof.
  intros HQ i j Hi Hj. unfold contour, cscalar.
  rewrite (csum_ext (contour_points cfg) _ (fun l => (rho cfg l * f (rho cfg l) * diagm (fun i => / (rho cfg l - d i))%C i j)%C)).
  - unfold diagm. destruct (Nat.eqb i j); [reflexivity|]. rewrite csum_0 by (intros; ring). unfold Cdiv. ring.
  - intros l Hl. assert (G := HQ l Hl). rewrite diagm_shift in G. destruct (diagm_inv _ _ _ G) as [_ G2].
    rewrite (G2 i j Hi Hj). reflexivity.
Qed.

(** Accuracy at one number, also for [w] that is not small. *)
Section Scalar.
  Variable cfg : etdcfg Rops.
  Notation M := (contour_points cfg).
  Notation Rad := (contour_radius cfg : R).
  Hypothesis HM : (0 < M)%nat.
  Hypothesis HR : 0 < Rad.
  Variable w : C.
  Hypothesis Hw : forall l, (l < M)%nat -> w <> rho cfg l.
  Notation d := (fun _ : nat => w).
  Notation Qs := (fun l : nat => diagm (fun _ => / (rho cfg l - w))%C).

  Lemma one_inv l : (l < M)%nat -> is_inv 1 (shift (rho cfg l) (diagm d)) (Qs l).
  Proof.
    intros Hl. assert (N : (rho cfg l - w <> 0)%C).
    { intros E. apply (Hw l Hl). replace w with (w + (rho cfg l - w))%C by (rewrite E; ring). ring. }
    rewrite diagm_shift. split; rewrite diagm_prod; intros i j _ _; unfold diagm, mident; destruct (Nat.eqb i j); try reflexivity; field; exact N.
  Qed.
  Lemma scalar_error x k : Cmod w <= x < Rad -> (1 <= k <= 3)%nat ->
    Cmod (cscalar cfg (psi_code k) w - psi_exact k w)%C <= merr cfg x.
  Proof.
    intros Hx Hk. assert (P := Cmod_ge_0 w).
    assert (G := contour_error cfg HM HR 1 (diagm d) Qs one_inv x ltac:(lra)).
    assert (Hz : forall i, (i < 1)%nat -> rown 1 (diagm d) i <= x).
    { intros i Hi. unfold rown, diagm. destruct i; [|lia]. cbn. lra. }
    specialize (G Hz k _ O Hk (diagm_psi 1 k d) ltac:(lia)).
    eapply Rle_trans; [|exact G].
    eapply Rle_trans; [|apply (entry_rown 1 _ 0 0); lia]. right. unfold mminus at 1.
    rewrite (diagm_contour cfg 1 d (psi_code k) Qs one_inv) by lia. reflexivity.
  Qed.
  (** [cscalar f w (R^M + w^M) = sum_(k<M) dcoef_k w^k]. *)
  Lemma scalar_identity f : (cscalar cfg f w * (cpow (RtoC Rad) M + cpow w M))%C = csum M (fun k => dcoef cfg f k * cpow w k)%C.
  Proof.
    assert (G := contour_identity cfg 1 HM (diagm d) Qs f one_inv 0%nat 0%nat ltac:(lia) ltac:(lia)).
    unfold mprod in G. cbn [csum] in G. rewrite (diagm_contour cfg 1 d f Qs one_inv) in G by lia.
    unfold damp, mplus, mtimes in G. rewrite (diagm_pow 1 d M 0%nat 0%nat) in G by lia. unfold mpoly in G.
    unfold mident in G. change (diagm (fun _ : nat => cscalar cfg f w) 0%nat 0%nat) with (cscalar cfg f w) in G.
    rewrite (csum_ext M _ (fun k => (dcoef cfg f k * cpow w k)%C)) in G.
    - rewrite <- G. unfold mident, diagm. cbn [Nat.eqb]. ring.
    - intros k _. rewrite (diagm_pow 1 d k 0%nat 0%nat) by lia. reflexivity.
  Qed.
End Scalar.
