(** * The solution of [w' = L w + g] for a matrix [L]

    Spec file: the solution is [exp(tL) w(0) + t psi_1(tL) g] with the series of [ContourMatrix],
    for every differentiable [w]. *)

From Coq Require Import ZArith List Bool Reals Lra Lia FunctionalExtensionality.
From Coquelicot Require Import Hierarchy Derive Complex Continuity.
From Verif Require Import CInst SpecRK SchemeIFReal SpecPhi SpecPoly ContourReal PropsETD ContourMatrix.
Import ListNotations.
Local Open Scope R_scope.

(** Taylor polynomials of a chain of derivatives. *)
Definition tay (f : nat -> R -> R) (m : nat) (t : R) : R := sumf m (fun k => t ^ k / INR (fact k) * f k 0).

Lemma tay_shift f m t : tay f (S m) t = f 0%nat 0 + sumf m (fun k => t ^ S k / INR (fact (S k)) * f (S k) 0).
Proof.
  unfold tay. induction m as [|m IH]; cbn [sumf] in *; [cbn; lra|]. rewrite IH. ring.
Qed.
Lemma dconst (c t : R) : is_derive (fun _ : R => c) t 0.
Proof. exact (@is_derive_const R_AbsRing R_NormedModule c t). Qed.
Lemma tay_der f m t : is_derive (tay f (S m)) t (tay (fun k => f (S k)) m t).
Proof.
  apply (is_derive_ext (fun t => f 0%nat 0 + sumf m (fun k => t ^ S k / INR (fact (S k)) * f (S k) 0))).
  { intros s. symmetry. apply tay_shift. }
  unfold tay. rewrite <- (Rplus_0_l (sumf m _)). apply (is_derive_plus (V := R_NormedModule)); [apply dconst|].
  induction m as [|m IH]; cbn [sumf]; [apply dconst|].
  apply (is_derive_plus (V := R_NormedModule)); [exact IH|].
  apply (is_derive_ext (fun t => f (S m) 0 * (t ^ S m / INR (fact (S m))))); [intros; cbn; ring|].
  rewrite Rmult_comm. apply is_derive_scal. apply pow_der.
Qed.

Lemma taylor_pos (B h : R) : forall m (f : nat -> R -> R), (forall k t, is_derive (f k) t (f (S k) t)) ->
  (forall t, 0 <= t <= h -> Rabs (f m t) <= B) ->
  forall t, 0 <= t <= h -> Rabs (f 0%nat t - tay f m t) <= B * (t ^ m / INR (fact m)).
Proof.
  induction m as [|m IH]; intros f Hf HB t Ht.
  - unfold tay. cbn. replace (f 0%nat t - 0) with (f 0%nat t) by ring. replace (B * (1 / 1)) with B by field. apply HB, Ht.
  - specialize (IH (fun k => f (S k)) (fun k => Hf (S k)) HB).
    assert (D : forall s (sg : R), is_derive (fun s => B * (s ^ S m / INR (fact (S m))) - sg * (f 0%nat s - tay f (S m) s)) s
                  (B * (s ^ m / INR (fact m)) - sg * (f 1%nat s - tay (fun k => f (S k)) m s))).
    { intros s sg. apply (is_derive_minus (V := R_NormedModule)).
      - apply is_derive_scal, pow_der.
      - apply is_derive_scal. apply (is_derive_minus (V := R_NormedModule)); [apply Hf|apply tay_der]. }
    assert (G : forall sg, (sg = 1 \/ sg = -1) -> 0 <= B * (t ^ S m / INR (fact (S m))) - sg * (f 0%nat t - tay f (S m) t)).
    { intros sg Hs.
      destruct (MVT_gen (fun s => B * (s ^ S m / INR (fact (S m))) - sg * (f 0%nat s - tay f (S m) s)) 0 t
                  (fun s => B * (s ^ m / INR (fact m)) - sg * (f 1%nat s - tay (fun k => f (S k)) m s))) as (c & Hc & E).
      - intros s _. apply D.
      - intros s _. apply derivable_continuous_pt. eexists. apply is_derive_Reals. apply (D s sg).
      - rewrite Rmin_left, Rmax_right in Hc by lra.
        assert (Z : B * (0 ^ S m / INR (fact (S m))) - sg * (f 0%nat 0 - tay f (S m) 0) = 0).
        { rewrite tay_shift. assert (Z : sumf m (fun k => 0 ^ S k / INR (fact (S k)) * f (S k) 0) = 0).
          { clear. induction m as [|m IH]; cbn [sumf]; [reflexivity|]. rewrite IH, pow_i by lia. unfold Rdiv. ring. }
          rewrite Z, pow_i by lia. unfold Rdiv. ring. }
        rewrite Z, !Rminus_0_r in E. rewrite E. apply Rmult_le_pos; [|lra].
        specialize (IH c ltac:(lra)). unfold Rabs in IH. destruct Hs as [-> | ->]; destruct (Rcase_abs _) in IH; lra. }
    assert (G1 := G 1 ltac:(auto)). assert (G2 := G (-1) ltac:(auto)). apply Rabs_le. lra.
Qed.
Lemma taylor_chain (B h : R) m (f : nat -> R -> R) : (forall k t, is_derive (f k) t (f (S k) t)) ->
  (forall t, Rabs t <= Rabs h -> Rabs (f m t) <= B) ->
  Rabs (f 0%nat h - tay f m h) <= B * (Rabs h ^ m / INR (fact m)).
Proof.
  intros Hf HB. destruct (Rle_or_lt 0 h) as [Hh|Hh].
  - assert (A := Rabs_pos_eq h Hh). rewrite A in *. apply (taylor_pos B h m f Hf); [|lra].
    intros t Ht. apply HB. rewrite Rabs_pos_eq by lra. lra.
  - set (g := fun k t => (-1) ^ k * f k (- t)).
    assert (Hg : forall k t, is_derive (g k) t (g (S k) t)).
    { intros k t. unfold g. cbn [pow]. replace (-1 * (-1) ^ k * f (S k) (- t)) with ((-1) ^ k * (-1 * f (S k) (- t))) by ring.
      apply is_derive_scal. apply (is_derive_comp (V := R_NormedModule) (f k) Ropp); [apply Hf|].
      apply (is_derive_opp (V := R_NormedModule) (fun t => t)). apply (@is_derive_id R_AbsRing). }
    assert (A := Rabs_left h Hh).
    assert (S1 : forall k, Rabs ((-1) ^ k) = 1).
    { intros k. rewrite <- RPow_abs, Rabs_left by lra. replace (- -1) with 1 by ring. apply pow1. }
    assert (G := taylor_pos B (Rabs h) m g Hg). rewrite A in *.
    assert (G' : forall t, 0 <= t <= - h -> Rabs (g m t) <= B).
    { intros t Ht. unfold g. rewrite Rabs_mult, S1, Rmult_1_l. apply HB. rewrite Rabs_Ropp, Rabs_pos_eq by lra. lra. }
    specialize (G G' (- h) ltac:(lra)). unfold g at 1 in G. rewrite pow_O, Rmult_1_l, Ropp_involutive in G.
    replace (tay g m (- h)) with (tay f m h) in G; [exact G|].
    unfold tay. apply sumf_ext. intros k _. unfold g. rewrite Ropp_0.
    replace (- h) with (-1 * h) by ring. rewrite Rpow_mult_distr.
    replace ((-1) ^ k * h ^ k / INR (fact k) * ((-1) ^ k * f k 0)) with ((((-1) * (-1)) ^ k) * (h ^ k / INR (fact k) * f k 0))
      by (rewrite Rpow_mult_distr; unfold Rdiv; ring).
    replace (-1 * -1) with 1 by ring. rewrite pow1. ring.
Qed.

Lemma csum_parts m (f : nat -> C) : csum m f = (sumf m (fun k => fst (f k)), sumf m (fun k => snd (f k))).
Proof. induction m as [|m IH]; cbn [csum sumf]; [reflexivity|]. rewrite IH. reflexivity. Qed.
Lemma taylor_complex (B h : R) m (F : nat -> R -> C) : (forall k t, is_Cder (F k) t (F (S k) t)) ->
  (forall t, Rabs t <= Rabs h -> Cmod (F m t) <= B) ->
  Cmod (F 0%nat h - csum m (fun k => RtoC (h ^ k / INR (fact k)) * F k 0))%C <= 2 * B * (Rabs h ^ m / INR (fact m)).
Proof.
  intros HF HB.
  assert (G1 := taylor_chain B h m (fun k t => fst (F k t)) (fun k t => proj1 (HF k t))).
  assert (G2 := taylor_chain B h m (fun k t => snd (F k t)) (fun k t => proj2 (HF k t))).
  eapply Rle_trans; [apply Cmod_parts|]. rewrite csum_parts.
  assert (E1 : fst (F 0%nat h - (sumf m (fun k => fst (RtoC (h ^ k / INR (fact k)) * F k 0)%C),
                                 sumf m (fun k => snd (RtoC (h ^ k / INR (fact k)) * F k 0)%C)))%C
               = fst (F 0%nat h) - tay (fun k t => fst (F k t)) m h).
  { unfold Cminus, Cplus, Copp. cbn [fst snd]. unfold Rminus. do 2 f_equal. unfold tay. apply sumf_ext. intros k _.
    unfold Cmult, RtoC; cbn [fst snd]. ring. }
  assert (E2 : snd (F 0%nat h - (sumf m (fun k => fst (RtoC (h ^ k / INR (fact k)) * F k 0)%C),
                                 sumf m (fun k => snd (RtoC (h ^ k / INR (fact k)) * F k 0)%C)))%C
               = snd (F 0%nat h) - tay (fun k t => snd (F k t)) m h).
  { unfold Cminus, Cplus, Copp. cbn [fst snd]. unfold Rminus. do 2 f_equal. unfold tay. apply sumf_ext. intros k _.
    unfold Cmult, RtoC; cbn [fst snd]. ring. }
  rewrite E1, E2.
  assert (B1 : forall t, Rabs t <= Rabs h -> Rabs (fst (F m t)) <= B).
  { intros t Ht. eapply Rle_trans; [apply parts_Cmod|]. apply HB, Ht. }
  assert (B2 : forall t, Rabs t <= Rabs h -> Rabs (snd (F m t)) <= B).
  { intros t Ht. eapply Rle_trans; [apply parts_Cmod|]. apply HB, Ht. }
  specialize (G1 B1). specialize (G2 B2). lra.
Qed.

(** A differentiable complex function is bounded on [-|h|, |h|]. *)
Lemma Cder_bounded (f f' : R -> C) (h : R) : (forall t, is_Cder f t (f' t)) ->
  exists V, 0 <= V /\ forall t, Rabs t <= Rabs h -> Cmod (f t) <= V.
Proof.
  intros H. assert (P := Rabs_pos h).
  assert (G : forall g g' : R -> R, (forall t, is_derive g t (g' t)) -> exists V, 0 <= V /\ forall t, Rabs t <= Rabs h -> Rabs (g t) <= V).
  { intros g g' Hg.
    assert (HC : forall t, continuity_pt g t).
    { intros t. apply derivable_continuous_pt. eexists. apply is_derive_Reals. apply Hg. }
    destruct (continuity_ab_maj g (- Rabs h) (Rabs h) ltac:(lra) (fun t _ => HC t)) as (a & Ha & _).
    destruct (continuity_ab_min g (- Rabs h) (Rabs h) ltac:(lra) (fun t _ => HC t)) as (b & Hb & _).
    exists (Rabs (g a) + Rabs (g b)). split; [assert (X := Rabs_pos (g a)); assert (Y := Rabs_pos (g b)); lra|].
    intros t Ht. assert (T1 := Rle_abs t). assert (T2 := Rle_abs (- t)). rewrite Rabs_Ropp in T2. specialize (Ha t ltac:(lra)). specialize (Hb t ltac:(lra)).
    apply Rabs_le. assert (X := Rle_abs (g a)). assert (Y := Rle_abs (- g b)). rewrite Rabs_Ropp in Y.
    assert (X' := Rabs_pos (g a)). assert (Y' := Rabs_pos (g b)). lra. }
  destruct (G _ _ (fun t => proj1 (H t))) as (V1 & P1 & B1). destruct (G _ _ (fun t => proj2 (H t))) as (V2 & P2 & B2).
  exists (V1 + V2). split; [lra|]. intros t Ht. eapply Rle_trans; [apply Cmod_parts|].
  specialize (B1 t Ht). specialize (B2 t Ht). cbn beta in *. lra.
Qed.

Lemma is_Cder_scal (c : C) f t l : is_Cder f t l -> is_Cder (fun t => c * f t)%C t (c * l)%C.
Proof.
  intros H. eapply is_Cder_eq; [reflexivity| |apply (is_Cder_mult (fun _ => c) f); [apply is_Cder_const|exact H]]. cbn beta. ring.
Qed.

Section Flow.
  Variable n : nat.
  Variable L : cmat.
  Variable g : cvec.
  Variable w : R -> cvec.
  Hypothesis Hw : forall t i, (i < n)%nat -> is_Cder (fun t => w t i) t (mdot n L (w t) i + g i)%C.

  Definition chain (k : nat) (t : R) : cvec :=
    match k with
    | O => w t
    | S k => fun i => csum n (fun j => mpow n L k i j * (mdot n L (w t) j + g j))%C
    end.
  Lemma chain_1 t i : (i < n)%nat -> chain 1 t i = (mdot n L (w t) i + g i)%C.
  Proof.
    intros Hi. unfold chain. cbn [mpow]. rewrite (csum_single n i _ Hi).
    - unfold mident. rewrite Nat.eqb_refl. ring.
    - intros k _ Hk. unfold mident. destruct (Nat.eqb_spec i k); [congruence|]. ring.
  Qed.
  Lemma vel_der t j : (j < n)%nat -> is_Cder (fun t => mdot n L (w t) j + g j)%C t (mdot n L (fun l => mdot n L (w t) l + g l)%C j).
  Proof.
    intros Hj. eapply is_Cder_eq; [reflexivity| |apply is_Cder_plus; [|apply is_Cder_const]].
    2: { unfold mdot at 1. apply (is_Cder_csum n (fun l t => L j l * w t l)%C). intros l Hl. apply is_Cder_scal. apply Hw. exact Hl. }
    cbn beta. rewrite Cplus_0_r. reflexivity.
  Qed.
  Lemma chain_der k t i : (i < n)%nat -> is_Cder (fun t => chain k t i) t (chain (S k) t i).
  Proof.
    intros Hi. destruct k as [|k].
    - rewrite chain_1 by exact Hi. apply Hw. exact Hi.
    - cbn [chain]. eapply is_Cder_eq; [reflexivity| |apply (is_Cder_csum n (fun j t => mpow n L k i j * (mdot n L (w t) j + g j))%C);
        intros j Hj; apply is_Cder_scal; apply vel_der; exact Hj].
      cbn beta. set (v := fun l => (mdot n L (w t) l + g l)%C).
      transitivity (csum n (fun j => csum n (fun l => mpow n L k i l * L l j * v j))%C).
      + rewrite csum_swap. apply csum_ext. intros l _. unfold mdot. rewrite <- csum_scal. apply csum_ext. intros; ring.
      + apply csum_ext. intros j Hj. cbn [mpow]. rewrite (mpow_comm n L k i j Hi Hj). unfold mprod. fold (v j).
        rewrite Cmult_comm, <- csum_scal. apply csum_ext. intros; ring.
  Qed.

  Lemma vel_bounded h : exists V, 0 <= V /\ forall t j, Rabs t <= Rabs h -> (j < n)%nat -> Cmod (mdot n L (w t) j + g j)%C <= V.
  Proof.
    assert (G : forall q, (q <= n)%nat -> exists V, 0 <= V /\ forall t j, Rabs t <= Rabs h -> (j < q)%nat -> Cmod (mdot n L (w t) j + g j)%C <= V).
    { induction q as [|q IH]; intros Hq; [exists 0; split; [lra|]; intros; lia|].
      destruct (IH ltac:(lia)) as (V & HV & HB).
      destruct (Cder_bounded _ _ h (fun t => vel_der t q ltac:(lia))) as (V2 & HV2 & HB2).
      exists (V + V2). split; [lra|]. intros t j Ht Hj. destruct (Nat.eq_dec j q) as [->|].
      - specialize (HB2 t Ht). cbn beta in HB2. lra.
      - specialize (HB t j Ht ltac:(lia)). lra. }
    apply (G n). lia.
  Qed.

  (** The Taylor polynomials of [w] are the partial sums of the two series. *)
  Lemma chain_taylor h m i : (i < n)%nat ->
    csum (S m) (fun k => RtoC (h ^ k / INR (fact k)) * chain k 0 i)%C
    = (mdot n (psum n 0 (mtimes (RtoC h) L) (S m)) (w 0) i + RtoC h * mdot n (psum n 1 (mtimes (RtoC h) L) m) g i)%C.
  Proof.
    intros Hi.
    assert (HP : forall k, meq n (mpow n (mtimes (RtoC h) L) k) (mtimes (RtoC (h ^ k)) (mpow n L k))).
    { induction k as [|k IH]; cbn [mpow pow].
      - intros a b _ _. unfold mtimes. ring.
      - transitivity (mprod n (mtimes (RtoC h) L) (mtimes (RtoC (h ^ k)) (mpow n L k))).
        + apply mprod_proper; [reflexivity|exact IH].
        + rewrite mprod_times_l, mprod_times_r. intros a b _ _. unfold mtimes. rewrite RtoC_mult. ring. }
    rewrite csum_shift. cbn [chain].
    assert (E0 : mdot n (psum n 0 (mtimes (RtoC h) L) (S m)) (w 0) i
                 = (w 0 i + csum m (fun k => RtoC (h ^ S k / INR (fact (S k))) * csum n (fun j => mpow n L k i j * mdot n L (w 0) j)))%C).
    { unfold mdot at 1. unfold psum, mpoly.
      transitivity (csum n (fun j => csum (S m) (fun k => RtoC (pcoef 0 k) * (RtoC (h ^ k) * mpow n L k i j) * w 0 j))%C).
      { apply csum_ext. intros j Hj. rewrite Cmult_comm, <- csum_scal. apply csum_ext. intros k _. rewrite (HP k i j Hi Hj). unfold mtimes. ring. }
      rewrite csum_swap, csum_shift. f_equal.
      - rewrite (csum_single n i _ Hi).
        + cbn [mpow pow]. unfold mident, pcoef. rewrite Nat.eqb_refl. cbn [fact Nat.add INR]. replace (1 / 1) with 1 by field. ring.
        + intros k _ Hk. cbn [mpow]. unfold mident. destruct (Nat.eqb_spec i k); [congruence|]. ring.
      - apply csum_ext. intros k _. rewrite <- csum_scal.
        transitivity (csum n (fun j => csum n (fun l => RtoC (h ^ S k / INR (fact (S k))) * (mpow n L k i l * (L l j * w 0 j))))%C).
        + apply csum_ext. intros j Hj. cbn [mpow]. rewrite (mpow_comm n L k i j Hi Hj). unfold mprod.
          rewrite <- csum_scal. rewrite Cmult_comm, <- csum_scal. rewrite Cmult_comm. rewrite Cmult_comm, <- csum_scal.
          apply csum_ext. intros l _. unfold pcoef, Rdiv. rewrite Nat.add_0_r, !RtoC_mult. cbn [fact INR Nat.add Nat.mul]. ring.
        + rewrite csum_swap. apply csum_ext. intros l _. rewrite csum_scal. f_equal. unfold mdot. rewrite <- csum_scal. reflexivity. }
    assert (E1 : (RtoC h * mdot n (psum n 1 (mtimes (RtoC h) L) m) g i)%C
                 = csum m (fun k => RtoC (h ^ S k / INR (fact (S k))) * csum n (fun j => mpow n L k i j * g j))%C).
    { unfold mdot, psum, mpoly. rewrite <- csum_scal.
      transitivity (csum n (fun j => csum m (fun k => RtoC h * (RtoC (pcoef 1 k) * (RtoC (h ^ k) * mpow n L k i j) * g j)))%C).
      { apply csum_ext. intros j Hj. rewrite csum_scal. f_equal. rewrite Cmult_comm, <- csum_scal. apply csum_ext. intros k _.
        rewrite (HP k i j Hi Hj). unfold mtimes. ring. }
      rewrite csum_swap. apply csum_ext. intros k _. rewrite <- csum_scal. apply csum_ext. intros j _.
      unfold pcoef, Rdiv. replace (k + 1)%nat with (S k) by lia. cbn [pow fact Nat.mul Nat.add INR]. rewrite !RtoC_mult. ring. }
    rewrite E0, E1. unfold pow at 1, fact at 1. cbn [INR].
    replace (RtoC (1 / 1)) with (RtoC 1) by (f_equal; field). rewrite Cmult_1_l, <- Cplus_assoc. f_equal.
    rewrite <- csum_plus. apply csum_ext. intros k _. rewrite <- Cmult_plus_distr_l. f_equal.
    rewrite <- csum_plus. apply csum_ext. intros j _. ring.
  Qed.

  Lemma mdot_small (A : nat -> cmat) (P : cmat) (v : cvec) i : (i < n)%nat ->
    (forall j, (j < n)%nat -> forall eps : R, 0 < eps -> exists K, forall m, (K <= m)%nat -> Cmod (A m i j - P i j)%C < eps) ->
    forall eps : R, 0 < eps -> exists K, forall m, (K <= m)%nat -> Cmod (mdot n (A m) v i - mdot n P v i)%C < eps.
  Proof.
    intros Hi H.
    assert (G : forall q, (q <= n)%nat -> forall eps : R, 0 < eps -> exists K, forall m, (K <= m)%nat ->
              Cmod (csum q (fun j => A m i j * v j) - csum q (fun j => P i j * v j))%C < eps).
    { induction q as [|q IH]; intros Hq eps He.
      - exists O. intros m _. cbn [csum]. unfold Cminus. rewrite Cplus_opp_r, Cmod_0. exact He.
      - destruct (IH ltac:(lia) (eps / 2) ltac:(lra)) as [K HK].
        assert (P0 := Cmod_ge_0 (v q)).
        destruct (H q ltac:(lia) (eps / 2 / (Cmod (v q) + 1))) as [K2 HK2]; [apply Rdiv_lt_0_compat; lra|].
        exists (max K K2). intros m Hm. specialize (HK m ltac:(lia)). specialize (HK2 m ltac:(lia)). cbn [csum].
        replace (csum q (fun j => A m i j * v j) + A m i q * v q - (csum q (fun j => P i j * v j) + P i q * v q))%C
          with (csum q (fun j => A m i j * v j) - csum q (fun j => P i j * v j) + (A m i q - P i q) * v q)%C by ring.
        eapply Rle_lt_trans; [apply Cmod_triangle|]. rewrite Cmod_mult.
        assert (X : Cmod (A m i q - P i q)%C * Cmod (v q) <= eps / 2).
        { apply Rle_trans with (eps / 2 / (Cmod (v q) + 1) * (Cmod (v q) + 1)); [|right; field; lra].
          apply Rmult_le_compat; try apply Cmod_ge_0; lra. }
        lra. }
    apply (G n). lia.
  Qed.

  Theorem forced_matrix (h : R) (e P1 : cmat) i : (i < n)%nat ->
    is_psi n 0 (mtimes (RtoC h) L) e -> is_psi n 1 (mtimes (RtoC h) L) P1 ->
    w h i = (mdot n e (w 0) i + RtoC h * mdot n P1 g i)%C.
  Proof.
    intros Hi He HP.
    destruct (vel_bounded h) as (V & HV & HB). destruct (mat_bounded n L) as (x & Hx & HL).
    assert (Z : Cmod (w h i - (mdot n e (w 0) i + RtoC h * mdot n P1 g i))%C <= 0).
    { apply le_epsilon. intros eps Heps. rewrite Rplus_0_l.
      destruct (mdot_small (psum n 0 (mtimes (RtoC h) L)) e (w 0) i Hi (fun j Hj => He i j Hi Hj) (eps / 3) ltac:(lra)) as [K1 HK1].
      assert (Ph := Rabs_pos h).
      destruct (mdot_small (psum n 1 (mtimes (RtoC h) L)) P1 g i Hi (fun j Hj => HP i j Hi Hj) (eps / 3 / (Rabs h + 1))
                  ltac:(apply Rdiv_lt_0_compat; lra)) as [K2 HK2].
      assert (Px : 0 <= Rabs h * x) by (apply Rmult_le_pos; lra).
      destruct (cv_speed_pow_fact (Rabs h * x) (eps / 3 / (2 * V * (Rabs h + 1)  + 1))) as [K3 HK3].
      { apply Rdiv_lt_0_compat; [lra|]. assert (0 <= V * (Rabs h + 1)) by (apply Rmult_le_pos; lra). lra. }
      set (m := max (max K1 K2) K3).
      specialize (HK1 (S m) ltac:(lia)). specialize (HK2 m ltac:(lia)). specialize (HK3 m ltac:(lia)).
      unfold R_dist in HK3. rewrite Rminus_0_r in HK3.
      rewrite Rabs_pos_eq in HK3 by (apply Rmult_le_pos; [apply pow_le; exact Px|left; apply Rinv_0_lt_compat, INR_fact_lt_0]).
      assert (T := taylor_complex (x ^ m * V) h (S m) (fun k t => chain k t i) (fun k t => chain_der k t i Hi)).
      cbn beta in T. rewrite chain_taylor in T by exact Hi. 
      assert (TB : forall t, Rabs t <= Rabs h -> Cmod (chain (S m) t i) <= x ^ m * V).
      { intros t Ht. cbn [chain]. eapply Rle_trans; [apply Cmod_csum|].
        eapply Rle_trans; [apply (sumf_le n _ (fun j => V * Cmod (mpow n L m i j)))|].
        - intros j Hj. rewrite Cmod_mult, Rmult_comm. apply Rmult_le_compat_r; [apply Cmod_ge_0|]. apply HB; assumption.
        - rewrite sumf_mul, Rmult_comm. apply Rmult_le_compat_r; [exact HV|]. apply (rown_pow n L x m i HL Hi). }
      specialize (T TB). cbn [chain] in T.
      replace (w h i - (mdot n e (w 0) i + RtoC h * mdot n P1 g i))%C
        with ((w h i - (mdot n (psum n 0 (mtimes (RtoC h) L) (S m)) (w 0) i + RtoC h * mdot n (psum n 1 (mtimes (RtoC h) L) m) g i))
              + ((mdot n (psum n 0 (mtimes (RtoC h) L) (S m)) (w 0) i - mdot n e (w 0) i)
                 + RtoC h * (mdot n (psum n 1 (mtimes (RtoC h) L) m) g i - mdot n P1 g i)))%C by ring.
      eapply Rle_trans; [apply Cmod_triangle|].
      assert (X2 := Cmod_triangle (mdot n (psum n 0 (mtimes (RtoC h) L) (S m)) (w 0) i - mdot n e (w 0) i)%C
                (RtoC h * (mdot n (psum n 1 (mtimes (RtoC h) L) m) g i - mdot n P1 g i))%C).
      rewrite Cmod_mult, Cmod_R in X2.
      assert (X3 : Rabs h * Cmod (mdot n (psum n 1 (mtimes (RtoC h) L) m) g i - mdot n P1 g i)%C <= eps / 3).
      { apply Rle_trans with ((Rabs h + 1) * (eps / 3 / (Rabs h + 1))); [|right; field; lra].
        apply Rmult_le_compat; try apply Cmod_ge_0; lra. }
      assert (X4 : 2 * (x ^ m * V) * (Rabs h ^ S m / INR (fact (S m))) <= eps / 3).
      { assert (F1 := INR_fact_lt_0 m). assert (F2 := INR_fact_lt_0 (S m)).
        assert (F3 : / INR (fact (S m)) <= / INR (fact m)) by (apply Rinv_le_contravar; [exact F1|apply le_INR, fact_le; lia]).
        assert (Y : 2 * (x ^ m * V) * (Rabs h ^ S m / INR (fact (S m)))
                  <= 2 * V * Rabs h * ((Rabs h * x) ^ m / INR (fact m))).
        { rewrite Rpow_mult_distr. cbn [pow]. unfold Rdiv.
          replace (2 * (x ^ m * V) * (Rabs h * Rabs h ^ m * / INR (fact (S m)))) with (2 * V * Rabs h * (Rabs h ^ m * x ^ m) * / INR (fact (S m))) by ring.
          replace (2 * V * Rabs h * (Rabs h ^ m * x ^ m * / INR (fact m))) with (2 * V * Rabs h * (Rabs h ^ m * x ^ m) * / INR (fact m)) by ring.
          apply Rmult_le_compat_l; [|exact F3].
          assert (0 <= Rabs h ^ m) by (apply pow_le; exact Ph). assert (0 <= x ^ m) by (apply pow_le; exact Hx).
          repeat apply Rmult_le_pos; lra. }
        eapply Rle_trans; [exact Y|].
        assert (VV : 0 <= V * (Rabs h + 1)) by (apply Rmult_le_pos; lra).
        assert (V2 : 0 <= V * Rabs h) by (apply Rmult_le_pos; lra).
        apply Rle_trans with ((2 * V * (Rabs h + 1) + 1) * (eps / 3 / (2 * V * (Rabs h + 1) + 1))); [|right; field; lra].
        apply Rmult_le_compat; [lra| |lra|left; exact HK3].
        apply Rmult_le_pos; [apply pow_le; exact Px|left; apply Rinv_0_lt_compat, F1]. }
      lra. }
    assert (Z0 := Cmod_ge_0 (w h i - (mdot n e (w 0) i + RtoC h * mdot n P1 g i))%C).
    assert (Z1 : Cmod (w h i - (mdot n e (w 0) i + RtoC h * mdot n P1 g i))%C = 0) by lra.
    apply Cmod_eq_0 in Z1.
    replace (w h i) with (w h i - (mdot n e (w 0) i + RtoC h * mdot n P1 g i) + (mdot n e (w 0) i + RtoC h * mdot n P1 g i))%C by ring.
    rewrite Z1. ring.
  Qed.
End Flow.
