(** * Neumann series: inverses near the identity, and perturbed inverses *)

From Coq Require Import ZArith List Bool Reals Lra Lia FunctionalExtensionality Setoid Morphisms.
From Coquelicot Require Import Complex Lim_seq Rbar.
From Verif Require Import Scalars CInst SpecRK SchemeIFReal SpecPhi SpecPoly ContourReal PropsETD ContourMatrix MatExp.
Local Open Scope R_scope.

(** Limits of Cauchy sequences, as a function of the sequence. *)
Definition Clim (s : nat -> C) : C := (real (Lim_seq (fun m => fst (s m))), real (Lim_seq (fun m => snd (s m)))).
Lemma Clim_lim s : (forall eps, 0 < eps -> exists K, forall a b, (K <= a)%nat -> (K <= b)%nat -> Cmod (s a - s b)%C < eps) -> clim s (Clim s).
Proof.
  intros D.
  assert (L : ex_finite_lim_seq (fun m => fst (s m)) /\ ex_finite_lim_seq (fun m => snd (s m))).
  { split; apply ex_lim_seq_cauchy_corr; intros eps; destruct (D eps (cond_pos eps)) as [K HK]; exists K; intros a b Ha Hb;
      (eapply Rle_lt_trans; [|apply (HK a b Ha Hb)]); destruct (parts_Cmod (s a - s b)%C) as [P1 P2]; assumption. }
  destruct L as [[x Hx] [y Hy]]. unfold Clim. rewrite (is_lim_seq_unique _ _ Hx), (is_lim_seq_unique _ _ Hy). cbn [real].
  intros eps He. apply is_lim_seq_spec in Hx. apply is_lim_seq_spec in Hy.
  destruct (Hx (mkposreal (eps / 2) ltac:(lra))) as [K1 H1]. destruct (Hy (mkposreal (eps / 2) ltac:(lra))) as [K2 H2]. cbn [pos] in H1, H2.
  exists (max K1 K2). intros m Hm. eapply Rle_lt_trans; [apply Cmod_parts|]. specialize (H1 m ltac:(lia)). specialize (H2 m ltac:(lia)).
  destruct (s m) as [a b]. cbn in *. unfold Rminus in *. lra.
Qed.

Lemma mplus_minus n (a b : cmat) : meq n (mplus b (mminus a b)) a.
Proof. intros i j _ _. unfold mplus, mminus. ring. Qed.
Lemma rown_sub n (a b : cmat) i : (i < n)%nat -> rown n a i <= rown n b i + rown n (mminus a b) i.
Proof. intros Hi. rewrite <- (rown_ext n _ _ i (mplus_minus n a b) Hi). apply rown_plus. Qed.
Lemma rown_swap n (a b : cmat) i : rown n (mminus a b) i = rown n (mminus b a) i.
Proof. unfold rown. apply sumf_ext. intros k _. unfold mminus. rewrite <- Cmod_opp. f_equal. ring. Qed.
Lemma rown_zero_eq n (a b : cmat) : (forall i, (i < n)%nat -> rown n (mminus a b) i <= 0) -> meq n a b.
Proof.
  intros H i j Hi Hj. assert (X := entry_rown n (mminus a b) i j Hj). specialize (H i Hi). unfold mminus in X at 1.
  assert (Z : Cmod (a i j - b i j)%C = 0) by (assert (Y := Cmod_ge_0 (a i j - b i j)%C); lra).
  apply Cmod_eq_0 in Z. replace (a i j) with ((a i j - b i j) + b i j)%C by ring. rewrite Z. ring.
Qed.

Section Neumann.
  Variable n : nat.
  Variable y : cmat.
  Hypothesis Hy : forall i, (i < n)%nat -> rown n y i <= / 2.
  Definition npart (m : nat) : cmat := mpoly n y (fun _ => RtoC 1) m.
  Definition neu : cmat := fun i j => Clim (fun m => npart m i j).
  Lemma npart_tail K d i : (i < n)%nat -> rown n (mminus (npart (K + d)) (npart K)) i <= 2 * (/ 2) ^ K - 2 * (/ 2) ^ (K + d).
  Proof.
    intros Hi. induction d as [|d IH].
    - rewrite Nat.add_0_r. rewrite (rown_ext n _ (mtimes (RtoC 0) mident) i); [rewrite rown_times, Cmod_0; lra|intros a b _ _; unfold mminus, mtimes; ring|exact Hi].
    - rewrite (rown_ext n _ (mplus (mminus (npart (K + d)) (npart K)) (mpow n y (K + d))) i); [| |exact Hi].
      + eapply Rle_trans; [apply rown_plus|]. assert (P := rown_pow n y (/ 2) (K + d) i Hy Hi). rewrite Nat.add_succ_r. cbn [pow]. lra.
      + intros a b Ha Hb. rewrite Nat.add_succ_r. unfold npart, mplus, mminus. unfold mpoly at 1. cbn [csum]. fold (mpoly n y (fun _ => RtoC 1) (K + d) a b).
        unfold mpoly. ring.
  Qed.
  Lemma half_small eps : 0 < eps -> exists K, 4 * (/ 2) ^ K < eps.
  Proof.
    intros He. destruct (pow_lt_1_zero (/ 2) ltac:(rewrite Rabs_pos_eq; lra) (eps / 4) ltac:(lra)) as [K HK]. exists K. specialize (HK K (le_n K)).
    rewrite Rabs_pos_eq in HK by (apply pow_le; lra). lra.
  Qed.
  Lemma neu_lim i j : (i < n)%nat -> (j < n)%nat -> clim (fun m => npart m i j) (neu i j).
  Proof.
    intros Hi Hj. apply Clim_lim. intros eps He. destruct (half_small eps He) as [K HK]. exists K.
    assert (G : forall a, (K <= a)%nat -> Cmod (npart a i j - npart K i j)%C <= 2 * (/ 2) ^ K).
    { intros a Ha. replace a with (K + (a - K))%nat by lia. assert (T := npart_tail K (a - K) i Hi). assert (X := entry_rown n (mminus (npart (K + (a - K))) (npart K)) i j Hj).
      unfold mminus in X at 1. assert (P : 0 <= (/ 2) ^ (K + (a - K))) by (apply pow_le; lra). lra. }
    intros a b Ha Hb. assert (G1 := G a Ha). assert (G2 := G b Hb).
    replace (npart a i j - npart b i j)%C with ((npart a i j - npart K i j) + - (npart b i j - npart K i j))%C by ring.
    eapply Rle_lt_trans; [apply Cmod_triangle|]. rewrite Cmod_opp. lra.
  Qed.
  Lemma neu_close K i : (i < n)%nat -> rown n (mminus neu (npart K)) i <= 2 * (/ 2) ^ K.
  Proof.
    intros Hi. apply (rown_lim n (fun m => mminus (npart (K + m)) (npart K))).
    - intros j Hj eps He. destruct (neu_lim i j Hi Hj eps He) as [M HM]. exists M. intros m Hm. specialize (HM (K + m)%nat ltac:(lia)). unfold mminus.
      replace (npart (K + m) i j - npart K i j - (neu i j - npart K i j))%C with (npart (K + m) i j - neu i j)%C by ring. exact HM.
    - intros m. assert (T := npart_tail K m i Hi). assert (P : 0 <= (/ 2) ^ (K + m)) by (apply pow_le; lra). lra.
  Qed.
  Lemma neu_norm i : (i < n)%nat -> rown n neu i <= 2.
  Proof.
    intros Hi. assert (X := neu_close 0 i Hi). rewrite (rown_ext n _ neu i) in X; [cbn in X; lra| |exact Hi].
    intros a b _ _. unfold mminus, npart, mpoly. cbn [csum]. ring.
  Qed.
  Lemma npart_left m : meq n (mprod n (mminus mident y) (npart m)) (mminus mident (mpow n y m)).
  Proof.
    induction m as [|m IH].
    - intros i j Hi Hj. unfold mprod at 1. rewrite csum_0; [unfold mminus; cbn [mpow]; ring|]. intros k Hk. unfold npart, mpoly. cbn [csum]. ring.
    - assert (E : meq n (npart (S m)) (mplus (npart m) (mpow n y m))) by (intros a b _ _; unfold npart, mplus, mpoly; cbn [csum]; ring).
      rewrite E, mprod_plus_r, IH, mprod_minus_l, mprod_ident_l. cbn [mpow]. intros a b _ _. unfold mplus, mminus. ring.
  Qed.
  Lemma npart_right m : meq n (mprod n (npart m) (mminus mident y)) (mminus mident (mpow n y m)).
  Proof.
    induction m as [|m IH].
    - intros i j Hi Hj. unfold mprod at 1. rewrite csum_0; [unfold mminus; cbn [mpow]; ring|]. intros k Hk. unfold npart, mpoly. cbn [csum]. ring.
    - assert (E : meq n (npart (S m)) (mplus (npart m) (mpow n y m))) by (intros a b _ _; unfold npart, mplus, mpoly; cbn [csum]; ring).
      rewrite E, mprod_plus_l, IH, mprod_minus_r, mprod_ident_r, <- mpow_comm. cbn [mpow]. intros a b _ _. unfold mplus, mminus. ring.
  Qed.
  Lemma id_minus_norm i : (i < n)%nat -> rown n (mminus mident y) i <= 2.
  Proof. intros Hi. eapply Rle_trans; [apply rown_minus|]. rewrite (rown_ident n i Hi). specialize (Hy i Hi). lra. Qed.
  Lemma squeeze (a b : cmat) : (forall m i, (i < n)%nat -> rown n (mminus a b) i <= 5 * (/ 2) ^ m) -> meq n a b.
  Proof.
    intros H. apply rown_zero_eq. intros i Hi. destruct (Rle_dec (rown n (mminus a b) i) 0) as [|Hn]; [assumption|exfalso].
    destruct (half_small (rown n (mminus a b) i / 2) ltac:(lra)) as [K HK]. specialize (H K i Hi). assert (P : 0 <= (/ 2) ^ K) by (apply pow_le; lra). lra.
  Qed.
  Lemma neu_inv : is_inv n (mminus mident y) neu.
  Proof.
    split; apply squeeze; intros m i Hi.
    - rewrite (rown_ext n _ (mminus (mprod n (mminus mident y) (mminus neu (npart m))) (mpow n y m)) i); [| |exact Hi].
      + eapply Rle_trans; [apply rown_minus|]. assert (P := rown_pow n y (/ 2) m i Hy Hi).
        assert (Q := rown_prod n (mminus mident y) (mminus neu (npart m)) i _ (fun k Hk => neu_close m k Hk)). assert (R1 := id_minus_norm i Hi).
        assert (0 <= (/ 2) ^ m) by (apply pow_le; lra).
        assert (rown n (mminus mident y) i * (2 * (/ 2) ^ m) <= 2 * (2 * (/ 2) ^ m)) by (apply Rmult_le_compat_r; lra). lra.
      + rewrite mprod_minus_r, npart_left. intros a b _ _. unfold mminus. ring.
    - rewrite (rown_ext n _ (mminus (mprod n (mminus neu (npart m)) (mminus mident y)) (mpow n y m)) i); [| |exact Hi].
      + eapply Rle_trans; [apply rown_minus|]. assert (P := rown_pow n y (/ 2) m i Hy Hi).
        assert (Q := rown_prod n (mminus neu (npart m)) (mminus mident y) i 2 id_minus_norm). assert (R1 := neu_close m i Hi).
        assert (0 <= (/ 2) ^ m) by (apply pow_le; lra). lra.
      + rewrite mprod_minus_l, npart_right. intros a b _ _. unfold mminus. ring.
  Qed.
End Neumann.

Lemma is_inv_unique n (m q q' : cmat) : is_inv n m q -> is_inv n m q' -> meq n q q'.
Proof.
  intros [_ H] [H' _]. transitivity (mprod n q (mprod n m q')); [rewrite H', mprod_ident_r; reflexivity|].
  rewrite <- mprod_assoc, H, mprod_ident_l. reflexivity.
Qed.
Lemma is_inv_ext n (m m' q : cmat) : meq n m m' -> is_inv n m q -> is_inv n m' q.
Proof. intros E [H1 H2]. split; [rewrite <- E; exact H1|rewrite <- E; exact H2]. Qed.

(** Resolvents of matrices inside half the circle. *)
Definition nres (n : nat) (w : C) (z : cmat) : cmat := mtimes (/ w)%C (neu n (mtimes (/ w)%C z)).
Lemma nres_inv n w z r : 0 < r -> Cmod w = r -> (forall i, (i < n)%nat -> rown n z i <= r / 2) ->
  is_inv n (shift w z) (nres n w z) /\ forall i, (i < n)%nat -> rown n (nres n w z) i <= 2 / r.
Proof.
  intros Hr Hw Hz. assert (NZ : w <> RtoC 0) by (intros E; rewrite E, Cmod_0 in Hw; lra).
  assert (Y : forall i, (i < n)%nat -> rown n (mtimes (/ w)%C z) i <= / 2).
  { intros i Hi. rewrite rown_times, Cmod_inv, Hw by exact NZ. specialize (Hz i Hi).
    apply Rle_trans with (/ r * (r / 2)); [apply Rmult_le_compat_l; [left; apply Rinv_0_lt_compat; exact Hr|exact Hz]|right; field; lra]. }
  assert (E : meq n (shift w z) (mtimes w (mminus mident (mtimes (/ w)%C z)))) by (intros a b _ _; unfold shift, mtimes, mminus; field; exact NZ).
  assert (I := neu_inv n _ Y). destruct I as [I1 I2]. split.
  - unfold nres. split.
    + rewrite E, mprod_times_l, mprod_times_r, I1. intros a b _ _. unfold mtimes. field. exact NZ.
    + rewrite E, mprod_times_l, mprod_times_r, I2. intros a b _ _. unfold mtimes. field. exact NZ.
  - intros i Hi. unfold nres. rewrite rown_times, Cmod_inv, Hw by exact NZ. assert (X := neu_norm n _ Y i Hi).
    replace (2 / r) with (/ r * 2) by (field; lra). apply Rmult_le_compat_l; [left; apply Rinv_0_lt_compat; exact Hr|exact X].
Qed.

(** The inverse of a perturbed matrix. *)
Lemma inv_perturbed n (m m' q : cmat) x d : is_inv n m q -> (forall i, (i < n)%nat -> rown n q i <= x) -> (forall i, (i < n)%nat -> rown n (mminus m' m) i <= d) -> 0 <= x -> 0 <= d -> x * d <= / 2 ->
  exists q', is_inv n m' q' /\ (forall i, (i < n)%nat -> rown n q' i <= 2 * x) /\ forall i, (i < n)%nat -> rown n (mminus q' q) i <= 2 * (x * x) * d.
Proof.
  intros [I1 I2] Hq Hd Hx Hd0 Hs. set (y := mprod n q (mminus m m')).
  assert (Y : forall i, (i < n)%nat -> rown n y i <= / 2).
  { intros i Hi. eapply Rle_trans; [apply (rown_prod n q (mminus m m') i d)|].
    - intros k Hk. rewrite rown_swap. apply Hd. exact Hk.
    - eapply Rle_trans; [apply Rmult_le_compat_r; [exact Hd0|apply Hq; exact Hi]|exact Hs]. }
  destruct (neu_inv n y Y) as [J1 J2]. assert (NN := neu_norm n y Y).
  assert (E : meq n (mprod n q m') (mminus mident y)).
  { unfold y. rewrite mprod_minus_r, I2. intros a b _ _. unfold mminus. ring. }
  assert (E2 : meq n m' (mprod n m (mminus mident y))).
  { rewrite <- E, <- mprod_assoc, I1, mprod_ident_l. reflexivity. }
  set (q' := mprod n (neu n y) q).
  assert (B : forall i, (i < n)%nat -> rown n q' i <= 2 * x).
  { intros i Hi. eapply Rle_trans; [apply (rown_prod n (neu n y) q i x Hq)|]. apply Rmult_le_compat_r; [exact Hx|apply NN; exact Hi]. }
  exists q'. split; [|split; [exact B|]].
  - split.
    + unfold q'. rewrite E2. rewrite mprod_assoc, <- (mprod_assoc n (mminus mident y)), J1, mprod_ident_l. exact I1.
    + unfold q'. rewrite mprod_assoc, E. exact J2.
  - assert (L1 : meq n (mprod n q' m') mident) by (unfold q'; rewrite mprod_assoc, E; exact J2).
    assert (D : meq n (mminus q' q) (mprod n (mprod n q' (mminus m m')) q)).
    { rewrite mprod_minus_r, mprod_minus_l, L1, mprod_ident_l, mprod_assoc, I1, mprod_ident_r. reflexivity. }
    intros i Hi. rewrite (rown_ext n _ _ i D Hi). eapply Rle_trans; [apply (rown_prod n _ q i x Hq)|].
    assert (P := rown_prod n q' (mminus m m') i d). assert (R1 : forall k, (k < n)%nat -> rown n (mminus m m') k <= d) by (intros k Hk; rewrite rown_swap; apply Hd; exact Hk).
    specialize (P R1). assert (R2 := B i Hi). assert (rown n q' i * d <= 2 * x * d) by (apply Rmult_le_compat_r; assumption).
    replace (2 * (x * x) * d) with (2 * x * d * x) by ring. apply Rmult_le_compat_r; [exact Hx|lra].
Qed.
