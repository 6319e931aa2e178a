(** * Uniform grids and wavenumbers (C49, C50), mirrored grids (C57) *)

From Coq Require Import ZArith List Bool Reals Lra Lia.
From Flocq Require Import Core BinarySingleNaN Relative.
From Verif Require Import Scalars Config Grids B64.
Import ListNotations.
Local Open Scope R_scope.

Definition Rceil (x : R) : option Z := Some (Zceil x).
Notation fft_grid := (construct_x_kx_fft Rops Rceil (2 * PI)).
Notation rfft_grid := (construct_x_kx_rfft Rops Rceil (2 * PI)).
Notation num x := (PyN (A := T Rops) false x).

Lemma check_even (F : tops) (n : nat) : (2 < n)%nat -> Nat.even n = true -> check_n F (PInt (Z.of_nat n)) = inr n.
Proof.
  intros H E. cbn. apply Nat.even_spec in E. destruct E as [k ->].
  replace (Z.of_nat (2 * k) <=? 2)%Z with false by (symmetry; apply Z.leb_gt; lia).
  replace (Z.of_nat (2 * k) mod 2)%Z with 0%Z.
  2:{ rewrite Nat2Z.inj_mul, Z.mul_comm. symmetry. apply Z.mod_mul. lia. }
  cbn [Z.eqb negb orb]. f_equal. lia.
Qed.
Lemma INR_pos' n : (2 < n)%nat -> 0 < INR n.
Proof. intros H. apply lt_0_INR. lia. Qed.

Lemma construct_eq (idx : nat -> list Z) (n : nat) (a b : pynum R) : (2 < n)%nat -> Nat.even n = true -> val a <> val b ->
  construct_x_kx Rops Rceil (2 * PI) idx (PInt (Z.of_nat n)) a b
  = inr (map (fun i => val a + INR i * ((val b - val a) / INR n)) (seq 0 n),
         map (fun j => 2 * PI * IZR j / (val b - val a)) (idx n)).
Proof.
  destruct a as [na a], b as [nb b]. cbn [val].
  intros H E D. unfold construct_x_kx. rewrite (check_even Rops n H E). assert (P := INR_pos' n H).
  unfold arange, arange_len. cbn [psub val isnp tdiv tsub Rops tofZ teqb]. rewrite <- INR_IZR_INZ.
  assert (N : (b - a) / INR n <> 0).
  { intros Q. apply D. assert (b - a = 0); [|lra].
    replace (b - a) with ((b - a) / INR n * INR n) by (field; lra). rewrite Q. ring. }
  unfold Reqb_. destruct (Req_EM_T _ _) as [Q|_]; [contradiction|]. cbn [andb].
  replace ((b - a) / ((b - a) / INR n)) with (INR n) by (field; split; lra).
  unfold Rceil. replace (Zceil (INR n)) with (Z.of_nat n) by (now rewrite INR_IZR_INZ, Zceil_IZR). rewrite Nat2Z.id.
  do 2 f_equal.
  - apply map_ext. intros i. unfold arange_val. cbn [tadd tmul tsub tofZ Rops]. rewrite <- !INR_IZR_INZ.
    destruct i as [|[|i]]; [cbn; ring|cbn; ring|]. change (a + INR (S (S i)) * (a + (b - a) / INR n - a) = a + INR (S (S i)) * ((b - a) / INR n)). ring.
  - unfold freq. rewrite map_map. apply map_ext. intros j. cbn [tadd tmul tsub tofZ tdiv Rops].
    rewrite <- !INR_IZR_INZ. field. repeat split; lra.
Qed.

Lemma nth_map_seq {B} (f : nat -> B) n i d : (i < n)%nat -> nth i (map f (seq 0 n)) d = f i.
Proof.
  intros H. rewrite (nth_indep _ d (f O)) by (rewrite map_length, seq_length; exact H).
  rewrite map_nth, seq_nth by exact H. reflexivity.
Qed.

(** C49: in exact arithmetic both functions return the [n] points [a + i (b-a)/n]. *)
Theorem C49_uniform_grid (n : nat) (a b : pynum R) : (2 < n)%nat -> Nat.even n = true -> val a <> val b ->
  exists x k k', fft_grid (PInt (Z.of_nat n)) a b = inr (x, k) /\ rfft_grid (PInt (Z.of_nat n)) a b = inr (x, k') /\
    length x = n /\ (forall i, (i < n)%nat -> nth i x 0 = val a + INR i * ((val b - val a) / INR n)) /\
    (val a < val b -> forall y, In y x -> val a <= y < val b).
Proof.
  intros H E D. unfold construct_x_kx_fft, construct_x_kx_rfft. rewrite !construct_eq by assumption.
  do 3 eexists. split; [reflexivity|]. split; [reflexivity|]. split; [rewrite map_length, seq_length; reflexivity|].
  split.
  - intros i Hi. exact (nth_map_seq _ n i 0 Hi).
  - intros L y Hy. apply in_map_iff in Hy. destruct Hy as [i [<- Hi]]. apply in_seq in Hi.
    assert (P := INR_pos' n H). assert (0 <= INR i < INR n) by (split; [apply pos_INR|apply lt_INR; lia]).
    replace (INR i * ((val b - val a) / INR n)) with ((val b - val a) * (INR i / INR n)) by (field; lra).
    assert (0 <= INR i / INR n < 1).
    { split; [apply Rmult_le_pos; [lra|left; apply Rinv_0_lt_compat; lra]|].
      apply (Rmult_lt_reg_r (INR n)); [lra|]. unfold Rdiv. rewrite Rmult_assoc, Rinv_l by lra. lra. }
    split; nra.
Qed.
Example C49_case : exists x k, fft_grid (PInt 4) (num 0) (num 2) = inr (x, k) /\ length x = 4%nat /\ nth 3 x 0 = 3 / 2.
Proof.
  destruct (C49_uniform_grid 4 (num 0) (num 2) ltac:(lia) eq_refl ltac:(cbn; lra)) as (x & k & k' & A & _ & B & D & _).
  exists x, k. split; [exact A|]. split; [exact B|]. rewrite (D 3%nat) by lia. cbn. lra.
Qed.

Lemma construct_bad idx (v : pyval R) a b e : check_n Rops v = inl e -> construct_x_kx Rops Rceil (2 * PI) idx v a b = inl e.
Proof. unfold construct_x_kx. now intros ->. Qed.
(** The checks: the number of points must be an [int], even and above 2; equal end points are an error. *)
Theorem C49_errors (v : pyval R) (a b : pynum R) :
  (match v with PFloat _ | POther => True | _ => False end -> fft_grid v a b = inl TypeError /\ rfft_grid v a b = inl TypeError) /\
  (forall z, (v = PInt z /\ (z <= 2 \/ Z.odd z = true))%Z \/ (exists t, v = PBool t) ->
     fft_grid v a b = inl ValueError /\ rfft_grid v a b = inl ValueError).
Proof.
  split.
  - destruct v; try contradiction; intros _; split; reflexivity.
  - intros z [[-> H]|[t ->]]; [|destruct t; split; reflexivity].
    assert (E : check_n Rops (PInt z) = inl ValueError).
    { cbn. destruct H as [H|H].
      - replace (z <=? 2)%Z with true by (symmetry; apply Z.leb_le; lia). reflexivity.
      - replace (z mod 2 =? 0)%Z with false; [now rewrite orb_true_r|]. symmetry. apply Z.eqb_neq.
        rewrite Zmod_odd, H. lia. }
    split; apply construct_bad; exact E.
Qed.
Theorem C49_empty_interval (n : nat) (a b : pynum R) : (2 < n)%nat -> Nat.even n = true -> val a = val b ->
  isnp a = false -> isnp b = false ->
  fft_grid (PInt (Z.of_nat n)) a b = inl ZeroDivisionError.
Proof.
  destruct a as [na a], b as [nb b]. cbn [val isnp].
  intros H E D A B. unfold construct_x_kx_fft, construct_x_kx. rewrite (check_even Rops n H E).
  unfold arange, arange_len. cbn [psub val isnp tdiv tsub Rops tofZ teqb]. rewrite A, B, D. cbn [orb negb andb].
  assert (P := INR_pos' n H). rewrite <- INR_IZR_INZ. unfold Reqb_. destruct (Req_EM_T _ _) as [_|Q]; [reflexivity|].
  exfalso. apply Q. field. lra.
Qed.

(** C50: the wavenumbers. *)
Lemma fft_index_len n : (0 < n)%nat -> length (fft_index n) = n.
Proof.
  intros H. unfold fft_index. rewrite app_length, !map_length, !seq_length.
  assert (A := Nat.div_mod (n - 1) 2 ltac:(lia)). assert (B := Nat.div_mod n 2 ltac:(lia)).
  assert (C := Nat.mod_upper_bound (n - 1) 2 ltac:(lia)). assert (D := Nat.mod_upper_bound n 2 ltac:(lia)). lia.
Qed.
Lemma even_half n : (2 < n)%nat -> Nat.even n = true -> (n = 2 * (n / 2) /\ (n - 1) / 2 + 1 = n / 2)%nat.
Proof.
  intros H E. apply Nat.even_spec in E. destruct E as [k ->]. rewrite (Nat.mul_comm 2 k), Nat.div_mul by lia.
  split; [lia|]. replace (k * 2 - 1)%nat with (1 + (k - 1) * 2)%nat by lia. rewrite Nat.div_add by lia. cbn. lia.
Qed.
Lemma fft_index_nth n i d : (2 < n)%nat -> Nat.even n = true -> (i < n)%nat ->
  nth i (fft_index n) d = (if (i <? n / 2)%nat then Z.of_nat i else Z.of_nat i - Z.of_nat n)%Z.
Proof.
  intros H E Hi. destruct (even_half n H E) as [Q1 Q2]. unfold fft_index. rewrite Q2.
  destruct (Nat.ltb_spec i (n / 2)) as [L|L].
  - rewrite app_nth1 by (rewrite map_length, seq_length; exact L). apply nth_map_seq. exact L.
  - rewrite app_nth2 by (rewrite map_length, seq_length; exact L). rewrite map_length, seq_length.
    rewrite nth_map_seq by lia. lia.
Qed.

Theorem C50_fft_wavenumbers (n : nat) (a b : pynum R) : (2 < n)%nat -> Nat.even n = true -> val a <> val b ->
  exists x k, fft_grid (PInt (Z.of_nat n)) a b = inr (x, k) /\ length k = n /\
    (forall i, (i < n / 2)%nat -> nth i k 0 = 2 * PI * INR i / (val b - val a)) /\
    (forall i, (n / 2 <= i < n)%nat -> nth i k 0 = - (2 * PI * INR (n - i) / (val b - val a))) /\
    (forall i, (0 < i < n)%nat -> i <> (n / 2)%nat -> nth (n - i) k 0 = - nth i k 0).
Proof.
  intros H E D. unfold construct_x_kx_fft. rewrite construct_eq by assumption. do 2 eexists. split; [reflexivity|].
  assert (P : forall i, (i < n)%nat -> nth i (map (fun j => 2 * PI * IZR j / (val b - val a)) (fft_index n)) 0
    = 2 * PI * IZR (if (i <? n / 2)%nat then Z.of_nat i else Z.of_nat i - Z.of_nat n)%Z / (val b - val a)).
  { intros i Hi. rewrite <- (fft_index_nth n i 0%Z H E Hi).
    rewrite (nth_indep _ 0 ((fun j => 2 * PI * IZR j / (val b - val a)) 0%Z)) by (rewrite map_length, fft_index_len; lia).
    apply (map_nth (fun j => 2 * PI * IZR j / (val b - val a))). }
  destruct (even_half n H E) as [Q1 Q2].
  split; [rewrite map_length, fft_index_len by lia; reflexivity|]. repeat split.
  - intros i Hi. rewrite P by lia. rewrite (proj2 (Nat.ltb_lt _ _) Hi), <- INR_IZR_INZ. reflexivity.
  - intros i Hi. rewrite P by lia. rewrite (proj2 (Nat.ltb_ge _ _) (proj1 Hi)). rewrite minus_INR by lia.
    rewrite minus_IZR, <- !INR_IZR_INZ. change (T Rops) with R; field; lra.
  - intros i Hi N. rewrite !P by lia. destruct (Nat.ltb_spec i (n / 2)); destruct (Nat.ltb_spec (n - i) (n / 2)); try lia.
    + rewrite minus_IZR, <- !INR_IZR_INZ. rewrite minus_INR by lia. change (T Rops) with R; field; lra.
    + rewrite minus_IZR, <- !INR_IZR_INZ. rewrite minus_INR by lia. change (T Rops) with R; field; lra.
Qed.
Theorem C50_rfft_wavenumbers (n : nat) (a b : pynum R) : (2 < n)%nat -> Nat.even n = true -> val a <> val b ->
  exists x k, rfft_grid (PInt (Z.of_nat n)) a b = inr (x, k) /\ length k = (n / 2 + 1)%nat /\
    forall i, (i <= n / 2)%nat -> nth i k 0 = 2 * PI * INR i / (val b - val a).
Proof.
  intros H E D. unfold construct_x_kx_rfft. rewrite construct_eq by assumption. do 2 eexists. split; [reflexivity|].
  unfold rfft_index. rewrite map_map. split; [now rewrite map_length, seq_length|].
  intros i Hi. rewrite nth_map_seq by lia. now rewrite <- INR_IZR_INZ.
Qed.
Example C50_case : exists x k, fft_grid (PInt 4) (num 0) (num (2 * PI)) = inr (x, k) /\ length k = 4%nat /\ nth 1 k 0 = 1 /\ nth 2 k 0 = -2.
Proof.
  assert (P := PI_RGT_0).
  destruct (C50_fft_wavenumbers 4 (num 0) (num (2 * PI)) ltac:(lia) eq_refl ltac:(cbn; lra)) as (x & k & A & B & C & D & _).
  exists x, k. split; [exact A|]. split; [exact B|]. split; [rewrite (C 1%nat)|rewrite (D 2%nat)]; cbn; try lia; field; lra.
Qed.

(** ** C49 in binary64 *)

(** [ceil] on binary64. *)
Definition b64_ceil (x : b64) : option Z :=
  match x with
  | B754_zero _ => Some 0%Z
  | B754_finite s m e _ =>
      let z := if s then Zneg m else Zpos m in
      Some (if (0 <=? e)%Z then z * 2 ^ e else - ((- z) / 2 ^ (- e)))%Z
  | _ => None
  end.
Lemma b64_ceil_spec (x : b64) : is_finite x = true -> b64_ceil x = Some (Zceil (B2R x)).
Proof.
  destruct x as [s|s| |s m e Hb]; cbn [is_finite b64_ceil]; try discriminate; intros _.
  - cbn [B2R]. now rewrite Zceil_IZR.
  - f_equal. unfold B2R, F2R. cbn [Fnum Fexp cond_Zopp]. set (z := if s then Z.neg m else Z.pos m).
    replace (cond_Zopp s (Z.pos m)) with z by (unfold z; destruct s; reflexivity).
    destruct (Z.leb_spec 0 e) as [L|L].
    + rewrite <- (IZR_Zpower radix2) by exact L. rewrite <- mult_IZR. change (radix2 ^ e)%Z with (2 ^ e)%Z.
      now rewrite Zceil_IZR.
    + unfold Zceil. rewrite Ropp_mult_distr_l, <- opp_IZR.
      replace (bpow radix2 e) with (/ IZR (2 ^ (- e))).
      2:{ change (2 ^ (- e))%Z with (radix2 ^ (- e))%Z. rewrite (IZR_Zpower radix2 (- e)) by lia. rewrite <- bpow_opp. f_equal. lia. }
      fold (Rdiv (IZR (- z)) (IZR (2 ^ (- e)))). rewrite Zfloor_div; [reflexivity|].
      assert (0 < 2 ^ (- e))%Z by (apply Z.pow_pos_nonneg; lia). lia.
Qed.

(** [2 * np.pi]. *)
Definition b64_two_pi : b64 := dyadic 7074237752028440 (-50).
Notation fft64 := (construct_x_kx_fft Bops b64_ceil b64_two_pi).
Definition sizes {X} (r : exn + (list X * list X)) : option (nat * nat) :=
  match r with inl _ => None | inr (x, k) => Some (length x, length k) end.

(** With the default interval [0, 2 pi] and 122 points, and on [0,1] with 98 points, the grid has one point too many. *)
Theorem C49_one_point_too_many_refuted :
  sizes (fft64 (PInt 122) (flt (b64_ofZ 0)) (flt b64_two_pi)) = Some (123, 122)%nat /\
  sizes (fft64 (PInt 98) (flt (b64_ofZ 0)) (flt (b64_ofZ 1))) = Some (99, 98)%nat.
Proof. split; vm_compute; reflexivity. Qed.
(** ... and these grids are fine. *)
Example C49_b64_case : sizes (fft64 (PInt 128) (flt (b64_ofZ 0)) (flt b64_two_pi)) = Some (128, 128)%nat.
Proof. vm_compute. reflexivity. Qed.

Lemma b64_ofZ_exact (z : Z) : (Z.abs z < 2 ^ 53)%Z -> B2R (b64_ofZ z) = IZR z /\ is_finite (b64_ofZ z) = true.
Proof.
  intros H. assert (G := fmt_grid z 0 H ltac:(lia)). assert (B := grid_bound z 0 H ltac:(lia)).
  change (bpow radix2 0) with 1 in G, B. rewrite Rmult_1_r in G, B.
  assert (Q := binary_normalize_correct 53 1024 b64_prec b64_emax mode_NE z 0 false).
  cbv zeta in Q. replace (F2R (Float radix2 z 0)) with (IZR z) in Q by (unfold F2R; cbn; ring).
  rewrite (rnd_id _ G), Rlt_bool_true in Q by exact B. split; apply Q.
Qed.
Lemma div_rel (x y : b64) : is_finite x = true -> B2R y <> 0 -> bpow radix2 (-1022) <= B2R x / B2R y < bpow radix2 1023 ->
  is_finite (b64_div x y) = true /\
  Rabs (B2R (b64_div x y) - B2R x / B2R y) <= bpow radix2 (-53) * (B2R x / B2R y).
Proof.
  intros Hx Hy [B1 B2]. assert (P := bpow_gt_0 radix2 (-1022)).
  assert (Q := Bdiv_correct 53 1024 b64_prec b64_emax mode_NE x y Hy).
  assert (E := relative_error_N_FLT radix2 (-1074) 53 ltac:(reflexivity) (fun z => negb (Z.even z)) (B2R x / B2R y)).
  rewrite (Rabs_pos_eq (B2R x / B2R y)) in E by lra. specialize (E B1).
  replace (/ 2 * bpow radix2 (- (53) + 1)) with (bpow radix2 (-53)) in E.
  2:{ rewrite bpow_plus. change (bpow radix2 1) with 2. change (- (53))%Z with (-53)%Z. lra. }
  assert (M : Rabs (rnd (B2R x / B2R y)) < bpow radix2 1024).
  { apply Rle_lt_trans with (bpow radix2 1023); [|apply bpow_lt; lia]. apply Rabs_le. split.
    - apply Ropp_le_cancel. rewrite Ropp_involutive. rewrite <- round_NE_opp. apply Rle_trans with (rnd 0).
      + apply rnd_le. lra.
      + rewrite rnd_id by apply generic_format_0. apply bpow_ge_0.
    - rewrite <- (rnd_id (bpow radix2 1023)). + apply rnd_le. lra.
      + apply generic_format_bpow. cbn. lia. }
  rewrite Rlt_bool_true in Q by exact M. destruct Q as [Q1 [Q2 _]]. rewrite Hx in Q2. split; [exact Q2|].
  unfold b64_div. rewrite Q1. exact E.
Qed.

(** For every interval (short of overflow and underflow) and every [n] up to 2^50 the grid has [n] or [n + 1] points. *)
Theorem C49_b64_length (n : nat) (a b : b64) : (2 < n)%nat -> Nat.even n = true -> (Z.of_nat n <= 2 ^ 50)%Z ->
  is_finite (b64_minus b a) = true -> bpow radix2 (-1022) * INR n <= B2R (b64_minus b a) ->
  exists m, sizes (fft64 (PInt (Z.of_nat n)) (flt a) (flt b)) = Some (m, n) /\ (m = n \/ m = S n).
Proof.
  intros H E N Hf Hl. unfold construct_x_kx_fft, construct_x_kx. rewrite (check_even Bops n H E).
  unfold arange, arange_len, flt. cbn [psub val isnp tdiv tsub Bops tofZ teqb orb negb]. rewrite andb_true_r.
  set (d := b64_minus b a) in *. destruct (b64_ofZ_exact (Z.of_nat n) ltac:(lia)) as [En Fn].
  rewrite <- INR_IZR_INZ in En. assert (P := INR_pos' n H). assert (P1 := bpow_gt_0 radix2 (-1022)).
  assert (Nb : INR n <= bpow radix2 50). { rewrite INR_IZR_INZ. change (bpow radix2 50) with (IZR (2 ^ 50)). apply IZR_le. exact N. }
  assert (N1 : 3 <= INR n). { replace 3 with (INR 3) by (cbn; ring). apply le_INR. lia. }
  assert (Dn : 0 < B2R d) by nra.
  assert (Q : bpow radix2 (-1022) <= B2R d / INR n < bpow radix2 1023).
  { split.
    - apply (Rmult_le_reg_r (INR n)); [lra|]. unfold Rdiv. rewrite Rmult_assoc, Rinv_l by lra. lra.
    - apply (Rmult_lt_reg_r (INR n)); [lra|]. unfold Rdiv. rewrite Rmult_assoc, Rinv_l by lra. rewrite Rmult_1_r.
      assert (A := abs_B2R_lt_emax _ _ d). rewrite Rabs_pos_eq in A by lra.
      change 1024%Z with (1023 + 1)%Z in A. rewrite bpow_plus in A. change (bpow radix2 1) with 2 in A.
      assert (0 < bpow radix2 1023) by apply bpow_gt_0. apply Rlt_trans with (1 := A). apply Rmult_lt_compat_l; lra. }
  destruct (div_rel d (b64_ofZ (Z.of_nat n)) Hf ltac:(rewrite En; lra)) as [F1 R1]; rewrite ?En in *; [exact Q|].
  set (dx := b64_div d (b64_ofZ (Z.of_nat n))) in *.
  assert (U : bpow radix2 (-53) <= / 8 * / 8 * / 8). { replace (/ 8 * / 8 * / 8) with (bpow radix2 (-9)) by (cbn; lra). apply bpow_le. lia. }
  assert (U0 := bpow_gt_0 radix2 (-53)). set (e := bpow radix2 (-53)) in *.
  assert (Y : 0 < B2R d / INR n) by lra. set (y := B2R d / INR n) in *.
  assert (R1' := R1). apply Rabs_le_inv in R1'.
  assert (X : 0 < B2R dx) by nra.
  assert (Z : B2R d / B2R dx = INR n * (y / B2R dx)) by (unfold y; field; split; lra).
  assert (W : / 2 <= y / B2R dx <= 2).
  { split; apply (Rmult_le_reg_r (B2R dx)); try lra; unfold Rdiv; rewrite Rmult_assoc, Rinv_l by lra; nra. }
  destruct (div_rel d dx Hf ltac:(lra)) as [F2 R2].
  { rewrite Z. split.
    - apply Rle_trans with 1; [|nra]. change 1 with (bpow radix2 0). apply bpow_le. lia.
    - apply Rle_lt_trans with (bpow radix2 50 * 2); [nra|]. change (bpow radix2 50 * 2) with (bpow radix2 50 * bpow radix2 1).
      rewrite <- bpow_plus. apply bpow_lt. lia. }
  set (q := b64_div d dx) in *. fold e in R2. rewrite Z in R2.
  assert (K : INR n - 1 < B2R q < INR n + 1).
  { assert (Ne : INR n * e <= / 8). { replace (/ 8) with (bpow radix2 50 * bpow radix2 (-53)) by (rewrite <- bpow_plus; cbn; lra). fold e. nra. }
    assert (V : Rabs (y / B2R dx - 1) <= 2 * e).
    { replace (y / B2R dx - 1) with (- ((B2R dx - y) / B2R dx)) by (field; lra). rewrite Rabs_Ropp. unfold Rdiv.
      rewrite Rabs_mult, (Rabs_pos_eq (/ B2R dx)) by (left; apply Rinv_0_lt_compat; lra).
      apply (Rmult_le_reg_r (B2R dx)); [lra|]. rewrite Rmult_assoc, Rinv_l by lra. nra. }
    apply Rabs_le_inv in V. apply Rabs_le_inv in R2. split; nra. }
  replace (Beqb dx (b64_ofZ 0)) with false.
  2:{ symmetry. destruct (b64_ofZ_exact 0 ltac:(reflexivity)) as [E0 F0]. apply not_true_iff_false. intros A.
      apply (eqb_R _ _ F1 F0) in A. rewrite E0 in A. lra. }
  rewrite (b64_ceil_spec q F2). cbn [sizes]. unfold freq. rewrite !map_length, seq_length, fft_index_len by lia.
  exists (Z.to_nat (Zceil (B2R q))). split; [reflexivity|].
  assert (C1 : (Zceil (B2R q) <= Z.of_nat n + 1)%Z). { apply Zceil_glb. rewrite plus_IZR, <- INR_IZR_INZ. lra. }
  assert (C2 : (Z.of_nat n - 1 < Zceil (B2R q))%Z).
  { apply lt_IZR. apply Rlt_le_trans with (B2R q); [|apply Zceil_ub]. rewrite minus_IZR, <- INR_IZR_INZ. lra. }
  lia.
Qed.

(** A power of two gives exactly [n] points. *)
Theorem C49_b64_power_of_two (k : nat) (a b : b64) : (2 <= k <= 50)%nat -> let n := (2 ^ k)%nat in
  is_finite (b64_minus b a) = true -> bpow radix2 (-1022) * INR n <= B2R (b64_minus b a) ->
  sizes (fft64 (PInt (Z.of_nat n)) (flt a) (flt b)) = Some (n, n).
Proof.
  intros Hk n Hf Hl.
  assert (Hz : Z.of_nat n = (2 ^ Z.of_nat k)%Z). { unfold n. rewrite Nat2Z.inj_pow. reflexivity. }
  assert (H4 : (2 ^ 2 <= 2 ^ Z.of_nat k <= 2 ^ 50)%Z) by (split; apply Z.pow_le_mono_r; lia).
  assert (H : (2 < n)%nat) by lia.
  assert (E : Nat.even n = true). { unfold n. destruct k as [|k]; [lia|]. rewrite Nat.pow_succ_r', Nat.even_mul. reflexivity. }
  unfold construct_x_kx_fft, construct_x_kx. rewrite (check_even Bops n H E).
  unfold arange, arange_len, flt. cbn [psub val isnp tdiv tsub Bops tofZ teqb orb negb]. rewrite andb_true_r.
  set (d := b64_minus b a) in *. destruct (b64_ofZ_exact (Z.of_nat n) ltac:(lia)) as [En Fn].
  rewrite <- INR_IZR_INZ in En. assert (P := INR_pos' n H). assert (P1 := bpow_gt_0 radix2 (-1022)).
  assert (Dn : 0 < B2R d) by nra.
  assert (In : INR n = bpow radix2 (Z.of_nat k)).
  { rewrite INR_IZR_INZ, Hz. change (2 ^ Z.of_nat k)%Z with (radix2 ^ Z.of_nat k)%Z. apply IZR_Zpower. lia. }
  assert (Iv : B2R d / INR n = B2R d * bpow radix2 (- Z.of_nat k)) by (rewrite In, bpow_opp; reflexivity).
  assert (G : fmt (B2R d / INR n)).
  { rewrite Iv. assert (F := fmt_b d). change (SpecFloat.fexp 53 1024) with (FLT_exp (-1074) 53) in F.
    apply FLT_format_generic in F; [|reflexivity]. destruct F as [[m e] F1 F2 F3]. cbn [Fnum Fexp] in F2, F3.
    unfold F2R in F1. cbn [Fnum Fexp] in F1. rewrite F1 at 1. rewrite Rmult_assoc, <- bpow_plus. apply fmt_grid; [exact F2|].
    assert (L : bpow radix2 (-1022) < bpow radix2 53 * bpow radix2 (e - Z.of_nat k)).
    { apply Rle_lt_trans with (B2R d * bpow radix2 (- Z.of_nat k)).
      - rewrite <- Iv. apply (Rmult_le_reg_r (INR n)); [lra|]. unfold Rdiv. rewrite Rmult_assoc, Rinv_l by lra. lra.
      - unfold Zminus. rewrite bpow_plus, <- Rmult_assoc. apply Rmult_lt_compat_r; [apply bpow_gt_0|]. rewrite F1.
        apply Rmult_lt_compat_r; [apply bpow_gt_0|]. apply Rle_lt_trans with (Rabs (IZR m)); [apply Rle_abs|].
        rewrite <- abs_IZR. change (bpow radix2 53) with (IZR (2 ^ 53)). apply IZR_lt. exact F2. }
    rewrite <- bpow_plus in L. apply lt_bpow in L. lia. }
  assert (Bd : B2R d < bpow radix2 1024). { assert (A := abs_B2R_lt_emax _ _ d). rewrite Rabs_pos_eq in A by lra. exact A. }
  assert (N1 : 3 <= INR n). { replace 3 with (INR 3) by (cbn; ring). apply le_INR. lia. }
  assert (Q := Bdiv_correct 53 1024 b64_prec b64_emax mode_NE d (b64_ofZ (Z.of_nat n)) ltac:(rewrite En; lra)).
  rewrite En, (rnd_id _ G), Rlt_bool_true in Q.
  2:{ rewrite Rabs_pos_eq by (left; apply Rmult_lt_0_compat; [lra|apply Rinv_0_lt_compat; lra]).
      apply (Rmult_lt_reg_r (INR n)); [lra|]. unfold Rdiv. rewrite Rmult_assoc, Rinv_l by lra. nra. }
  destruct Q as [Q1 [Q2 _]]. rewrite Hf in Q2. fold (b64_div d (b64_ofZ (Z.of_nat n))) in Q1, Q2.
  set (dx := b64_div d (b64_ofZ (Z.of_nat n))) in *.
  assert (X : 0 < B2R dx). { rewrite Q1. apply Rmult_lt_0_compat; [lra|apply Rinv_0_lt_compat; lra]. }
  assert (Z : B2R d / B2R dx = INR n) by (rewrite Q1; field; split; lra).
  assert (S := Bdiv_correct 53 1024 b64_prec b64_emax mode_NE d dx ltac:(lra)).
  assert (Gn : fmt (INR n)). { rewrite <- En. apply fmt_b. }
  rewrite Z, (rnd_id _ Gn), Rlt_bool_true in S.
  2:{ rewrite Rabs_pos_eq by lra. rewrite In. apply bpow_lt. lia. }
  destruct S as [S1 [S2 _]]. rewrite Hf in S2. fold (b64_div d dx) in S1, S2.
  replace (Beqb dx (b64_ofZ 0)) with false.
  2:{ symmetry. destruct (b64_ofZ_exact 0 ltac:(reflexivity)) as [E0 F0]. apply not_true_iff_false. intros A.
      apply (eqb_R _ _ Q2 F0) in A. rewrite E0 in A. lra. }
  rewrite (b64_ceil_spec _ S2), S1, INR_IZR_INZ, Zceil_IZR, Nat2Z.id. cbn [sizes]. unfold freq.
  rewrite !map_length, seq_length, fft_index_len by lia. reflexivity.
Qed.

(** ** C57: mirrored grids *)
Lemma rev_nth' {B} (l : list B) i d : (i < length l)%nat -> nth i (rev l) d = nth (length l - 1 - i) l d.
Proof. intros H. rewrite rev_nth by exact H. f_equal. lia. Qed.

(** The grid: twice as long, antisymmetric, second half the original; increasing if the original is increasing and positive. *)
(** The hypotheses of the two theorems hold for 2^7 points on [0, 1]. *)
Example C49_b64_hypotheses : is_finite (b64_minus (b64_ofZ 1) (b64_ofZ 0)) = true /\
  bpow radix2 (-1022) * INR (2 ^ 7) <= B2R (b64_minus (b64_ofZ 1) (b64_ofZ 0)).
Proof.
  destruct (b64_ofZ_exact 1 ltac:(reflexivity)) as [E1 F1].
  assert (S : B2SF (b64_minus (b64_ofZ 1) (b64_ofZ 0)) = B2SF (b64_ofZ 1)) by (vm_compute; reflexivity).
  rewrite <- SF2R_B2SF, <- is_finite_SF_B2SF, S, SF2R_B2SF, is_finite_SF_B2SF, E1. split; [exact F1|].
  replace (INR (2 ^ 7)) with (bpow radix2 7) by (cbn; ring). rewrite <- bpow_plus. apply Rle_trans with (bpow radix2 0); [|cbn; lra].
  apply bpow_le. lia.
Qed.

Theorem C57_mirror_grid (r : list R) u axis rnew unew : mirror_grid Ropp r u axis = inr (rnew, unew) ->
  length rnew = (2 * length r)%nat /\
  (forall i, (i < length r)%nat -> nth (length r + i) rnew 0 = nth i r 0) /\
  (forall i, (i < 2 * length r)%nat -> nth (2 * length r - 1 - i) rnew 0 = - nth i rnew 0) /\
  ((forall i, (S i < length r)%nat -> nth i r 0 < nth (S i) r 0) -> 0 < nth 0 r 0 ->
   forall i, (S i < 2 * length r)%nat -> nth i rnew 0 < nth (S i) rnew 0).
Proof.
  intros H. assert (E : rnew = map Ropp (rev r) ++ r).
  { unfold mirror_grid in H. destruct u as [u|].
    - destruct (axis =? -1)%Z; [|destruct (axis =? 0)%Z; [|destruct (axis =? 1)%Z; [destruct (fliplr _ u)|]]];
        try discriminate; repeat (destruct (hstack _ _ _) || destruct (vstack _ _ _)); try discriminate; now injection H as <- _.
    - now injection H as <- _. }
  clear H. subst rnew.
  assert (A : forall i, (i < length r)%nat -> nth i (map Ropp (rev r) ++ r) 0 = - nth (length r - 1 - i) r 0).
  { intros i Hi. rewrite app_nth1 by (rewrite map_length, rev_length; exact Hi).
    rewrite <- (rev_nth' r i 0 Hi). rewrite <- (map_nth Ropp). apply nth_indep. rewrite map_length, rev_length. exact Hi. }
  assert (B : forall i, (i < length r)%nat -> nth (length r + i) (map Ropp (rev r) ++ r) 0 = nth i r 0).
  { intros i Hi. rewrite app_nth2 by (rewrite map_length, rev_length; lia). rewrite map_length, rev_length. f_equal. lia. }
  split; [rewrite app_length, map_length, rev_length; lia|]. split; [exact B|]. split.
  - intros i Hi. destruct (Nat.lt_ge_cases i (length r)) as [L|L].
    + rewrite (A i L). replace (2 * length r - 1 - i)%nat with (length r + (length r - 1 - i))%nat by lia.
      rewrite B by lia. ring.
    + replace i with (length r + (i - length r))%nat at 2 by lia. rewrite B by lia. rewrite A by lia.
      do 2 f_equal. lia.
  - intros Inc Pos i Hi. destruct (Nat.lt_ge_cases (S i) (length r)) as [L|L].
    + rewrite !A by lia. assert (Q := Inc (length r - 1 - S i)%nat ltac:(lia)).
      replace (S (length r - 1 - S i)) with (length r - 1 - i)%nat in Q by lia. lra.
    + destruct (Nat.eq_dec (S i) (length r)) as [Q|Q].
      * rewrite A by lia. replace (S i) with (length r + 0)%nat by lia. rewrite B by lia.
        replace (length r - 1 - i)%nat with O by lia. lra.
      * replace i with (length r + (i - length r))%nat by lia.
        replace (S (length r + (i - length r))) with (length r + S (i - length r))%nat by lia.
        rewrite !B by lia. apply Inc. lia.
Qed.

(** The values: mirrored along the chosen axis for 1-D arrays (default), and along axis 0 and 1 of 2-D arrays. *)
Definition entry {E} (d : E) (m : list (list E)) i j := nth j (nth i m []) d.
Definition shape2 {E} (m : list (list E)) (p q : nat) := length m = p /\ Forall (fun row => length row = q) m.

Lemma nth_zip_app {E} (a b : list (list E)) i : length a = length b ->
  nth i (zip_app E a b) [] = nth i a [] ++ nth i b [].
Proof.
  revert b i. induction a as [|x a IH]; intros [|y b] i H; try discriminate; cbn [zip_app].
  - destruct i; reflexivity.
  - destruct i; [reflexivity|]. cbn [nth]. apply IH. cbn in H. lia.
Qed.
Lemma len_zip_app {E} (a b : list (list E)) : length a = length b -> length (zip_app E a b) = length a.
Proof. revert b. induction a as [|x a IH]; intros [|y b] H; try discriminate; cbn; [reflexivity|]. f_equal. apply IH. cbn in H. lia. Qed.

Theorem C57_values_1d {E} (neg : E -> E) (r : list E) (v : list E) (d : E) :
  exists rnew w, mirror_grid neg r (Some (D1 v)) (-1) = inr (rnew, Some (D1 w)) /\ length w = (2 * length v)%nat /\
    (forall i, (i < length v)%nat -> nth (length v + i) w d = nth i v d) /\
    (forall i, (i < 2 * length v)%nat -> nth (2 * length v - 1 - i) w d = nth i w d).
Proof.
  do 2 eexists. split; [reflexivity|]. split; [rewrite app_length, rev_length; lia|].
  assert (B : forall i, (i < length v)%nat -> nth (length v + i) (rev v ++ v) d = nth i v d).
  { intros i Hi. rewrite app_nth2 by (rewrite rev_length; lia). rewrite rev_length. f_equal. lia. }
  assert (A : forall i, (i < length v)%nat -> nth i (rev v ++ v) d = nth (length v - 1 - i) v d).
  { intros i Hi. rewrite app_nth1 by (rewrite rev_length; exact Hi). apply rev_nth'. exact Hi. }
  split; [exact B|]. intros i Hi. destruct (Nat.lt_ge_cases i (length v)) as [L|L].
  - rewrite (A i L). replace (2 * length v - 1 - i)%nat with (length v + (length v - 1 - i))%nat by lia. apply B. lia.
  - replace i with (length v + (i - length v))%nat at 2 by lia. rewrite B by lia. rewrite A by lia. f_equal. lia.
Qed.
Theorem C57_values_axis0 {E} (neg : E -> E) (r : list E) (m : list (list E)) p q (d : E) : shape2 m p q ->
  exists rnew w, mirror_grid neg r (Some (D2 m)) 0 = inr (rnew, Some (D2 w)) /\ shape2 w (2 * p) q /\
    (forall i j, (i < p)%nat -> entry d w (p + i) j = entry d m i j) /\
    (forall i j, (i < 2 * p)%nat -> entry d w (2 * p - 1 - i) j = entry d w i j).
Proof.
  intros [Hp Hq]. do 2 eexists. split; [reflexivity|]. split.
  { split; [rewrite app_length, rev_length; lia|]. apply Forall_app. split; [apply Forall_rev|]; exact Hq. }
  assert (B : forall i, (i < p)%nat -> nth (p + i) (rev m ++ m) [] = nth i m []).
  { intros i Hi. rewrite app_nth2 by (rewrite rev_length; lia). rewrite rev_length. f_equal. lia. }
  assert (A : forall i, (i < p)%nat -> nth i (rev m ++ m) [] = nth (p - 1 - i) m []).
  { intros i Hi. rewrite app_nth1 by (rewrite rev_length; lia). rewrite rev_nth' by lia. f_equal. lia. }
  unfold entry. split; [intros i j Hi; now rewrite B|]. intros i j Hi. f_equal. destruct (Nat.lt_ge_cases i p) as [L|L].
  - rewrite (A i L). replace (2 * p - 1 - i)%nat with (p + (p - 1 - i))%nat by lia. apply B. lia.
  - replace i with (p + (i - p))%nat at 2 by lia. rewrite B by lia. rewrite A by lia. f_equal. lia.
Qed.
Theorem C57_values_axis1 {E} (neg : E -> E) (r : list E) (m : list (list E)) p q (d : E) : shape2 m p q ->
  exists rnew w, mirror_grid neg r (Some (D2 m)) 1 = inr (rnew, Some (D2 w)) /\ length w = p /\
    (forall i j, (i < p)%nat -> (j < q)%nat -> entry d w i (q + j) = entry d m i j) /\
    (forall i j, (i < p)%nat -> (j < 2 * q)%nat -> entry d w i (2 * q - 1 - j) = entry d w i j).
Proof.
  intros [Hp Hq]. do 2 eexists. split; [reflexivity|].
  split; [rewrite len_zip_app; rewrite map_length; lia|].
  assert (R : forall i, (i < p)%nat -> nth i (zip_app E (map (@rev E) m) m) [] = rev (nth i m []) ++ nth i m []
                                     /\ length (nth i m []) = q).
  { intros i Hi. rewrite nth_zip_app by (rewrite map_length; lia). split.
    - f_equal. change (@nil E) with (rev (@nil E)) at 1. apply (map_nth (@rev E)).
    - rewrite Forall_forall in Hq. apply Hq. apply nth_In. lia. }
  unfold entry. split.
  - intros i j Hi Hj. destruct (R i Hi) as [-> L]. rewrite app_nth2 by (rewrite rev_length; lia). rewrite rev_length. f_equal. lia.
  - intros i j Hi Hj. destruct (R i Hi) as [-> L]. set (v := nth i m []) in *.
    destruct (Nat.lt_ge_cases j q) as [K|K].
    + rewrite app_nth2 by (rewrite rev_length; lia). rewrite rev_length, app_nth1 by (rewrite rev_length; lia).
      rewrite rev_nth' by lia. f_equal. lia.
    + rewrite app_nth1 by (rewrite rev_length; lia). rewrite app_nth2 by (rewrite rev_length; lia).
      rewrite rev_length, rev_nth' by lia. f_equal. lia.
Qed.
Theorem C57_errors {E} (neg : E -> E) (r : list E) :
  (forall u axis, (axis <> -1)%Z -> axis <> 0%Z -> axis <> 1%Z -> mirror_grid neg r (Some u) axis = inl ValueError) /\
  (forall v, mirror_grid neg r (Some (D1 v)) 1 = inl ValueError) /\
  (forall axis, exists rnew, mirror_grid neg r None axis = inr (rnew, None)).
Proof.
  split; [|split; [reflexivity|intros; eexists; reflexivity]].
  intros u axis A B D. unfold mirror_grid.
  rewrite (proj2 (Z.eqb_neq _ _) A), (proj2 (Z.eqb_neq _ _) B), (proj2 (Z.eqb_neq _ _) D). reflexivity.
Qed.
(** The default axis [-1] on a 2-D array flips the rows but stacks the columns: the result is mirrored along no axis. *)
Theorem C57_default_axis_2d_refuted : exists (m w : list (list Z)) rnew,
  shape2 m 2 2 /\ mirror_grid Z.opp [1; 2]%Z (Some (D2 m)) (-1) = inr (rnew, Some (D2 w)) /\
  entry 0%Z w 0 0 <> entry 0%Z w 0 3.
Proof.
  exists [[1; 2]; [3; 4]]%Z. do 2 eexists. split; [split; [reflexivity|repeat constructor]|]. split; [reflexivity|].
  vm_compute. discriminate.
Qed.
Example C57_case : mirror_grid Z.opp [1; 2]%Z (Some (D1 [5; 6]%Z)) (-1) = inr ([-2; -1; 1; 2]%Z, Some (D1 [6; 5; 5; 6]%Z)).
Proof. reflexivity. Qed.

Print Assumptions C49_uniform_grid.
Print Assumptions C50_fft_wavenumbers.
Print Assumptions C49_one_point_too_many_refuted.
Print Assumptions C49_b64_length.
Print Assumptions C49_b64_power_of_two.
Print Assumptions C57_mirror_grid.
