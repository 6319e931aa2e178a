(** * Complex arithmetic in binary64

    The formulas of numpy for complex128 arithmetic, each real operation rounded to nearest in binary64 (gradual underflow, no
    overflow), satisfy the hypotheses of [Rounding.v] with [eps = 2^-46] and [Om = 2^500]. The exponential and the
    absolute value are taken to be rounded correctly (what the C library guarantees is not known). *)

From Coq Require Import ZArith List Bool Reals Lra Lia.
From Flocq Require Import Core Relative.
From Coquelicot Require Import Complex.
From Verif Require Import Scalars Arrays CInst ContourReal Rounding.
Local Open Scope R_scope.

Lemma Cmod_re (x : C) : Rabs (fst x) <= Cmod x.
Proof. eapply Rle_trans; [apply Rmax_l|apply Rmax_Cmod]. Qed.
Lemma Cmod_im (x : C) : Rabs (snd x) <= Cmod x.
Proof. eapply Rle_trans; [apply Rmax_r|apply Rmax_Cmod]. Qed.
Lemma Cmod_parts (x : C) : Cmod x <= Rabs (fst x) + Rabs (snd x).
Proof.
  destruct x as [a b]. cbn [fst snd]. replace (a, b) with (RtoC a + Ci * RtoC b)%C by (apply injective_projections; cbn; ring).
  eapply Rle_trans; [apply Cmod_triangle|]. rewrite Cmod_mult, !Cmod_R.
  assert (Cmod Ci = 1) by (unfold Cmod, Ci; cbn; replace (0 * (0 * 1) + 1 * (1 * 1)) with 1 by ring; apply sqrt_1). rewrite H. lra.
Qed.

Section Naive.
  Variable rnd : R -> R.
  Variables delta eta Om : R.
  Hypothesis Hrnd : forall x, Rabs (rnd x - x) <= delta * Rabs x + eta.
  Hypothesis Hdelta : 0 <= delta <= / 1024.
  Hypothesis Heta : 0 <= eta.
  Hypothesis HOm : 1 <= Om.
  Hypothesis Hunder : 4 * (eta * Om) <= delta.

  (** numpy's complex loops: sums by components, products by the schoolbook formula, quotients by Smith's method. *)
  Definition n_add (x y : C) : C := (rnd (fst x + fst y), rnd (snd x + snd y)).
  Definition n_sub (x y : C) : C := (rnd (fst x - fst y), rnd (snd x - snd y)).
  Definition n_mul (x y : C) : C :=
    (rnd (rnd (fst x * fst y) - rnd (snd x * snd y)), rnd (rnd (fst x * snd y) + rnd (snd x * fst y))).
  Definition n_div (x y : C) : C :=
    if Rle_dec (Rabs (snd y)) (Rabs (fst y)) then
      let rat := rnd (snd y / fst y) in
      let scl := rnd (1 / rnd (fst y + rnd (snd y * rat))) in
      (rnd (rnd (fst x + rnd (snd x * rat)) * scl), rnd (rnd (snd x - rnd (fst x * rat)) * scl))
    else
      let rat := rnd (fst y / snd y) in
      let scl := rnd (1 / rnd (snd y + rnd (fst y * rat))) in
      (rnd (rnd (rnd (fst x * rat) + snd x) * scl), rnd (rnd (rnd (snd x * rat) - fst x) * scl)).
  Definition n_exp (x : C) : C := (rnd (fst (Cexp x)), rnd (snd (Cexp x))).
  Definition n_dot (n : nat) (m : nat -> nat -> C) (v : nat -> C) (i : nat) : C :=
    nat_rect (fun _ => C) (RtoC 0) (fun k s => n_add s (n_mul (m i k) (v k))) n.
  Definition naive : arith :=
    mk_arith n_add n_sub n_mul n_div n_exp (fun x => rnd (Cmod x)) (0, rnd (2 * rnd PI))
      (fun n f => nat_rect (fun _ => C) (RtoC 0) (fun k s => n_add s (f k)) n) n_dot.

  Lemma parts_err (r z : C) d e : Rabs (fst r - fst z) <= d -> Rabs (snd r - snd z) <= e -> Cmod (r - z)%C <= d + e.
  Proof. intros H1 H2. eapply Rle_trans; [apply Cmod_parts|]. cbn. unfold Rminus in *. lra. Qed.
  Lemma eta_small : eta <= delta.
  Proof. assert (eta * 1 <= eta * Om) by (apply Rmult_le_compat_l; assumption). lra. Qed.
  Lemma naive_comp (z : C) r : fst r = rnd (fst z) -> snd r = rnd (snd z) -> Cmod (r - z)%C <= 32 * delta * (1 + Cmod z).
  Proof.
    intros E1 E2. assert (H1 := Hrnd (fst z)). assert (H2 := Hrnd (snd z)). rewrite <- E1 in H1. rewrite <- E2 in H2.
    eapply Rle_trans; [apply (parts_err r z _ _ H1 H2)|]. assert (A := Cmod_re z). assert (B := Cmod_im z). assert (Es := eta_small).
    assert (A1 : delta * Rabs (fst z) <= delta * Cmod z) by (apply Rmult_le_compat_l; lra).
    assert (B1 : delta * Rabs (snd z) <= delta * Cmod z) by (apply Rmult_le_compat_l; lra).
    assert (P : 0 <= delta * Cmod z) by (apply Rmult_le_pos; [lra|apply Cmod_ge_0]). lra.
  Qed.
  (** A rounded sum of two rounded products. *)
  Lemma dot2_err p q s : Rabs s = 1 -> Rabs (rnd (rnd p + s * rnd q) - (p + s * q)) <= 3 * delta * (Rabs p + Rabs q) + 4 * eta.
  Proof.
    intros Hs. assert (Hp := Hrnd p). assert (Hq := Hrnd q). set (p' := rnd p) in *. set (q' := rnd q) in *. assert (Hr := Hrnd (p' + s * q')).
    assert (D : Rabs (p' + s * q' - (p + s * q)) <= delta * (Rabs p + Rabs q) + 2 * eta).
    { replace (p' + s * q' - (p + s * q)) with ((p' - p) + s * (q' - q)) by ring. eapply Rle_trans; [apply Rabs_triang|]. rewrite Rabs_mult, Hs. lra. }
    assert (M : Rabs (p' + s * q') <= (1 + delta) * (Rabs p + Rabs q) + 2 * eta).
    { replace (p' + s * q') with ((p' + s * q' - (p + s * q)) + (p + s * q)) by ring. eapply Rle_trans; [apply Rabs_triang|].
      assert (Rabs (p + s * q) <= Rabs p + Rabs q) by (eapply Rle_trans; [apply Rabs_triang|]; rewrite Rabs_mult, Hs; lra). lra. }
    assert (Pp := Rabs_pos p). assert (Pq := Rabs_pos q).
    assert (M1 : delta * Rabs (p' + s * q') <= delta * ((1 + delta) * (Rabs p + Rabs q) + 2 * eta)) by (apply Rmult_le_compat_l; lra).
    assert (M2 : delta * (delta * (Rabs p + Rabs q)) <= 1 * (delta * (Rabs p + Rabs q))) by (apply Rmult_le_compat_r; [apply Rmult_le_pos; lra|lra]).
    assert (M3 : delta * (2 * eta) <= / 2 * (2 * eta)) by (apply Rmult_le_compat_r; lra).
    replace (rnd (p' + s * q') - (p + s * q)) with ((rnd (p' + s * q') - (p' + s * q')) + (p' + s * q' - (p + s * q))) by ring.
    eapply Rle_trans; [apply Rabs_triang|]. lra.
  Qed.
  Lemma naive_mul x y : Cmod (n_mul x y - x * y)%C <= 32 * delta * (1 + Cmod (x * y)%C).
  Proof.
    assert (H1 := dot2_err (fst x * fst y) (snd x * snd y) (-1) ltac:(rewrite Rabs_left; lra)).
    assert (H2 := dot2_err (fst x * snd y) (snd x * fst y) 1 ltac:(apply Rabs_pos_eq; lra)).
    assert (Es := eta_small).
    eapply Rle_trans; [apply (parts_err (n_mul x y) (x * y)%C (3 * delta * (Rabs (fst x * fst y) + Rabs (snd x * snd y)) + 4 * eta) (3 * delta * (Rabs (fst x * snd y) + Rabs (snd x * fst y)) + 4 * eta))|].
    - unfold n_mul. cbn [fst snd Cmult]. replace (rnd (fst x * fst y) - rnd (snd x * snd y)) with (rnd (fst x * fst y) + -1 * rnd (snd x * snd y)) by ring.
      replace (fst x * fst y - snd x * snd y) with (fst x * fst y + -1 * (snd x * snd y)) by ring. exact H1.
    - unfold n_mul. cbn [fst snd Cmult]. replace (rnd (fst x * snd y) + rnd (snd x * fst y)) with (rnd (fst x * snd y) + 1 * rnd (snd x * fst y)) by ring.
      replace (fst x * snd y + snd x * fst y) with (fst x * snd y + 1 * (snd x * fst y)) by ring. exact H2.
    - rewrite Cmod_mult, !Rabs_mult. assert (A1 := Cmod_re x). assert (A2 := Cmod_im x). assert (B1 := Cmod_re y). assert (B2 := Cmod_im y).
      assert (G : forall a b, 0 <= Rabs a -> Rabs a <= Cmod x -> Rabs b <= Cmod y -> delta * (Rabs a * Rabs b) <= delta * (Cmod x * Cmod y)).
      { intros a b _ Ha Hb. apply Rmult_le_compat_l; [lra|]. apply Rmult_le_compat; try apply Rabs_pos; assumption. }
      assert (G1 := G _ _ (Rabs_pos _) A1 B1). assert (G2 := G _ _ (Rabs_pos _) A2 B2). assert (G3 := G _ _ (Rabs_pos _) A1 B2). assert (G4 := G _ _ (Rabs_pos _) A2 B1).
      assert (P : 0 <= delta * (Cmod x * Cmod y)) by (apply Rmult_le_pos; [lra|apply Rmult_le_pos; apply Cmod_ge_0]). lra.
  Qed.
  (** Smith's method, one component: [(p + s q (d/c)) / (c + d (d/c))] with [|d| <= |c|]. *)
  Section Smith.
    Variables c d : R.
    Hypothesis Hdc : Rabs d <= Rabs c.
    Hypothesis Hc1 : Rabs c <= Om.
    Hypothesis Hc2 : 1 <= 2 * (Rabs c * Om).
    Definition sm_rat : R := rnd (d / c).
    Definition sm_scl : R := rnd (1 / rnd (c + rnd (d * sm_rat))).
    Let D : R := c + d * (d / c).
    Lemma sm_c : 0 < Rabs c /\ c <> 0.
    Proof.
      assert (P : 0 < Rabs c). { destruct (Rabs_pos c) as [X|X]; [exact X|]. rewrite <- X in Hc2. lra. }
      split; [exact P|]. intros E. rewrite E, Rabs_R0 in P. lra.
    Qed.
    Lemma sm_eta : eta <= delta * Rabs c /\ eta <= delta / (2 * Rabs c) /\ eta / Rabs c <= delta.
    Proof.
      destruct sm_c as [P Nc]. set (w := / Rabs c). assert (Pw : 0 < w) by (apply Rinv_0_lt_compat; exact P). assert (cw : Rabs c * w = 1) by (unfold w; field; lra).
      assert (wO : w <= 2 * Om).
      { replace w with (1 * w) by ring. replace (2 * Om) with (2 * (Rabs c * Om) * w) by (transitivity (2 * Om * (Rabs c * w)); [ring|rewrite cw; ring]). apply Rmult_le_compat_r; lra. }
      assert (E1 : eta * w <= eta * (2 * Om)) by (apply Rmult_le_compat_l; lra).
      assert (E2 : eta * Rabs c <= eta * Om) by (apply Rmult_le_compat_l; lra).
      assert (P0 : 0 <= eta * Om) by (apply Rmult_le_pos; lra).
      split; [|split].
      - replace eta with (eta * w * Rabs c) by (unfold w; field; lra). apply Rmult_le_compat_r; lra.
      - replace eta with (eta * Rabs c * w) by (unfold w; field; lra). replace (delta / (2 * Rabs c)) with (delta / 2 * w) by (unfold w; field; lra). apply Rmult_le_compat_r; lra.
      - change (eta * w <= delta). lra.
    Qed.
    Lemma sm_r : Rabs (d / c) <= 1 /\ Rabs (sm_rat - d / c) <= 2 * delta.
    Proof.
      destruct sm_c as [P Nc]. assert (R1 : Rabs (d / c) <= 1).
      { unfold Rdiv. rewrite Rabs_mult, Rabs_inv. apply Rle_trans with (Rabs c * / Rabs c); [apply Rmult_le_compat_r; [left; apply Rinv_0_lt_compat; exact P|exact Hdc]|right; field; lra]. }
      split; [exact R1|]. eapply Rle_trans; [apply Hrnd|]. assert (Es := eta_small). assert (delta * Rabs (d / c) <= delta * 1) by (apply Rmult_le_compat_l; lra). lra.
    Qed.
    (** [q r] rounded, with the computed [r]. *)
    Lemma sm_prod q : Rabs (rnd (q * sm_rat) - q * (d / c)) <= 4 * delta * Rabs q + eta.
    Proof.
      destruct sm_r as [R1 R2]. assert (R3 : Rabs sm_rat <= 1 + 2 * delta).
      { replace sm_rat with ((sm_rat - d / c) + d / c) by ring. eapply Rle_trans; [apply Rabs_triang|]. lra. }
      replace (rnd (q * sm_rat) - q * (d / c)) with ((rnd (q * sm_rat) - q * sm_rat) + q * (sm_rat - d / c)) by ring. eapply Rle_trans; [apply Rabs_triang|].
      assert (X := Hrnd (q * sm_rat)). rewrite Rabs_mult in X. rewrite (Rabs_mult q).
      assert (Pq := Rabs_pos q). assert (Y : Rabs q * Rabs (sm_rat - d / c) <= Rabs q * (2 * delta)) by (apply Rmult_le_compat_l; assumption).
      assert (Z : Rabs q * Rabs sm_rat <= Rabs q * (1 + 2 * delta)) by (apply Rmult_le_compat_l; assumption).
      assert (W : delta * (Rabs q * Rabs sm_rat) <= delta * (Rabs q * (1 + 2 * delta))) by (apply Rmult_le_compat_l; lra).
      assert (V : delta * (delta * Rabs q) <= / 1024 * (delta * Rabs q)) by (apply Rmult_le_compat_r; [apply Rmult_le_pos; lra|lra]).
      assert (0 <= delta * Rabs q) by (apply Rmult_le_pos; lra). lra.
    Qed.
    Lemma sm_D : Rabs c <= Rabs D <= 2 * Rabs c /\ D <> 0 /\ c * D = c * c + d * d.
    Proof.
      destruct sm_c as [P Nc]. assert (E : D = c * (1 + (d / c) * (d / c))) by (unfold D; field; exact Nc).
      assert (Q : 0 <= (d / c) * (d / c) <= 1).
      { destruct sm_r as [R1 _]. split; [apply Rle_0_sqr|]. assert (X := Rle_0_sqr (d / c)). unfold Rsqr in X.
        replace 1 with (1 * 1) by ring. rewrite <- (Rabs_pos_eq _ X), Rabs_mult. destruct sm_r as [R1' _]. apply Rmult_le_compat; try apply Rabs_pos; assumption. }
      assert (A : Rabs D = Rabs c * (1 + (d / c) * (d / c))) by (rewrite E, Rabs_mult; f_equal; apply Rabs_pos_eq; lra).
      assert (B1 : Rabs c * 1 <= Rabs c * (1 + (d / c) * (d / c))) by (apply Rmult_le_compat_l; lra).
      assert (B2 : Rabs c * (1 + (d / c) * (d / c)) <= Rabs c * 2) by (apply Rmult_le_compat_l; lra).
      split; [rewrite A; lra|]. split; [intros Z; rewrite Z, Rabs_R0 in A; lra|]. unfold D. field. exact Nc.
    Qed.
    Lemma sm_scl_err : Rabs (sm_scl - 1 / D) <= 14 * delta / Rabs D.
    Proof.
      destruct sm_c as [P Nc]. destruct sm_eta as (E1 & E2 & E3). destruct sm_D as ([D1 D2] & ND & _).
      assert (Pr := sm_prod d). set (p := rnd (d * sm_rat)) in *.
      assert (Pd : delta * Rabs d <= delta * Rabs c) by (apply Rmult_le_compat_l; lra).
      assert (Pr' : Rabs (c + p - D) <= 5 * (delta * Rabs c)) by (replace (c + p - D) with (p - d * (d / c)) by (unfold D; ring); lra).
      assert (Mg : Rabs (c + p) <= 2 * Rabs c + 5 * (delta * Rabs c)).
      { replace (c + p) with ((c + p - D) + D) by ring. eapply Rle_trans; [apply Rabs_triang|]. lra. }
      assert (Rd := Hrnd (c + p)). set (D' := rnd (c + p)) in *.
      assert (dc : 0 <= delta * Rabs c) by (apply Rmult_le_pos; lra).
      assert (ddc : delta * (delta * Rabs c) <= / 1024 * (delta * Rabs c)) by (apply Rmult_le_compat_r; lra).
      assert (M2 : delta * Rabs (c + p) <= delta * (2 * Rabs c + 5 * (delta * Rabs c))) by (apply Rmult_le_compat_l; lra).
      assert (Er : Rabs (D' - D) <= 9 * (delta * Rabs c)).
      { replace (D' - D) with ((D' - (c + p)) + (c + p - D)) by ring. eapply Rle_trans; [apply Rabs_triang|]. lra. }
      assert (PD : 0 < Rabs D) by lra. set (w := / Rabs D). assert (Pw : 0 < w) by (apply Rinv_0_lt_compat; exact PD). assert (Dw : Rabs D * w = 1) by (unfold w; field; lra).
      assert (dD : delta * Rabs c <= delta * Rabs D) by (apply Rmult_le_compat_l; lra).
      assert (dD' : delta * Rabs D <= / 1024 * Rabs D) by (apply Rmult_le_compat_r; lra).
      assert (L1 : 15 / 16 * Rabs D <= Rabs D').
      { assert (T := Rabs_triang (D' - D) (- D')). replace (D' - D + - D') with (- D) in T by ring. rewrite !Rabs_Ropp in T. lra. }
      assert (ND' : D' <> 0) by (intros E; rewrite E, Rabs_R0 in L1; lra).
      assert (I1 : Rabs (1 / D') <= 16 / 15 * w).
      { unfold Rdiv at 1. rewrite Rmult_1_l, Rabs_inv. replace (16 / 15 * w) with (/ (15 / 16 * Rabs D)) by (unfold w; field; lra). apply Rinv_le_contravar; lra. }
      assert (I2 : Rabs (1 / D' - 1 / D) <= 9 * delta * (16 / 15 * w)).
      { replace (1 / D' - 1 / D) with (- (D' - D) * (1 / D') * / D) by (field; split; assumption). rewrite !Rabs_mult, Rabs_Ropp, Rabs_inv. fold w.
        replace (9 * delta * (16 / 15 * w)) with (9 * (delta * Rabs D) * (16 / 15 * w) * w) by (transitivity (9 * delta * (16 / 15 * w) * (Rabs D * w)); [ring|rewrite Dw; ring]).
        apply Rmult_le_compat_r; [lra|]. apply Rmult_le_compat; try apply Rabs_pos; [|assumption]. lra. }
      assert (Ew : eta <= delta * w).
      { eapply Rle_trans; [exact E2|]. replace (delta / (2 * Rabs c)) with (delta * / (2 * Rabs c)) by reflexivity. apply Rmult_le_compat_l; [lra|]. apply Rinv_le_contravar; lra. }
      unfold sm_scl. fold p. fold D'. replace (14 * delta / Rabs D) with (14 * (delta * w)) by (unfold w; field; lra).
      replace (rnd (1 / D') - 1 / D) with ((rnd (1 / D') - 1 / D') + (1 / D' - 1 / D)) by ring. eapply Rle_trans; [apply Rabs_triang|].
      assert (X := Hrnd (1 / D')). assert (Y : delta * Rabs (1 / D') <= delta * (16 / 15 * w)) by (apply Rmult_le_compat_l; lra).
      assert (0 <= delta * w) by (apply Rmult_le_pos; lra). lra.
    Qed.
    Lemma sm_comp p q s : Rabs s = 1 ->
      Rabs (rnd (rnd (p + s * rnd (q * sm_rat)) * sm_scl) - (p + s * (q * (d / c))) / D) <= 24 * delta * ((Rabs p + Rabs q) / Rabs D) + 6 * delta.
    Proof.
      intros Hs. destruct sm_c as [P Nc]. destruct sm_eta as (E1 & E2 & E3). destruct sm_D as ([D1 D2] & ND & _). assert (Sc := sm_scl_err). destruct sm_r as [R1 _].
      set (t := sm_scl) in *. assert (PD : 0 < Rabs D) by lra. set (w := / Rabs D). assert (Pw : 0 < w) by (apply Rinv_0_lt_compat; exact PD).
      replace (14 * delta / Rabs D) with (14 * (delta * w)) in Sc by (unfold w; field; lra).
      replace ((Rabs p + Rabs q) / Rabs D) with ((Rabs p + Rabs q) * w) by reflexivity. set (S := Rabs p + Rabs q).
      assert (Pp := Rabs_pos p). assert (Pq := Rabs_pos q). assert (PS : 0 <= S) by (unfold S; lra).
      assert (Ew : eta * w <= delta).
      { eapply Rle_trans; [|exact E3]. apply Rmult_le_compat_l; [exact Heta|]. apply Rinv_le_contravar; lra. }
      assert (Es := eta_small).
      assert (dS : 0 <= delta * S) by (apply Rmult_le_pos; lra). assert (ddS : delta * (delta * S) <= / 1024 * (delta * S)) by (apply Rmult_le_compat_r; lra).
      assert (de : delta * eta <= / 1024 * eta) by (apply Rmult_le_compat_r; lra).
      (* the numerator *)
      assert (Pr := sm_prod q). set (g := rnd (q * sm_rat)) in *. set (m := p + s * (q * (d / c))).
      assert (dq : delta * Rabs q <= delta * S) by (apply Rmult_le_compat_l; unfold S; lra).
      assert (N1 : Rabs (p + s * g - m) <= 4 * (delta * S) + eta).
      { unfold m. replace (p + s * g - (p + s * (q * (d / c)))) with (s * (g - q * (d / c))) by ring. rewrite Rabs_mult, Hs. lra. }
      assert (Nm : Rabs m <= S).
      { unfold m, S. eapply Rle_trans; [apply Rabs_triang|]. rewrite !Rabs_mult, Hs. assert (Rabs q * Rabs (d / c) <= Rabs q * 1) by (apply Rmult_le_compat_l; assumption). lra. }
      assert (N2 : Rabs (p + s * g) <= S + 4 * (delta * S) + eta).
      { replace (p + s * g) with ((p + s * g - m) + m) by ring. eapply Rle_trans; [apply Rabs_triang|]. lra. }
      assert (Rn := Hrnd (p + s * g)). set (m' := rnd (p + s * g)) in *.
      assert (N3 : delta * Rabs (p + s * g) <= delta * (S + 4 * (delta * S) + eta)) by (apply Rmult_le_compat_l; lra).
      assert (N4 : Rabs (m' - m) <= 6 * (delta * S) + 3 * eta).
      { replace (m' - m) with ((m' - (p + s * g)) + (p + s * g - m)) by ring. eapply Rle_trans; [apply Rabs_triang|]. lra. }
      (* the product *)
      assert (dw : delta * w <= / 1024 * w) by (apply Rmult_le_compat_r; lra).
      assert (T1 : Rabs t <= 16 / 15 * w).
      { replace t with ((t - 1 / D) + 1 / D) by ring. eapply Rle_trans; [apply Rabs_triang|]. unfold Rdiv at 2. rewrite Rmult_1_l, Rabs_inv. fold w. lra. }
      assert (Sw : 0 <= S * w) by (apply Rmult_le_pos; lra). assert (dSw : 0 <= delta * (S * w)) by (apply Rmult_le_pos; lra).
      assert (ddSw : delta * (delta * (S * w)) <= / 1024 * (delta * (S * w))) by (apply Rmult_le_compat_r; lra).
      assert (M1 : Rabs (m' * t - m / D) <= 21 * (delta * (S * w)) + 4 * delta).
      { replace (m' * t - m / D) with ((m' - m) * t + m * (t - 1 / D)) by (field; exact ND). eapply Rle_trans; [apply Rabs_triang|]. rewrite !Rabs_mult.
        assert (A1 : Rabs (m' - m) * Rabs t <= (6 * (delta * S) + 3 * eta) * (16 / 15 * w)) by (apply Rmult_le_compat; try apply Rabs_pos; assumption).
        assert (A2 : Rabs m * Rabs (t - 1 / D) <= S * (14 * (delta * w))) by (apply Rmult_le_compat; try apply Rabs_pos; assumption).
        lra. }
      assert (Q1 : Rabs (m / D) <= S * w) by (unfold Rdiv; rewrite Rabs_mult, Rabs_inv; fold w; apply Rmult_le_compat_r; lra).
      assert (M2 : Rabs (m' * t) <= S * w + 21 * (delta * (S * w)) + 4 * delta).
      { replace (m' * t) with ((m' * t - m / D) + m / D) by ring. eapply Rle_trans; [apply Rabs_triang|]. lra. }
      assert (Ro := Hrnd (m' * t)).
      assert (M3 : delta * Rabs (m' * t) <= delta * (S * w + 21 * (delta * (S * w)) + 4 * delta)) by (apply Rmult_le_compat_l; lra).
      assert (dd : delta * delta <= / 1024 * delta) by (apply Rmult_le_compat_r; lra).
      replace (rnd (m' * t) - m / D) with ((rnd (m' * t) - m' * t) + (m' * t - m / D)) by ring. eapply Rle_trans; [apply Rabs_triang|]. lra.
    Qed.
  End Smith.
  Lemma naive_div x y : Cmod y <= Om -> 1 <= Cmod y * Om -> Cmod (n_div x y - x / y)%C <= 128 * delta * (1 + Cmod (x / y)%C).
  Proof.
    intros H1 H2. assert (Py : 0 < Cmod y) by (destruct (Cmod_ge_0 y) as [X|X]; [exact X|rewrite <- X in H2; lra]).
    assert (Ny : y <> RtoC 0) by (intros E; rewrite E, Cmod_0 in Py; lra).
    assert (A1 := Cmod_re x). assert (A2 := Cmod_im x). assert (B1 := Cmod_re y). assert (B2 := Cmod_im y). assert (B3 := Cmod_parts y).
    assert (Q : Cmod (x / y)%C = Cmod x / Cmod y) by (apply Cmod_div; exact Ny).
    (* both branches end with this *)
    assert (Fin : forall c d (r z : C), Rabs d <= Rabs c -> Rabs c <= Cmod y -> Cmod y ^ 2 = c * c + d * d -> c <> 0 ->
      Rabs (fst r - fst z) <= 24 * delta * ((Rabs (fst x) + Rabs (snd x)) / Rabs (c + d * (d / c))) + 6 * delta ->
      Rabs (snd r - snd z) <= 24 * delta * ((Rabs (fst x) + Rabs (snd x)) / Rabs (c + d * (d / c))) + 6 * delta ->
      Cmod (r - z)%C <= 128 * delta * (1 + Cmod (x / y)%C)).
    { intros c d r z Hdc Hcy Hcd Nc R1 R2. eapply Rle_trans; [apply (parts_err r z _ _ R1 R2)|].
      assert (PD : Cmod y <= Rabs (c + d * (d / c))).
      { assert (E : Rabs c * Rabs (c + d * (d / c)) = Cmod y ^ 2) by (rewrite <- Rabs_mult; replace (c * (c + d * (d / c))) with (c * c + d * d) by (field; exact Nc); rewrite Hcd; apply Rabs_pos_eq; rewrite <- Hcd; apply pow2_ge_0).
        apply Rmult_le_reg_l with (Rabs c); [apply Rabs_pos_lt; exact Nc|]. rewrite E. cbn [pow]. rewrite Rmult_1_r. apply Rmult_le_compat_r; lra. }
      assert (S1 : (Rabs (fst x) + Rabs (snd x)) / Rabs (c + d * (d / c)) <= 2 * Cmod (x / y)%C).
      { rewrite Q. replace (2 * (Cmod x / Cmod y)) with (2 * Cmod x * / Cmod y) by (field; lra). unfold Rdiv at 1. apply Rmult_le_compat.
        - assert (X1 := Rabs_pos (fst x)). assert (X2 := Rabs_pos (snd x)). lra.
        - left. apply Rinv_0_lt_compat. lra.
        - lra.
        - apply Rinv_le_contravar; lra. }
      assert (S2 : delta * ((Rabs (fst x) + Rabs (snd x)) / Rabs (c + d * (d / c))) <= delta * (2 * Cmod (x / y)%C)) by (apply Rmult_le_compat_l; lra).
      assert (0 <= delta * Cmod (x / y)%C) by (apply Rmult_le_pos; [lra|apply Cmod_ge_0]). lra. }
    assert (Csq : forall z, Cmod z ^ 2 = fst z * fst z + snd z * snd z).
    { intros z. unfold Cmod. rewrite pow2_sqrt by (assert (X := pow2_ge_0 (fst z)); assert (Y := pow2_ge_0 (snd z)); lra). ring. }
    assert (Quo : forall a b c d : R, c <> 0 -> c * c + d * d <> 0 -> (a + 1 * (b * (d / c))) / (c + d * (d / c)) = (a * c + b * d) / (c * c + d * d)).
    { intros a b c d Nc Z. assert (c + d * (d / c) <> 0) by (intros E; apply Z; replace (c * c + d * d) with (c * (c + d * (d / c))) by (field; exact Nc); rewrite E; ring).
      apply Rmult_eq_reg_r with (c + d * (d / c)); [|assumption]. transitivity (a + 1 * (b * (d / c))); [field; split; [assumption|]|field; split; assumption].
      intros E. apply Z. lra. }
    assert (Re : fst (x / y)%C = (fst x * fst y + snd x * snd y) / (fst y * fst y + snd y * snd y)).
    { cbn [fst snd Cdiv Cinv Cmult]. unfold Rdiv. cbn [pow]. rewrite !Rmult_1_r. ring. }
    assert (Im : snd (x / y)%C = (snd x * fst y - fst x * snd y) / (fst y * fst y + snd y * snd y)).
    { cbn [fst snd Cdiv Cinv Cmult]. unfold Rdiv. cbn [pow]. rewrite !Rmult_1_r. ring. }
    unfold n_div. destruct (Rle_dec (Rabs (snd y)) (Rabs (fst y))) as [Hle|Hgt].
    - assert (C1 : Rabs (fst y) <= Om) by lra.
      assert (C2 : 1 <= 2 * (Rabs (fst y) * Om)).
      { eapply Rle_trans; [exact H2|]. replace (2 * (Rabs (fst y) * Om)) with ((2 * Rabs (fst y)) * Om) by ring. apply Rmult_le_compat_r; lra. }
      destruct (sm_c (fst y) C2) as [_ Nc]. destruct (sm_D (fst y) (snd y) Hle C2) as (_ & ND & ED).
      assert (Z : fst y * fst y + snd y * snd y <> 0) by (rewrite <- ED; apply Rmult_integral_contrapositive; split; assumption).
      assert (G1 := sm_comp (fst y) (snd y) Hle C1 C2 (fst x) (snd x) 1 ltac:(apply Rabs_pos_eq; lra)).
      assert (G2 := sm_comp (fst y) (snd y) Hle C1 C2 (snd x) (fst x) (-1) ltac:(rewrite Rabs_left; lra)).
      fold (sm_rat (fst y) (snd y)). cbv zeta. fold (sm_scl (fst y) (snd y)).
      apply (Fin (fst y) (snd y)); [exact Hle|exact B1|apply Csq|exact Nc| |]; cbn [fst snd].
      + rewrite Re, <- (Quo (fst x) (snd x) _ _ Nc Z). rewrite (Rmult_1_l (rnd (snd x * sm_rat (fst y) (snd y)))) in G1. exact G1.
      + rewrite Im. replace (snd x * fst y - fst x * snd y) with (snd x * fst y + (- fst x) * snd y) by ring. rewrite <- (Quo (snd x) (- fst x) _ _ Nc Z).
        rewrite (Rplus_comm (Rabs (fst x))). replace (snd x + 1 * (- fst x * (snd y / fst y))) with (snd x + -1 * (fst x * (snd y / fst y))) by ring.
        replace (snd x - rnd (fst x * sm_rat (fst y) (snd y))) with (snd x + -1 * rnd (fst x * sm_rat (fst y) (snd y))) by ring. exact G2.
    - assert (Hle : Rabs (fst y) <= Rabs (snd y)) by lra. assert (C1 : Rabs (snd y) <= Om) by lra.
      assert (C2 : 1 <= 2 * (Rabs (snd y) * Om)).
      { eapply Rle_trans; [exact H2|]. replace (2 * (Rabs (snd y) * Om)) with ((2 * Rabs (snd y)) * Om) by ring. apply Rmult_le_compat_r; lra. }
      destruct (sm_c (snd y) C2) as [_ Nc]. destruct (sm_D (snd y) (fst y) Hle C2) as (_ & ND & ED).
      assert (Z : snd y * snd y + fst y * fst y <> 0) by (rewrite <- ED; apply Rmult_integral_contrapositive; split; assumption).
      assert (G1 := sm_comp (snd y) (fst y) Hle C1 C2 (snd x) (fst x) 1 ltac:(apply Rabs_pos_eq; lra)).
      assert (G2 := sm_comp (snd y) (fst y) Hle C1 C2 (- fst x) (snd x) 1 ltac:(apply Rabs_pos_eq; lra)).
      fold (sm_rat (snd y) (fst y)). cbv zeta. fold (sm_scl (snd y) (fst y)).
      rewrite (Rplus_comm (fst y * fst y)) in Re, Im.
      apply (Fin (snd y) (fst y)); [exact Hle|exact B2|rewrite Csq; ring|exact Nc| |]; cbn [fst snd].
      + rewrite Re. replace (fst x * fst y + snd x * snd y) with (snd x * snd y + fst x * fst y) by ring. rewrite <- (Quo (snd x) (fst x) _ _ Nc Z).
        rewrite (Rplus_comm (Rabs (fst x))). rewrite (Rmult_1_l (rnd (fst x * sm_rat (snd y) (fst y)))) in G1. rewrite (Rplus_comm (rnd (fst x * sm_rat (snd y) (fst y)))). exact G1.
      + rewrite Im. replace (snd x * fst y - fst x * snd y) with (- fst x * snd y + snd x * fst y) by ring. rewrite <- (Quo (- fst x) (snd x) _ _ Nc Z).
        rewrite Rabs_Ropp in G2. rewrite (Rmult_1_l (rnd (snd x * sm_rat (snd y) (fst y)))) in G2.
        replace (rnd (snd x * sm_rat (snd y) (fst y)) - fst x) with (- fst x + rnd (snd x * sm_rat (snd y) (fst y))) by ring. exact G2.
  Qed.
  Lemma naive_sum m f B : 0 <= B -> (forall k, (k < m)%nat -> Cmod (f k) <= B) -> INR m * (128 * delta) <= / 8 ->
    Cmod (nat_rect (fun _ => C) (RtoC 0) (fun k s => n_add s (f k)) m - csum m f)%C <= INR m * (32 * delta) * (1 + 4 * INR m * (B + 1)).
  Proof.
    intros HB H Hm. assert (Pm := pos_INR m). set (Q := 1 + 4 * INR m * (B + 1)).
    assert (G : forall k, (k <= m)%nat -> Cmod (nat_rect (fun _ => C) (RtoC 0) (fun k s => n_add s (f k)) k - csum k f)%C <= INR k * (32 * delta) * Q /\ Cmod (csum k f) <= INR k * B).
    { induction k as [|k IH]; intros Hk.
      - cbn [nat_rect csum]. change (INR 0) with 0. replace (RtoC 0 - RtoC 0)%C with (RtoC 0) by ring. rewrite Cmod_0. lra.
      - destruct (IH ltac:(lia)) as [I1 I2]. assert (Hf := H k ltac:(lia)). cbn [nat_rect csum]. rewrite S_INR. assert (Pk := pos_INR k).
        assert (Lk : INR k + 1 <= INR m) by (rewrite <- S_INR; apply le_INR; lia).
        set (s := nat_rect (fun _ => C) (RtoC 0) (fun k s => n_add s (f k)) k) in *.
        assert (E := naive_comp (s + f k)%C (n_add s (f k)) eq_refl eq_refl).
        assert (T := Cmod_triangle (csum k f) (f k)). split; [|lra].
        assert (kB : (INR k + 1) * B <= INR m * B) by (apply Rmult_le_compat_r; lra).
        assert (S1 : Cmod (s + f k)%C <= INR k * (32 * delta) * Q + (INR k * B + B)).
        { replace (s + f k)%C with ((s - csum k f) + (csum k f + f k))%C by ring. eapply Rle_trans; [apply Cmod_triangle|]. lra. }
        assert (PmB : 0 <= INR m * B) by (apply Rmult_le_pos; lra).
        assert (Q1 : 1 <= Q) by (unfold Q; lra).
        assert (S2 : INR k * (32 * delta) * Q <= / 32 * Q).
        { apply Rmult_le_compat_r; [lra|]. apply Rle_trans with (INR m * (32 * delta)); [apply Rmult_le_compat_r; lra|lra]. }
        assert (S3 : 1 + Cmod (s + f k)%C <= Q) by (unfold Q in *; lra).
        assert (S4 : 32 * delta * (1 + Cmod (s + f k)%C) <= 32 * delta * Q) by (apply Rmult_le_compat_l; lra).
        replace (n_add s (f k) - (csum k f + f k))%C with ((n_add s (f k) - (s + f k)) + (s - csum k f))%C by ring. eapply Rle_trans; [apply Cmod_triangle|]. lra. }
    apply (G m (Nat.le_refl m)).
  Qed.
  Lemma naive_dot n (m : nat -> nat -> C) v i B : 0 <= B -> (forall k, (k < n)%nat -> Cmod (m i k * v k)%C <= B) -> INR n * (128 * delta) <= / 8 ->
    Cmod (n_dot n m v i - csum n (fun k => m i k * v k))%C <= INR n * (128 * delta) * (1 + 4 * INR n * (B + 1)).
  Proof.
    intros HB H Hn. assert (Pn := pos_INR n).
    assert (E : forall k, (k < n)%nat -> near B (32 * (1 + B)) delta (m i k * v k)%C (n_mul (m i k) (v k))).
    { intros k Hk. split; [apply H; exact Hk|]. eapply Rle_trans; [apply naive_mul|]. assert (X := H k Hk).
      replace (32 * (1 + B) * delta) with (32 * delta * (1 + B)) by ring. apply Rmult_le_compat_l; lra. }
    destruct (csum_near n _ _ B (32 * (1 + B)) delta HB ltac:(lra) ltac:(lra) E) as [_ C2].
    assert (B2 : forall k, (k < n)%nat -> Cmod (n_mul (m i k) (v k)) <= 2 * B + 1).
    { intros k Hk. destruct (E k Hk) as [E1 E2]. assert (32 * (1 + B) * delta <= 32 * (1 + B) * / 32) by (apply Rmult_le_compat_l; lra).
      eapply Rle_trans; [apply (Cmod_le_diff _ _ _ _ E1 E2)|]. lra. }
    assert (S1 := naive_sum n (fun k => n_mul (m i k) (v k)) (2 * B + 1) ltac:(lra) B2 Hn).
    eapply Rle_trans; [apply (Cmod_sub_3 _ _ _ _ _ S1 C2)|].
    set (x := INR n * delta). assert (Px : 0 <= x) by (apply Rmult_le_pos; lra).
    replace (INR n * (32 * delta) * (1 + 4 * INR n * (2 * B + 1 + 1)) + INR n * (32 * (1 + B)) * delta) with (32 * x + 256 * (x * (INR n * (B + 1))) + 32 * (x * (1 + B))) by (unfold x; ring).
    replace (INR n * (128 * delta) * (1 + 4 * INR n * (B + 1))) with (128 * x + 512 * (x * (INR n * (B + 1)))) by (unfold x; ring).
    destruct n as [|n']; [unfold x; change (INR 0) with 0; rewrite !Rmult_0_l; lra|].
    assert (1 <= INR (S n')) by (rewrite S_INR; assert (Y := pos_INR n'); lra).
    assert (x * (1 + B) <= x * (INR (S n') * (B + 1))).
    { apply Rmult_le_compat_l; [exact Px|]. apply Rle_trans with (1 * (B + 1)); [lra|apply Rmult_le_compat_r; lra]. }
    assert (0 <= x * (1 + B)) by (apply Rmult_le_pos; lra). lra.
  Qed.
  Theorem naive_rounds : rounds naive (128 * delta) Om.
  Proof.
    assert (Up : forall z (r : R), r <= 32 * delta * (1 + Cmod z) -> r <= 128 * delta * (1 + Cmod z)).
    { intros z r H. eapply Rle_trans; [exact H|]. assert (X := Cmod_ge_0 z). apply Rmult_le_compat_r; lra. }
    split.
    - intros x y _ _ _. apply Up, naive_comp; reflexivity.
    - intros x y _ _ _. apply Up, naive_comp; reflexivity.
    - intros x y _ _ _. apply Up, naive_mul.
    - intros x y _ H1 H2 _. apply naive_div; assumption.
    - intros x _ _. apply Up, naive_comp; reflexivity.
    - intros x _. cbn [fl_abs naive]. eapply Rle_trans; [apply Hrnd|]. rewrite (Rabs_pos_eq (Cmod x)) by apply Cmod_ge_0. assert (Es := eta_small).
      assert (0 <= delta * Cmod x) by (apply Rmult_le_pos; [lra|apply Cmod_ge_0]). lra.
    - cbn [fl_2pij naive]. assert (H1 := Hrnd PI). assert (H2 := Hrnd (2 * rnd PI)). assert (Es := eta_small). assert (Pi := PI_RGT_0).
      rewrite (Rabs_pos_eq PI) in H1 by lra. assert (A : Rabs (rnd PI) <= PI + (delta * PI + eta)).
      { replace (rnd PI) with ((rnd PI - PI) + PI) by ring. eapply Rle_trans; [apply Rabs_triang|]. rewrite (Rabs_pos_eq PI) by lra. lra. }
      rewrite Rabs_mult, (Rabs_pos_eq 2) in H2 by lra. assert (B : delta * (2 * Rabs (rnd PI)) <= delta * (2 * (PI + (delta * PI + eta)))) by (apply Rmult_le_compat_l; lra).
      assert (D1 : 0 <= delta * PI) by (apply Rmult_le_pos; lra). assert (D2 : delta * (delta * PI) <= / 1024 * (delta * PI)) by (apply Rmult_le_compat_r; lra).
      assert (D3 : delta * eta <= / 1024 * eta) by (apply Rmult_le_compat_r; lra).
      assert (E : Rabs (rnd (2 * rnd PI) - 2 * PI) <= 128 * delta * (1 + 2 * PI)).
      { replace (rnd (2 * rnd PI) - 2 * PI) with ((rnd (2 * rnd PI) - 2 * rnd PI) + 2 * (rnd PI - PI)) by ring. eapply Rle_trans; [apply Rabs_triang|]. rewrite (Rabs_mult 2), (Rabs_pos_eq 2) by lra. lra. }
      assert (E0 : Rabs (0 - 0) <= 0) by (rewrite Rminus_0_r, Rabs_R0; lra).
      assert (X := parts_err (0, rnd (2 * rnd PI)) (0, 2 * PI) _ _ E0 E). lra.
    - intros m f B HB H Hm HO. assert (X := naive_sum m f B HB H Hm). assert (Pm := pos_INR m).
      eapply Rle_trans; [exact X|]. apply Rmult_le_compat_r; [assert (0 <= 4 * INR m * (B + 1)) by (apply Rmult_le_pos; lra); lra|]. apply Rmult_le_compat_l; lra.
    - intros n m v i B HB H Hn HO. apply naive_dot; [exact HB| |exact Hn]. intros k Hk. apply H. exact Hk.
  Qed.
End Naive.

(** ** Radix two, [prec] bits, gradual underflow from [2^emin], rounding to nearest with ties to even *)
Definition fmt_round (emin prec : Z) : R -> R := round radix2 (FLT_exp emin prec) ZnearestE.
Definition fmtc (emin prec : Z) : arith := naive (fmt_round emin prec).
Lemma fmt_round_err emin prec x : (0 < prec)%Z -> Rabs (fmt_round emin prec x - x) <= bpow radix2 (- prec) * Rabs x + bpow radix2 (emin - 1).
Proof.
  intros Hp. destruct (relative_error_N_FLT'_ex radix2 emin prec Hp (fun z => negb (Z.even z)) x) as (e & m & He & Hm & _ & E).
  unfold fmt_round. rewrite E. replace (x * (1 + e) + m - x) with (e * x + m) by ring. eapply Rle_trans; [apply Rabs_triang|].
  assert (half : / 2 = bpow radix2 (-1)) by (cbn; lra).
  assert (U : u_ro radix2 prec = bpow radix2 (- prec)) by (unfold u_ro; rewrite half, <- bpow_plus; f_equal; lia).
  rewrite U in He. assert (P := bpow_ge_0 radix2 (- prec)).
  apply Rplus_le_compat.
  - rewrite Rabs_mult. apply Rmult_le_compat_r; [apply Rabs_pos|]. eapply Rle_trans; [exact He|].
    set (b := bpow radix2 (- prec)) in *. apply Rle_trans with (b * / 1); [|lra]. apply Rmult_le_compat_l; [exact P|]. apply Rinv_le_contravar; lra.
  - eapply Rle_trans; [exact Hm|]. rewrite half, <- bpow_plus. right. f_equal. lia.
Qed.
Theorem fmt_rounds emin prec k : (10 <= prec)%Z -> (0 <= k)%Z -> (emin + 1 + k <= - prec)%Z -> rounds (fmtc emin prec) (bpow radix2 (7 - prec)) (bpow radix2 k).
Proof.
  intros H1 H2 H3. replace (bpow radix2 (7 - prec)) with (128 * bpow radix2 (- prec)).
  2: { replace (7 - prec)%Z with (7 + - prec)%Z by ring. rewrite bpow_plus. reflexivity. }
  apply naive_rounds with (eta := bpow radix2 (emin - 1)).
  - intros x. apply fmt_round_err. lia.
  - split; [apply bpow_ge_0|]. replace (/ 1024) with (bpow radix2 (-10)) by (cbn; lra). apply bpow_le. lia.
  - apply bpow_ge_0.
  - replace 1 with (bpow radix2 0) by reflexivity. apply bpow_le. lia.
  - rewrite <- bpow_plus. replace 4 with (bpow radix2 2) by reflexivity. rewrite <- bpow_plus. apply bpow_le. lia.
Qed.
(** binary64. *)
Definition b64c : arith := fmtc (-1074) 53.
Corollary b64_rounds : rounds b64c (bpow radix2 (-46)) (bpow radix2 500).
Proof. apply (fmt_rounds (-1074) 53 500); lia. Qed.
(** There are formats as fine and as wide as one likes. *)
Corollary fmt_any e Om : 0 < e -> exists emin prec eps' Om', (10 <= prec)%Z /\ rounds (fmtc emin prec) eps' Om' /\ 0 < eps' <= e /\ Om <= Om'.
Proof.
  intros He.
  assert (B : forall x, exists k, (0 <= k)%Z /\ x <= bpow radix2 k).
  { intros x. exists (Z.abs (mag radix2 x)). split; [lia|]. destruct (Req_dec x 0) as [-> |Hx]; [apply bpow_ge_0|].
    eapply Rle_trans; [apply Rle_abs|]. eapply Rle_trans; [left; apply (bpow_mag_gt radix2 x)|]. apply bpow_le. lia. }
  destruct (B (/ e)) as (k & Hk & Hke). destruct (B Om) as (m & Hm & HmO).
  exists (- (k + 11) - m)%Z, (k + 10)%Z, (bpow radix2 (7 - (k + 10))), (bpow radix2 m). split; [lia|]. split; [apply fmt_rounds; lia|]. split; [|exact HmO].
  split; [apply bpow_gt_0|]. apply Rle_trans with (bpow radix2 (- k)); [apply bpow_le; lia|]. rewrite bpow_opp.
  rewrite <- (Rinv_inv e). apply Rinv_le_contravar; [apply Rinv_0_lt_compat; exact He|exact Hke].
Qed.
