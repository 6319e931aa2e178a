(** * C82: the solvers in binary64

    The claims of C78 to C81 for whole runs in binary64, by [lift64] ([PropsRounding64.v]). Where those theorems speak about a problem
    over [Fops a] with exact scalars, these speak about one over [Gops a], all of whose scalars are binary64 numbers. *)

From Coq Require Import ZArith List Bool Reals Lra Lia FunctionalExtensionality.
From Coquelicot Require Import Complex.
From Flocq Require Import Core BinarySingleNaN.
From Verif Require Import Scalars Control ControlCS ControlCSReal ControlAS ControlASReal ControlSim ControlSound PropsControl Arrays SchemeBase
     SchemeIF SchemeETD4 SchemeETD5 Solvers SchemeFacts SchemeSound SchemeFamily SchemePartial SchemeForm CInst SpecRK
     SchemeIFReal PropsCache PropsIF SpecPhi SpecPoly ContourReal SpecERK SchemeETDReal SchemeETDCoefs PropsPsi PropsETD
     PropsLinear ContourMatrix MatrixFlow PropsMatrix Asym Solution LocalRK4 Stable Converge Voc LocalKro MatExp ConvRuns ConvMethods PropsConverge
     OrderWords OrderLocal OrderMethods PropsOrder5 Estimate Rounding RoundingETD RoundingMat RoundingMatETD RoundingB64 PropsRounding PropsRoundingETD PropsRoundingMat
     PropsRoundingMatETD B64 B64Step PropsB64 RoundingRuns RoundingTimes RoundingDP PropsRounding64.
Import ListNotations.
Local Open Scope R_scope.

(** ** numpy's arithmetic on binary64 operands, extended to all complex numbers *)
(** [b64c] with the left operand of products rounded first: the same as [b64c] on operands that are pairs of binary64 numbers. *)
Definition rnd_pair (z : C) : C := (rnd (fst z), rnd (snd z)).
Definition np64 : arith :=
  mk_arith (fl_add b64c) (fl_sub b64c) (fun x y => fl_mul b64c (rnd_pair x) y) (fl_div b64c) (fl_exp b64c) (fl_abs b64c) (fl_2pij b64c) (fl_sum b64c) (fl_dot b64c).
Lemma np64_same x y : fmt (fst x) -> fmt (snd x) -> fl_mul np64 x y = fl_mul b64c x y.
Proof. intros H1 H2. cbn [fl_mul np64]. unfold rnd_pair. rewrite (rnd_id _ H1), (rnd_id _ H2). destruct x; reflexivity. Qed.
Lemma rnd_same x : rnd x = fmt_round (-1074) 53 x.
Proof. reflexivity. Qed.
Lemma rnd_0' : rnd 0 = 0.
Proof. apply round_0. apply valid_rnd_N. Qed.

Lemma np64_scalars : scalars64 np64.
Proof.
  split.
  - intros x y. cbn [fl_mul np64]. f_equal. unfold rnd_pair, RtoC. cbn [fst snd]. rewrite (rnd_id (rnd x)) by apply fmt_rnd. reflexivity.
  - intros z. cbn [fl_abs np64 b64c fmtc naive]. rewrite <- rnd_same. split; [apply rnd_ge0, Cmod_ge_0|]. apply rnd_id, fmt_rnd.
  - intros m f g H. cbn [fl_sum np64 b64c fmtc naive]. induction m as [|m IH]; [reflexivity|]. cbn [nat_rect]. rewrite IH by (intros k Hk; apply H; lia).
    rewrite H by lia. reflexivity.
Qed.

Lemma np64_rounds : rounds np64 (bpow radix2 (-46)) (bpow radix2 500).
Proof.
  destruct b64_rounds as [A1 A2 _ A4 A5 A6 A7 A8 A9]. split; try assumption.
  intros x y Hx Hy Hxy. cbn [fl_mul np64].
  assert (Hrnd : forall x, Rabs (rnd x - x) <= bpow radix2 (-53) * Rabs x + bpow radix2 (-1075)).
  { intros z. rewrite rnd_same. apply (fmt_round_err (-1074) 53). lia. }
  assert (D : bpow radix2 (-46) = 128 * bpow radix2 (-53)).
  { replace (-46)%Z with (7 + -53)%Z by lia. rewrite bpow_plus. reflexivity. }
  assert (U : 4 * (bpow radix2 (-1075) * bpow radix2 500) <= bpow radix2 (-53)).
  { rewrite <- bpow_plus. change 4 with (bpow radix2 2). rewrite <- bpow_plus. apply bpow_le. lia. }
  assert (Pd := bpow_gt_0 radix2 (-53)). assert (Pe := bpow_gt_0 radix2 (-1075)). assert (POm := bpow_gt_0 radix2 500).
  assert (Dd : bpow radix2 (-53) <= / 1024). { change (/ 1024) with (bpow radix2 (-10)). apply bpow_le. lia. }
  assert (O1 : 1 <= bpow radix2 500). { change 1 with (bpow radix2 0). apply bpow_le. lia. }
  rewrite D. set (de := bpow radix2 (-53)) in *. set (et := bpow radix2 (-1075)) in *. set (Om := bpow radix2 500) in *.
  clearbody de et Om. clear D.
  assert (M := naive_mul rnd de et Om Hrnd ltac:(lra) ltac:(lra) O1 U (rnd_pair x) y).
  assert (Ex : Cmod (rnd_pair x - x)%C <= 2 * de * Cmod x + 2 * et).
  { eapply Rle_trans; [apply (parts_err (rnd_pair x) x _ _ (Hrnd (fst x)) (Hrnd (snd x)))|].
    assert (X1 := Cmod_re x). assert (X2 := Cmod_im x).
    assert (de * Rabs (fst x) <= de * Cmod x) by (apply Rmult_le_compat_l; lra). assert (de * Rabs (snd x) <= de * Cmod x) by (apply Rmult_le_compat_l; lra). lra. }
  set (x' := rnd_pair x) in *. clearbody x'.
  assert (Py := Cmod_ge_0 y). assert (Px := Cmod_ge_0 x). assert (Pxy := Cmod_ge_0 (x * y)%C).
  assert (E1 : Cmod (x' * y - x * y)%C <= 2 * de * (1 + Cmod (x * y)%C)).
  { replace (x' * y - x * y)%C with ((x' - x) * y)%C by ring. rewrite !Cmod_mult.
    apply Rle_trans with ((2 * de * Cmod x + 2 * et) * Cmod y); [apply Rmult_le_compat_r; assumption|].
    assert (et * Cmod y <= et * Om) by (apply Rmult_le_compat_l; lra). nra. }
  assert (E2 : Cmod (x' * y)%C <= Cmod (x * y)%C + 2 * de * (1 + Cmod (x * y)%C)) by (apply Cmod_le_diff with (1 := Rle_refl _); exact E1).
  assert (E3 : 2 * de * (1 + Cmod (x * y)%C) <= 1 * (1 + Cmod (x * y)%C)) by (apply Rmult_le_compat_r; lra).
  assert (E4 : 32 * de * (1 + Cmod (x' * y)%C) <= 32 * de * (2 * (1 + Cmod (x * y)%C))) by (apply Rmult_le_compat_l; lra).
  assert (P : 0 <= de * (1 + Cmod (x * y)%C)) by (apply Rmult_le_pos; lra).
  eapply Rle_trans; [eapply (Cmod_sub_3 _ (x' * y)%C); [|exact E1]|].
  - eapply Rle_trans; [exact M|exact E4].
  - lra.
Qed.

(** ** The integrating-factor solvers with diagonal linear part *)
Theorem C82_if4_if34 :
  forall n (L : cvec) N t0 t1 rho K u f J, smooth n 4 (dmat L) N t0 t1 rho K u f J -> forall kap, 0 <= kap ->
  exists C h0 r0 e0 O0, 0 <= C /\ 0 < h0 /\ 0 < r0 /\ 0 < e0 /\
    forall a eps Om, rounds a eps Om -> scalars64 a -> 0 <= eps <= e0 -> O0 <= Om ->
    forall W (p : problem (Gops a) W) Nf, cfg64 (p_cfg p) -> (forall v w y w', p_nl p v w = (inr y, w') -> y = Nf v) ->
      computes_near n u N t0 t1 rho kap eps Nf -> vle n (csub (p_vec p) L) (kap * eps) ->
      cs_claim64 n t0 t1 u 4 C h0 r0 p IF4d 0 eps /\ as_claim64 n t0 t1 u 4 C h0 r0 p IF34d 0 eps.
Proof.
  intros n L N t0 t1 rho K u f J HS kap Hkap. destruct (C78_if4_if34 n L N t0 t1 rho K u f J HS kap Hkap) as (C & h0 & r0 & e0 & O0 & H1 & H2 & H3 & H4 & H5).
  destruct (lift64 n 4 (dmat L) N t0 t1 rho K u f J HS 4 C r0 H1 H3) as (C' & r' & P1 & P2 & P3).
  exists C', (Rmin h0 1), r', e0, O0. split; [exact P1|]. split; [apply Rmin_glb_lt; lra|]. split; [exact P2|]. split; [exact H4|].
  intros a eps Om HR Ha He HO W p Nf Hc HNL Hnear HL. destruct (H5 a eps Om HR He HO W (lower p) Nf HNL Hnear HL) as [Q1 Q2].
  destruct (P3 a W p 0 eps h0 Ha Hc (Rle_refl 0) (proj1 He)) as [G1 G2]. exact (conj (G1 IF4d Q1) (G2 IF34d ltac:(discriminate) Q2)).
Qed.

(** IF45DP: its scalars [11 * h / 84.0], [22 * h / 525.0] and [-h / 40.0] are rounded twice. *)
Theorem C82_if45dp :
  forall n (L : cvec) N t0 t1 rho K u f J J1, smooth n 5 (dmat L) N t0 t1 rho K u f J -> Jsmooth n t0 t1 K J J1 -> forall kap, 0 <= kap ->
  exists C B h0 r0 e0 O0, 0 <= C /\ 0 <= B /\ 0 < h0 /\ 0 < r0 /\ 0 < e0 /\
    forall a eps Om, rounds a eps Om -> scalars64 a -> 0 <= eps <= e0 -> O0 <= Om ->
    forall W (p : problem (Gops a) W) Nf, cfg64 (p_cfg p) -> (forall v w y w', p_nl p v w = (inr y, w') -> y = Nf v) ->
      computes_near n u N t0 t1 rho kap eps Nf -> vle n (csub (p_vec p) L) (kap * eps) ->
      as_claim64 n t0 t1 u 5 C h0 r0 p IF45DPd 0 (B * eps).
Proof.
  intros n L N t0 t1 rho K u f J J1 HS HJ kap Hkap. assert (HF := dexp_flow n L).
  assert (HT : 0 <= t1 - t0) by (assert (X := so_time _ _ _ _ _ _ _ _ _ _ _ HS); lra).
  destruct (law_close n (dmat L) (dexp L) HF DP5 (t1 - t0)) as (A & S & HA & Hcl).
  { cbn [DP5 tb_c]. repeat constructor; unfold Q2R; cbn; lra. }
  assert (Hloc := dp5_local n 5 (dmat L) (dexp L) N t0 t1 rho K u f J J1 (dPHI L) HF HS HJ (diag_family n L _ HT) ltac:(lia)).
  set (p0 := exact_problem L (mk_etdcfg (F := Rops) 1 1%nat 1)).
  assert (EX : forall i : inst cvec, veq (below n) (fst (dp_form (A := Cops) N (dpc Cops (i_h i) L) (i_v i) (N (i_v i))))
                   (erk_step (law_erk DP5 (mflow n (dexp L)) (i_h i)) N (i_h i) (i_v i))).
  { intros i. rewrite <- (law_diag n L 5 N t0 t1 rho K u f J HS DP5 (i_h i) (i_v i)).
    assert (X := C34_if45dp_candidate unit p0 N (i_h i) (i_v i)). change (p_vec p0) with L in X. rewrite <- X.
    rewrite (as_Phi_form p0 N IF45DPd (i_h i) (c := dpc Cops (i_h i) L) (i_v i) eq_refl). reflexivity. }
  destruct (dp_ok64 n 5 (dmat L) L N t0 t1 rho K u f J HS kap Hkap) as (B0 & B & HB0 & HB & h1 & e1 & O1 & Hh1 & He1 & HW).
  destruct (rounded_accuracy n 5 (dmat L) N t0 t1 rho K u f J HS (law_erk DP5 (mflow n (dexp L))) 5 ltac:(lia) Hloc A S HA) as (C & h0 & r0 & H1 & H2 & H3 & H4).
  destruct (lift64_any n 5 (dmat L) N t0 t1 rho K u f J HS 5 C r0 H1 H3) as (C' & r' & P1 & P2 & P3).
  assert (M1 := Rmin_l h0 h1). assert (M2 := Rmin_r h0 h1). assert (M3 : 0 < Rmin h0 h1) by (apply Rmin_glb_lt; assumption).
  exists C', B, (Rmin (Rmin h0 h1) 1), r', e1, O1. split; [exact P1|]. split; [exact HB|]. split; [apply Rmin_glb_lt; lra|]. split; [exact P2|]. split; [exact He1|].
  intros a eps Om HR Ha He HO W p Nf Hc HNL Hnear HL. assert (PB : 0 <= B * eps) by (apply Rmult_le_pos; [exact HB|apply He]).
  destruct (P3 a W p 0 (B * eps) (Rmin h0 h1) Ha Hc (Rle_refl 0) PB) as [_ G2].
  set (Psi := fun h v => fst (dp_form (A := Fops a) Nf (dpc64 a h (p_vec p)) v (Nf v))).
  apply (G2 IF45DPd Nf (fun _ => True) Psi).
  - exact (dp_sound64 a Ha W p Nf HNL).
  - intros hs v d H Hpos _ Htot HH Hd Hde Hv.
    assert (Q1 : Forall (fun h => 0 < h) hs) by (eapply Forall_impl; [|exact Hpos]; intros x Hx; cbn in Hx; lra).
    assert (Q2 : Forall (fun h => h <= H) hs) by (eapply Forall_impl; [|exact Hpos]; intros x Hx; cbn in Hx; lra).
    refine (proj2 (H4 Psi H 0 (B * eps) (INR (length hs)) hs v d _ _ (Rle_refl 0) PB _ Hd (Rle_refl _) Hde Hv Q1 Q2 _ Htot (conj eq_refl eq_refl))); [lra|].
    intros h Hin Hh. rewrite Forall_forall in Hpos. specialize (Hpos h Hin). cbn beta in Hpos.
    exists (law_erk DP5 (mflow n (dexp L)) h). split; [apply Hcl; lra|]. intros t x Ht Hx.
    assert (V : valid n (PX64 n L kap) N t0 t1 rho u kap (mk_inst t h x a eps Om Nf (p_vec p))).
    { split; cbn [i_t i_h i_v i_a i_eps i_Om i_N i_L]; try assumption; try lra. split; [exact HL|exact Ha]. }
    assert (Y := HW _ V ltac:(cbn [i_h]; lra) ltac:(cbn [i_eps]; lra) HO). cbn [i_t i_h i_v i_a i_eps i_Om i_N i_L] in Y.
    intros j Hj. assert (EXj := EX (mk_inst t h x a eps Om Nf (p_vec p)) j Hj). cbn [i_h i_v] in EXj. unfold csub. rewrite <- EXj. apply (Y j Hj).
  - intros h Hh _. split; [exact I|]. intros v. unfold Psi. rewrite (dp_Phi_64 a Ha W p Nf h Hh v). reflexivity.
Qed.

(** ** The exponential time differencing solvers with diagonal linear part *)
Definition both_claim64 (n : nat) (L : cvec) (N : cvec -> cvec) (t0 t1 rho : R) (u : R -> cvec) (kap : R) (p : nat) (kc : cs_kind) (ka : as_kind) (e : etdcfg Rops -> R) : Prop :=
  exists C r0, 0 <= C /\ 0 < r0 /\ forall cfg : etdcfg Bops, contour_ok (low_cfg cfg) -> cfg64 cfg ->
  exists B h0 e0 O0, 0 <= B /\ 0 < h0 /\ 0 < e0 /\
    forall a eps Om, rounds a eps Om -> scalars64 a -> 0 <= eps <= e0 -> O0 <= Om ->
    forall W (pr : problem (Gops a) W) Nf, p_cfg pr = cfg -> (forall v w y w', p_nl pr v w = (inr y, w') -> y = Nf v) ->
      computes_near n u N t0 t1 rho kap eps Nf -> vle n (csub (p_vec pr) L) (kap * eps) ->
      cs_claim64 n t0 t1 u p C h0 r0 pr kc (e (low_cfg cfg)) (B * eps) /\ as_claim64 n t0 t1 u p C h0 r0 pr ka (e (low_cfg cfg)) (B * eps).
Lemma both_lift n q L N t0 t1 rho K u f J kap p kc ka e : smooth n q (dmat L) N t0 t1 rho K u f J -> ka <> IF45DPd ->
  (forall cfg, contour_ok cfg -> 0 <= e cfg) ->
  both_claim n L N t0 t1 rho u kap p kc ka e -> both_claim64 n L N t0 t1 rho u kap p kc ka e.
Proof.
  intros HS Hk Hpos (C & r0 & H1 & H2 & H3). destruct (lift64 n q (dmat L) N t0 t1 rho K u f J HS p C r0 H1 H2) as (C' & r' & P1 & P2 & P3).
  exists C', r'. split; [exact P1|]. split; [exact P2|]. intros cfg Hcfg H64. destruct (H3 (low_cfg cfg) Hcfg) as (B & h0 & e0 & O0 & B1 & B2 & B3 & B4).
  exists B, (Rmin h0 1), e0, O0. split; [exact B1|]. split; [apply Rmin_glb_lt; lra|]. split; [exact B3|].
  intros a eps Om HR Ha He HO W pr Nf Hp HNL Hnear HL.
  assert (Hc : p_cfg (lower pr) = low_cfg cfg) by (rewrite <- Hp; reflexivity).
  destruct (B4 a eps Om HR He HO W (lower pr) Nf Hc HNL Hnear HL) as [Q1 Q2].
  assert (Hc' : cfg64 (p_cfg pr)) by (rewrite Hp; exact H64). assert (PB : 0 <= B * eps) by (apply Rmult_le_pos; [exact B1|apply He]).
  destruct (P3 a W pr (e (low_cfg cfg)) (B * eps) h0 Ha Hc' (Hpos _ Hcfg) PB) as [G1 G2]. exact (conj (G1 kc Q1) (G2 ka Hk Q2)).
Qed.
Lemma quad_pos k cfg : 0 <= k -> contour_ok cfg -> 0 <= k * quad_error cfg.
Proof. intros Hk (H1 & _). apply Rmult_le_pos; [exact Hk|]. apply quad_error_pos. lra. Qed.
Theorem C82_etd4_etd34 :
  forall n (L : cvec) N t0 t1 rho K u f J, smooth n 4 (dmat L) N t0 t1 rho K u f J -> forall kap, 0 <= kap ->
  both_claim64 n L N t0 t1 rho u kap 4 ETD4d ETD34d (fun cfg => 8 * quad_error cfg).
Proof.
  intros n L N t0 t1 rho K u f J HS kap Hkap. apply (both_lift n 4 L N t0 t1 rho K u f J kap 4 ETD4d ETD34d _ HS ltac:(discriminate)).
  - intros cfg Hc. apply quad_pos; [lra|exact Hc].
  - exact (C79_etd4_etd34 n L N t0 t1 rho K u f J HS kap Hkap).
Qed.
Theorem C82_etd5_etd35 :
  forall n (L : cvec) N t0 t1 rho K u f J J1, smooth n 4 (dmat L) N t0 t1 rho K u f J -> Jsmooth n t0 t1 K J J1 -> forall kap, 0 <= kap ->
  both_claim64 n L N t0 t1 rho u kap 4 ETD5d ETD35d (fun cfg => 12 * quad_error cfg).
Proof.
  intros n L N t0 t1 rho K u f J J1 HS HJ kap Hkap. apply (both_lift n 4 L N t0 t1 rho K u f J kap 4 ETD5d ETD35d _ HS ltac:(discriminate)).
  - intros cfg Hc. apply quad_pos; [lra|exact Hc].
  - exact (C79_etd5_etd35 n L N t0 t1 rho K u f J J1 HS HJ kap Hkap).
Qed.
Theorem C82_etd5_etd35_commuting :
  forall n (L : cvec) N t0 t1 rho K u f J J1, smooth n 5 (dmat L) N t0 t1 rho K u f J -> Jsmooth n t0 t1 K J J1 -> commutes n (dmat L) t0 t1 J ->
  forall kap, 0 <= kap -> both_claim64 n L N t0 t1 rho u kap 5 ETD5d ETD35d (fun cfg => 12 * quad_error cfg).
Proof.
  intros n L N t0 t1 rho K u f J J1 HS HJ HC kap Hkap. apply (both_lift n 5 L N t0 t1 rho K u f J kap 5 ETD5d ETD35d _ HS ltac:(discriminate)).
  - intros cfg Hc. apply quad_pos; [lra|exact Hc].
  - exact (C79_etd5_etd35_commuting n L N t0 t1 rho K u f J J1 HS HJ HC kap Hkap).
Qed.

(** ** Eigenbasis *)
Definition eig_claim64 (n : nat) (L : cmat) (N : cvec -> cvec) (t0 t1 rho : R) (u : R -> cvec) (kap : R) (p : nat) (k : as_kind) (good_cfg : etdcfg Rops -> Prop) (e : etdcfg Rops -> R -> R -> R) : Prop :=
  exists C r0, 0 <= C /\ 0 < r0 /\
  forall S T lam (cfg : etdcfg Bops) s t, spectral n L S T lam -> good_cfg (low_cfg cfg) -> cfg64 cfg ->
    (forall i, (i < n)%nat -> rown n S i <= s) -> (forall i, (i < n)%nat -> rown n T i <= t) -> 0 <= s -> 0 <= t ->
  exists B h0 e0 O0, 0 <= B /\ 0 < h0 /\ 0 < e0 /\
    forall a eps Om, rounds a eps Om -> scalars64 a -> 0 <= eps <= e0 -> O0 <= Om ->
    forall W (pr : problem (Gops a) W) Nf, p_cfg pr = cfg -> p_size pr = n -> (forall v w y w', p_nl pr v w = (inr y, w') -> y = Nf v) ->
      computes_near n u N t0 t1 rho kap eps Nf ->
      mle n (mdiff (p_S pr) S) (kap * eps) -> mle n (mdiff (p_Sinv pr) T) (kap * eps) -> vle n (csub (p_eigs pr) lam) (kap * eps) ->
      as_claim64 n t0 t1 u p C h0 r0 pr k (e (low_cfg cfg) s t) (B * eps).
Lemma eig_lift n q L N t0 t1 rho K u f J kap p k (gc : etdcfg Rops -> Prop) e : smooth n q L N t0 t1 rho K u f J -> k <> IF45DPd ->
  (forall cfg s t, gc cfg -> 0 <= s -> 0 <= t -> 0 <= e cfg s t) ->
  eig_claim n L N t0 t1 rho u kap p k gc e -> eig_claim64 n L N t0 t1 rho u kap p k gc e.
Proof.
  intros HS Hk Hpos (C & r0 & H1 & H2 & H3). destruct (lift64 n q L N t0 t1 rho K u f J HS p C r0 H1 H2) as (C' & r' & P1 & P2 & P3).
  exists C', r'. split; [exact P1|]. split; [exact P2|]. intros S T lam cfg s t HD Hcfg H64 Hs Ht Ps Pt.
  destruct (H3 S T lam (low_cfg cfg) s t HD Hcfg Hs Ht Ps Pt) as (B & h0 & e0 & O0 & B1 & B2 & B3 & B4).
  exists B, (Rmin h0 1), e0, O0. split; [exact B1|]. split; [apply Rmin_glb_lt; lra|]. split; [exact B3|].
  intros a eps Om HR Ha He HO W pr Nf Hp Hn HNL Hnear HS1 HS2 HS3.
  assert (Hc : p_cfg (lower pr) = low_cfg cfg) by (rewrite <- Hp; reflexivity).
  assert (Q := B4 a eps Om HR He HO W (lower pr) Nf Hc Hn HNL Hnear HS1 HS2 HS3).
  assert (Hc' : cfg64 (p_cfg pr)) by (rewrite Hp; exact H64). assert (PB : 0 <= B * eps) by (apply Rmult_le_pos; [exact B1|apply He]).
  destruct (P3 a W pr (e (low_cfg cfg) s t) (B * eps) h0 Ha Hc' (Hpos _ _ _ Hcfg Ps Pt) PB) as [_ G2]. exact (G2 k Hk Q).
Qed.
Lemma eig_pos k cfg s t : 0 <= k -> contour_ok cfg -> 0 <= s -> 0 <= t -> 0 <= k * (s * (quad_error cfg * t)).
Proof. intros Hk (H1 & _) Hs Ht. assert (X := quad_error_pos cfg ltac:(lra)). apply Rmult_le_pos; [exact Hk|]. apply Rmult_le_pos; [exact Hs|]. apply Rmult_le_pos; assumption. Qed.
Theorem C82_if34_eigenbasis :
  forall n (L : cmat) N t0 t1 rho K u f J, smooth n 4 L N t0 t1 rho K u f J -> forall kap, 0 <= kap ->
  eig_claim64 n L N t0 t1 rho u kap 4 IF34z (fun _ => True) (fun _ _ _ => 0).
Proof.
  intros n L N t0 t1 rho K u f J HS kap Hkap. apply (eig_lift n 4 L N t0 t1 rho K u f J kap 4 IF34z _ _ HS ltac:(discriminate)).
  - intros; lra.
  - exact (C80_if34_eigenbasis n L N t0 t1 rho K u f J HS kap Hkap).
Qed.
Theorem C82_etd34_eigenbasis :
  forall n (L : cmat) N t0 t1 rho K u f J, smooth n 4 L N t0 t1 rho K u f J -> forall kap, 0 <= kap ->
  eig_claim64 n L N t0 t1 rho u kap 4 ETD34z contour_ok (fun cfg s t => 8 * (s * (quad_error cfg * t))).
Proof.
  intros n L N t0 t1 rho K u f J HS kap Hkap. apply (eig_lift n 4 L N t0 t1 rho K u f J kap 4 ETD34z _ _ HS ltac:(discriminate)).
  - intros cfg s t Hc Hs Ht. apply eig_pos; try assumption. lra.
  - exact (C80_etd34_eigenbasis n L N t0 t1 rho K u f J HS kap Hkap).
Qed.
Theorem C82_etd35_eigenbasis :
  forall n (L : cmat) N t0 t1 rho K u f J J1, smooth n 4 L N t0 t1 rho K u f J -> Jsmooth n t0 t1 K J J1 -> forall kap, 0 <= kap ->
  eig_claim64 n L N t0 t1 rho u kap 4 ETD35z contour_ok (fun cfg s t => 12 * (s * (quad_error cfg * t))).
Proof.
  intros n L N t0 t1 rho K u f J J1 HS HJ kap Hkap. apply (eig_lift n 4 L N t0 t1 rho K u f J kap 4 ETD35z _ _ HS ltac:(discriminate)).
  - intros cfg s t Hc Hs Ht. apply eig_pos; try assumption. lra.
  - exact (C80_etd35_eigenbasis n L N t0 t1 rho K u f J J1 HS HJ kap Hkap).
Qed.
Theorem C82_etd35_eigenbasis_commuting :
  forall n (L : cmat) N t0 t1 rho K u f J J1, smooth n 5 L N t0 t1 rho K u f J -> Jsmooth n t0 t1 K J J1 -> commutes n L t0 t1 J ->
  forall kap, 0 <= kap -> eig_claim64 n L N t0 t1 rho u kap 5 ETD35z contour_ok (fun cfg s t => 12 * (s * (quad_error cfg * t))).
Proof.
  intros n L N t0 t1 rho K u f J J1 HS HJ HC kap Hkap. apply (eig_lift n 5 L N t0 t1 rho K u f J kap 5 ETD35z _ _ HS ltac:(discriminate)).
  - intros cfg s t Hc Hs Ht. apply eig_pos; try assumption. lra.
  - exact (C80_etd35_eigenbasis_commuting n L N t0 t1 rho K u f J J1 HS HJ HC kap Hkap).
Qed.

(** ** Full matrices *)
Theorem C82_if4_if34_matrix :
  forall n (L : cmat) N t0 t1 rho K u f J, smooth n 4 L N t0 t1 rho K u f J -> forall kap, 0 <= kap ->
  exists C h0 r0 e0 O0, 0 <= C /\ 0 < h0 /\ 0 < r0 /\ 0 < e0 /\
    forall a eps Om, rounds a eps Om -> scalars64 a -> 0 <= eps <= e0 -> O0 <= Om ->
    forall W (p : problem (Gops a) W) Nf, cfg64 (p_cfg p) -> p_size p = n -> (forall v w y w', p_nl p v w = (inr y, w') -> y = Nf v) ->
      computes_near n u N t0 t1 rho kap eps Nf -> mle n (mdiff (p_mat p) L) (kap * eps) -> expm_near n kap eps (p_expm p) ->
      cs_claim64 n t0 t1 u 4 C h0 r0 p IF4n 0 eps /\ as_claim64 n t0 t1 u 4 C h0 r0 p IF34n 0 eps.
Proof.
  intros n L N t0 t1 rho K u f J HS kap Hkap. destruct (C80_if4_if34_matrix n L N t0 t1 rho K u f J HS kap Hkap) as (C & h0 & r0 & e0 & O0 & H1 & H2 & H3 & H4 & H5).
  destruct (lift64 n 4 L N t0 t1 rho K u f J HS 4 C r0 H1 H3) as (C' & r' & P1 & P2 & P3).
  exists C', (Rmin h0 1), r', e0, O0. split; [exact P1|]. split; [apply Rmin_glb_lt; lra|]. split; [exact P2|]. split; [exact H4|].
  intros a eps Om HR Ha He HO W p Nf Hc Hn HNL Hnear HL HE. destruct (H5 a eps Om HR He HO W (lower p) Nf Hn HNL Hnear HL HE) as [Q1 Q2].
  destruct (P3 a W p 0 eps h0 Ha Hc (Rle_refl 0) (proj1 He)) as [G1 G2]. exact (conj (G1 IF4n Q1) (G2 IF34n ltac:(discriminate) Q2)).
Qed.
Definition full_claim64 (n : nat) (L : cmat) (N : cvec -> cvec) (t0 t1 rho : R) (u : R -> cvec) (kap : R) (p : nat) (k : cs_kind) (k' : as_kind) (c : R) : Prop :=
  exists C r0, 0 <= C /\ 0 < r0 /\
  forall (cfg : etdcfg Bops) x, cfg64 cfg -> 0 < contour_radius (low_cfg cfg) -> (0 < contour_points cfg)%nat -> 0 < x <= contour_radius (low_cfg cfg) / 2 ->
  exists B h0 e0 O0, 0 <= B /\ 0 < h0 /\ 0 < e0 /\
    forall a eps Om, rounds a eps Om -> scalars64 a -> 0 <= eps <= e0 -> O0 <= Om ->
    forall W (pr : problem (Gops a) W) Nf, p_cfg pr = cfg -> p_size pr = n -> (forall v w y w', p_nl pr v w = (inr y, w') -> y = Nf v) ->
      computes_near n u N t0 t1 rho kap eps Nf -> mle n (mdiff (p_mat pr) L) (kap * eps) -> expm_near n kap eps (p_expm pr) -> inv_near n kap eps Om (p_inv pr) ->
      cs_claim64 n t0 t1 u p C h0 r0 pr k (c * merr (low_cfg cfg) x) (B * eps) /\ as_claim64 n t0 t1 u p C h0 r0 pr k' (c * merr (low_cfg cfg) x) (B * eps).
Lemma full_lift n q L N t0 t1 rho K u f J kap p k k' c : smooth n q L N t0 t1 rho K u f J -> k' <> IF45DPd -> 0 <= c ->
  full_claim n L N t0 t1 rho u kap p k k' c -> full_claim64 n L N t0 t1 rho u kap p k k' c.
Proof.
  intros HS Hk Hcp (C & r0 & H1 & H2 & H3). destruct (lift64 n q L N t0 t1 rho K u f J HS p C r0 H1 H2) as (C' & r' & P1 & P2 & P3).
  exists C', r'. split; [exact P1|]. split; [exact P2|]. intros cfg x H64 Hr HM Hx.
  destruct (H3 (low_cfg cfg) x Hr HM Hx) as (B & h0 & e0 & O0 & B1 & B2 & B3 & B4).
  exists B, (Rmin h0 1), e0, O0. split; [exact B1|]. split; [apply Rmin_glb_lt; lra|]. split; [exact B3|].
  intros a eps Om HR Ha He HO W pr Nf Hp Hn HNL Hnear HL HE HI.
  assert (Hc : p_cfg (lower pr) = low_cfg cfg) by (rewrite <- Hp; reflexivity).
  destruct (B4 a eps Om HR He HO W (lower pr) Nf Hc Hn HNL Hnear HL HE HI) as [Q1 Q2].
  assert (Hc' : cfg64 (p_cfg pr)) by (rewrite Hp; exact H64). assert (PB : 0 <= B * eps) by (apply Rmult_le_pos; [exact B1|apply He]).
  assert (Pe : 0 <= c * merr (low_cfg cfg) x) by (apply Rmult_le_pos; [exact Hcp|exact (merr_pos (low_cfg cfg) HM Hr x ltac:(lra))]).
  destruct (P3 a W pr (c * merr (low_cfg cfg) x) (B * eps) h0 Ha Hc' Pe PB) as [G1 G2]. exact (conj (G1 k Q1) (G2 k' Hk Q2)).
Qed.
Theorem C82_etd4_etd34_matrix :
  forall n (L : cmat) N t0 t1 rho K u f J, smooth n 4 L N t0 t1 rho K u f J -> forall kap, 0 <= kap -> full_claim64 n L N t0 t1 rho u kap 4 ETD4n ETD34n 8.
Proof.
  intros n L N t0 t1 rho K u f J HS kap Hkap. apply (full_lift n 4 L N t0 t1 rho K u f J kap 4 ETD4n ETD34n 8 HS ltac:(discriminate) ltac:(lra)).
  exact (C81_etd4_etd34 n L N t0 t1 rho K u f J HS kap Hkap).
Qed.
Theorem C82_etd5_etd35_matrix :
  forall n (L : cmat) N t0 t1 rho K u f J J1, smooth n 4 L N t0 t1 rho K u f J -> Jsmooth n t0 t1 K J J1 -> forall kap, 0 <= kap ->
  full_claim64 n L N t0 t1 rho u kap 4 ETD5n ETD35n 12.
Proof.
  intros n L N t0 t1 rho K u f J J1 HS HJ kap Hkap. apply (full_lift n 4 L N t0 t1 rho K u f J kap 4 ETD5n ETD35n 12 HS ltac:(discriminate) ltac:(lra)).
  exact (C81_etd5_etd35 n L N t0 t1 rho K u f J J1 HS HJ kap Hkap).
Qed.
Theorem C82_etd5_etd35_matrix_commuting :
  forall n (L : cmat) N t0 t1 rho K u f J J1, smooth n 5 L N t0 t1 rho K u f J -> Jsmooth n t0 t1 K J J1 -> commutes n L t0 t1 J ->
  forall kap, 0 <= kap -> full_claim64 n L N t0 t1 rho u kap 5 ETD5n ETD35n 12.
Proof.
  intros n L N t0 t1 rho K u f J J1 HS HJ HC kap Hkap. apply (full_lift n 5 L N t0 t1 rho K u f J kap 5 ETD5n ETD35n 12 HS ltac:(discriminate) ltac:(lra)).
  exact (C81_etd5_etd35_commuting n L N t0 t1 rho K u f J J1 HS HJ HC kap Hkap).
Qed.

(** ** Not vacuous *)
(** The logistic equation [u' = -u + u^2] in binary64. *)
Definition logistic64 : problem (Gops np64) unit :=
  mk_problem (A := Gops np64) (fun (v : cvec) w => (inr (fun i => fl_mul np64 (v i) (v i)), w)) 1 (fun _ => RtoC (-1)) (fun _ _ => RtoC (-1))
    (mk_etdcfg (F := Bops) (b64_ofZ 1) 32%nat (b64_ofZ 1)) (fun M => inr M) (fun M => inr M) (fun _ _ => RtoC 1) (fun _ _ => RtoC 1) (fun _ => RtoC (-1)).
Lemma logistic64_near a eps Om : rounds a eps Om -> 0 <= eps -> 4 <= Om -> computes_near 1 lgu lgN 0 1 1 5 eps (fun v i => fl_mul a (v i) (v i)).
Proof.
  intros HR He HO t w Ht Hw i Hi. specialize (Hw i Hi). unfold csub in *. unfold lgN.
  assert (G := lg_range t). assert (U : Cmod (lgu t i) <= 1) by (unfold lgu; rewrite Cmod_R, Rabs_pos_eq; lra).
  assert (W : Cmod (w i) <= 2) by (eapply Rle_trans; [apply (Cmod_le_diff _ _ _ _ U Hw)|lra]).
  assert (W2 : Cmod (w i * w i)%C <= 4) by (rewrite Cmod_mult; replace 4 with (2 * 2) by ring; apply Rmult_le_compat; try apply Cmod_ge_0; assumption).
  eapply Rle_trans; [apply (ro_mul _ _ _ HR); lra|]. replace (5 * eps) with (eps * 5) by ring. apply Rmult_le_compat_l; lra.
Qed.
(** The arithmetic of numpy meets the hypotheses with [eps = 2^-46] and [Om = 2^500]; what is left is that these are fine and wide
    enough for the equation: the constants [e0] and [O0] are not computed. *)
Example C82_not_vacuous :
  rounds np64 (bpow radix2 (-46)) (bpow radix2 500) /\ scalars64 np64 /\ cfg64 (p_cfg logistic64) /\
  exists C h0 r0 e0 O0, 0 <= C /\ 0 < h0 /\ 0 < r0 /\ 0 < e0 /\ (bpow radix2 (-46) <= e0 -> O0 <= bpow radix2 500 ->
    cs_claim64 1 0 1 lgu 4 C h0 r0 logistic64 IF4d 0 (bpow radix2 (-46)) /\ as_claim64 1 0 1 lgu 4 C h0 r0 logistic64 IF34d 0 (bpow radix2 (-46))).
Proof.
  split; [exact np64_rounds|]. split; [exact np64_scalars|].
  assert (Hc : cfg64 (p_cfg logistic64)).
  { split; [|split]; [apply B2R_ofZ; lia|apply B2R_ofZ; lia|]. change (contour_points (p_cfg logistic64)) with 32%nat. lia. }
  split; [exact Hc|].
  destruct (C82_if4_if34 1 (fun _ => RtoC (-1)) lgN 0 1 1 5000 lgu lgf lgJ (smooth_weak 1 5 4 _ _ _ _ _ _ _ _ _ ltac:(lia) lg_smooth) 5 ltac:(lra)) as (C & h0 & r0 & e0 & O0 & H1 & H2 & H3 & H4 & H5).
  exists C, h0, r0, e0, O0. split; [exact H1|]. split; [exact H2|]. split; [exact H3|]. split; [exact H4|]. intros He HO.
  assert (Pe := bpow_gt_0 radix2 (-46)).
  assert (HB : 4 <= bpow radix2 500) by (change 4 with (bpow radix2 2); apply bpow_le; lia).
  apply (H5 np64 _ _ np64_rounds np64_scalars ltac:(lra) HO unit logistic64 (fun v i => fl_mul np64 (v i) (v i)) Hc).
  - intros v w y w' E. cbn [p_nl logistic64] in E. congruence.
  - apply (logistic64_near np64 _ _ np64_rounds); [lra|exact HB].
  - intros i Hi. unfold csub. cbn [p_vec logistic64]. replace (RtoC (-1) - RtoC (-1))%C with (RtoC 0) by ring. rewrite Cmod_0. lra.
Qed.
Example C82_if45dp_not_vacuous :
  exists C B h0 r0 e0 O0, 0 <= C /\ 0 <= B /\ 0 < h0 /\ 0 < r0 /\ 0 < e0 /\ (bpow radix2 (-46) <= e0 -> O0 <= bpow radix2 500 ->
    as_claim64 1 0 1 lgu 5 C h0 r0 logistic64 IF45DPd 0 (B * bpow radix2 (-46))).
Proof.
  destruct C82_not_vacuous as (_ & _ & Hc & _).
  destruct (C82_if45dp 1 (fun _ => RtoC (-1)) lgN 0 1 1 5000 lgu lgf lgJ lgJ1 lg_smooth lg_J 5 ltac:(lra)) as (C & B & h0 & r0 & e0 & O0 & H1 & H1b & H2 & H3 & H4 & H5).
  exists C, B, h0, r0, e0, O0. split; [exact H1|]. split; [exact H1b|]. split; [exact H2|]. split; [exact H3|]. split; [exact H4|]. intros He HO.
  assert (Pe := bpow_gt_0 radix2 (-46)).
  assert (HB : 4 <= bpow radix2 500) by (change 4 with (bpow radix2 2); apply bpow_le; lia).
  apply (H5 np64 _ _ np64_rounds np64_scalars ltac:(lra) HO unit logistic64 (fun v i => fl_mul np64 (v i) (v i)) Hc).
  - intros v w y w' E. cbn [p_nl logistic64] in E. congruence.
  - apply (logistic64_near np64 _ _ np64_rounds); [lra|exact HB].
  - intros i Hi. unfold csub. cbn [p_vec logistic64]. replace (RtoC (-1) - RtoC (-1))%C with (RtoC 0) by ring. rewrite Cmod_0. lra.
Qed.

Print Assumptions C82_if4_if34.
Print Assumptions C82_if45dp.
Print Assumptions C82_etd4_etd34.
Print Assumptions C82_etd5_etd35.
Print Assumptions C82_etd5_etd35_commuting.
Print Assumptions C82_if34_eigenbasis.
Print Assumptions C82_etd34_eigenbasis.
Print Assumptions C82_etd35_eigenbasis.
Print Assumptions C82_etd35_eigenbasis_commuting.
Print Assumptions C82_if4_if34_matrix.
Print Assumptions C82_etd4_etd34_matrix.
Print Assumptions C82_etd5_etd35_matrix.
Print Assumptions C82_etd5_etd35_matrix_commuting.
