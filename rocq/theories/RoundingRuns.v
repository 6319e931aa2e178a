(** * Scalars in binary64, vectors in rounded complex arithmetic

    The models of the strategies read over [Gops a]: step sizes, literals, quotients of literals and norms are binary64 numbers
    ([B64.v]), the entries of the arrays are handled by the operations of [a] ([Rounding.v]). The same strategies read over
    [Fops a], with exact scalars, take the same steps, if [a] rounds the scalars it multiplies by. *)

From Coq Require Import ZArith List Bool Reals Lra Lia FunctionalExtensionality.
From Coquelicot Require Import Complex.
From Flocq Require Import Core BinarySingleNaN.
From Verif Require Import Scalars Arrays SchemeBase SchemeIF SchemeETD4 SchemeETD5 Solvers SchemeFacts SchemeSound SchemeFamily SchemePartial SchemeForm
     B64 B64Step Rounding RoundingB64.
Import ListNotations.
Local Open Scope R_scope.
Set Implicit Arguments.

(** The binary64 number nearest to a real number; an infinity if it is too large. *)
Definition RtoB (x : R) : b64 :=
  binary_normalize 53 1024 _ _ mode_NE (ZnearestE (scaled_mantissa radix2 fx x)) (cexp radix2 fx x) false.
Lemma RtoB_F2R x : F2R (Float radix2 (ZnearestE (scaled_mantissa radix2 fx x)) (cexp radix2 fx x)) = rnd x.
Proof. reflexivity. Qed.
Lemma RtoB_cases x : 
  (Rabs (rnd x) < bpow radix2 1024 /\ is_finite (RtoB x) = true /\ B2R (RtoB x) = rnd x) \/
  (bpow radix2 1024 <= Rabs (rnd x) /\ RtoB x = B754_infinity (Rlt_bool (rnd x) 0)).
Proof.
  unfold RtoB. assert (H := binary_normalize_correct 53 1024 _ _ mode_NE (ZnearestE (scaled_mantissa radix2 fx x)) (cexp radix2 fx x) false).
  cbv zeta in H. rewrite RtoB_F2R in H. rewrite (rnd_id (rnd x)) in H by apply fmt_rnd.
  destruct (Rlt_bool_spec (Rabs (rnd x)) (bpow radix2 1024)) as [L|L].
  - left. destruct H as (H1 & H2 & _). auto.
  - right. split; [exact L|]. apply B2SF_inf. rewrite H. reflexivity.
Qed.
Lemma RtoB_ltb x (c : b64) : 0 <= x -> is_finite c = true -> Bltb (RtoB x) c = Rltb (rnd x) (B2R c).
Proof.
  intros Hx Fc. unfold Rltb. destruct (RtoB_cases x) as [(L & F & E)|(L & E)].
  - destruct (Rlt_dec (rnd x) (B2R c)) as [Y|Y].
    + apply ltb_R; [exact F|exact Fc|]. rewrite E. exact Y.
    + apply ltb_R_false; [exact F|exact Fc|]. rewrite E. lra.
  - assert (P := rnd_ge0 x Hx). rewrite E. assert (M := B2R_lt_max c). rewrite Rabs_pos_eq in L by exact P.
    destruct (Rlt_dec (rnd x) (B2R c)) as [Y|Y]; [lra|]. rewrite Rlt_bool_false by lra.
    clear - Fc. destruct c as [s|s| |s mm e H]; cbn in Fc; try discriminate; destruct s; reflexivity.
Qed.

Lemma B2R_ofZ z : (Z.abs z < 2 ^ 53)%Z -> is_finite (b64_ofZ z) = true /\ B2R (b64_ofZ z) = IZR z.
Proof.
  intros Hz. unfold b64_ofZ. assert (H := binary_normalize_correct 53 1024 _ _ mode_NE z 0 false). cbv zeta in H.
  assert (E : F2R (Float radix2 z 0) = IZR z * bpow radix2 0) by reflexivity.
  assert (Ef := fmt_grid z 0 Hz ltac:(lia)). assert (Eb := grid_bound z 0 Hz ltac:(lia)).
  rewrite E, (rnd_id _ Ef), Rlt_bool_true in H by exact Eb. replace (IZR z * bpow radix2 0) with (IZR z) in H by (cbn; ring). tauto.
Qed.

(** The arithmetic of the models: scalars are binary64 numbers. *)
Definition Gops (a : arith) : aops Bops :=
  mk_aops Bops C (fun x : b64 => RtoC (B2R x)) (fl_add a) (fl_sub a) (fl_mul a) (fl_div a) Copp (fl_exp a) (fun z => RtoB (fl_abs a z)) (fl_2pij a)
    (fl_sum a) (fl_dot a).
(** The arithmetic rounds the scalars of products; moduli are binary64 numbers; sums depend on their terms only. *)
Record scalars64 (a : arith) : Prop := {
  sc_mul : forall x y, fl_mul a (RtoC x) y = fl_mul a (RtoC (rnd x)) y;
  sc_abs : forall z, 0 <= fl_abs a z /\ rnd (fl_abs a z) = fl_abs a z;
  sc_sum : forall m f g, (forall k, (k < m)%nat -> f k = g k) -> fl_sum a m f = fl_sum a m g }.

(** The configuration and the problem with exact scalars. *)
Definition low_cfg (c : etdcfg Bops) : etdcfg Rops := mk_etdcfg (F := Rops) (B2R (modecutoff c)) (contour_points c) (B2R (contour_radius c)).
Definition lower {a W} (p : problem (Gops a) W) : problem (Fops a) W :=
  mk_problem (A := Fops a) (p_nl p) (p_size p) (p_vec p) (p_mat p) (low_cfg (p_cfg p)) (p_expm p) (p_inv p) (p_S p) (p_Sinv p) (p_eigs p).
Definition cfg64 (c : etdcfg Bops) : Prop :=
  is_finite (modecutoff c : b64) = true /\ is_finite (contour_radius c : b64) = true /\ (Z.of_nat (contour_points c) < 2 ^ 52)%Z.

Section Transfer.
  Variable a : arith.
  Hypothesis Ha : scalars64 a.
  Notation G := (Gops a).
  Notation A := (Fops a).
  Notation cvec := (nat -> C).
  Notation cmat := (nat -> nat -> C).
  Local Open Scope Z_scope.

  Lemma lit64 z : Z.abs z < 2 ^ 53 -> eofT G (tofZ Bops z) = eofT A (tofZ Rops z).
  Proof. intros H. cbn. rewrite (proj2 (B2R_ofZ z H)). reflexivity. Qed.
  Lemma mulq64 x y : Z.abs x < 2 ^ 53 -> Z.abs y < 2 ^ 53 -> y <> 0 ->
    emul G (eofT G (tdiv Bops (tofZ Bops x) (tofZ Bops y))) = emul A (eofT A (tdiv Rops (tofZ Rops x) (tofZ Rops y))).
  Proof.
    intros Hx Hy Hy0. extensionality v. cbn [emul eofT G A Gops Fops].
    change (tdiv Bops (tofZ Bops x) (tofZ Bops y)) with (b64_div (b64_ofZ x) (b64_ofZ y)).
    change (tdiv Rops (tofZ Rops x) (tofZ Rops y)) with (IZR x / IZR y)%R.
    destruct (B2R_ofZ x Hx) as [F1 E1]. destruct (B2R_ofZ y Hy) as [F2 E2].
    assert (N : IZR y <> 0%R) by (apply not_0_IZR; exact Hy0).
    assert (H := Bdiv_correct 53 1024 _ _ mode_NE (b64_ofZ x) (b64_ofZ y) ltac:(rewrite E2; exact N)). rewrite E1, E2 in H.
    assert (Y1 : (1 <= Rabs (IZR y))%R) by (rewrite <- abs_IZR; apply IZR_le; lia).
    assert (X1 : (Rabs (IZR x) <= bpow radix2 53)%R) by (rewrite <- abs_IZR; change (bpow radix2 53) with (IZR (2 ^ 53)); apply IZR_le; lia).
    assert (Bd : (Rabs (IZR x / IZR y) <= bpow radix2 53)%R).
    { unfold Rdiv. rewrite Rabs_mult, (Rabs_inv (IZR y)). apply Rle_trans with (bpow radix2 53 * 1)%R; [|lra].
      apply Rmult_le_compat; [apply Rabs_pos|left; apply Rinv_0_lt_compat; lra|exact X1|]. rewrite <- Rinv_1. apply Rinv_le_contravar; lra. }
    rewrite Rlt_bool_true in H.
    - destruct H as (H1 & _). change (Bdiv mode_NE (b64_ofZ x) (b64_ofZ y)) with (b64_div (b64_ofZ x) (b64_ofZ y)) in H1. rewrite H1. symmetry. apply (sc_mul Ha).
    - apply Rle_lt_trans with (bpow radix2 53); [|apply bpow_lt; lia].
      apply abs_round_le_generic; [exact fexp_ok|apply valid_rnd_round_mode|apply generic_format_bpow; cbn; unfold SpecFloat.emin; lia|exact Bd].
  Qed.
  (** Products of a step size and a literal. *)
  Definition h_ok (h : b64) : Prop := is_finite h = true /\ (Rabs (B2R h) <= 1)%R.
  Lemma mulh64 h (c : b64) (x : R) : h_ok h -> is_finite c = true -> B2R c = x -> (Rabs x <= 131072)%R ->
    emul G (eofT G (tmul Bops h c)) = emul A (eofT A (tmul Rops (B2R h) x)) /\
    emul G (eofT G (tmul Bops c h)) = emul A (eofT A (tmul Rops x (B2R h))).
  Proof.
    intros [Fh Hh] Fc Ec Hc.
    assert (K : (Rabs (B2R h * x) <= bpow radix2 17)%R).
    { rewrite Rabs_mult. change (bpow radix2 17) with 131072%R. replace 131072%R with (1 * 131072)%R by ring. apply Rmult_le_compat; try apply Rabs_pos; assumption. }
    assert (L : (Rabs (rnd (B2R h * x)) < bpow radix2 1024)%R).
    { apply Rle_lt_trans with (bpow radix2 17); [|apply bpow_lt; lia].
      apply abs_round_le_generic; [exact fexp_ok|apply valid_rnd_round_mode|apply generic_format_bpow; cbn; unfold SpecFloat.emin; lia|exact K]. }
    split; extensionality v; cbn [emul eofT G A Gops Fops].
    - change (tmul Bops h c) with (b64_mult h c). change (tmul Rops (B2R h) x) with (B2R h * x)%R.
      destruct (mult_cases h c Fh Fc) as [(_ & _ & E)|(X & _)]; [rewrite E, Ec; symmetry; apply (sc_mul Ha)|rewrite Ec in X; lra].
    - change (tmul Bops c h) with (b64_mult c h). change (tmul Rops x (B2R h)) with (x * B2R h)%R. rewrite (Rmult_comm x).
      destruct (mult_cases c h Fc Fh) as [(_ & _ & E)|(X & _)]; [rewrite E, Ec, Rmult_comm; symmetry; apply (sc_mul Ha)|rewrite Ec, Rmult_comm in X; lra].
  Qed.
  Lemma half64 : is_finite (half Bops) = true /\ B2R (half Bops) = (1 / 2)%R.
  Proof. split; [reflexivity|]. vm_compute. lra. Qed.

  Variable cfg : etdcfg Bops.
  Hypothesis Hcfg : cfg64 cfg.
  Notation lcfg := (low_cfg cfg).
  Lemma npts64 : eofT G (npts cfg) = eofT A (npts lcfg).
  Proof. unfold npts. destruct Hcfg as (_ & _ & H). apply (@lit64 (Z.of_nat (contour_points cfg))). change (2 ^ 53) with (2 * 2 ^ 52). lia. Qed.
  Lemma node64 j : (j < contour_points cfg)%nat -> node G cfg j = node A lcfg j.
  Proof.
    intros Hj. unfold node. rewrite npts64. cbn [emul eofT G A Gops Fops eexp ediv e2pij low_cfg contour_radius].
    replace (B2R (tadd Bops (half Bops) (tofZ Bops (Z.of_nat j)))) with (tadd Rops (half Rops) (tofZ Rops (Z.of_nat j))); [reflexivity|].
    destruct Hcfg as (_ & _ & H). assert (Hj2 : 1 + 2 * Z.of_nat j < 2 ^ 53) by (change (2 ^ 53) with (2 * 2 ^ 52); lia).
    destruct (B2R_ofZ (Z.of_nat j) ltac:(lia)) as [F1 E1]. destruct half64 as [F2 E2].
    change (half Rops) with (1 / 2)%R. change (tadd Rops (1 / 2)%R (tofZ Rops (Z.of_nat j))) with (1 / 2 + IZR (Z.of_nat j))%R.
    change (tadd Bops (half Bops) (tofZ Bops (Z.of_nat j))) with (b64_plus (half Bops) (b64_ofZ (Z.of_nat j))).
    assert (E : (B2R (half Bops) + B2R (b64_ofZ (Z.of_nat j)) = IZR (1 + 2 * Z.of_nat j) * bpow radix2 (-1))%R).
    { rewrite E1, E2, plus_IZR, mult_IZR. change (bpow radix2 (-1)) with (/ 2)%R. lra. }
    destruct (plus_exact (half Bops) (b64_ofZ (Z.of_nat j)) F2 F1) as [X _].
    - rewrite E. apply fmt_grid; lia.
    - rewrite E. apply grid_bound; lia.
    - rewrite X, E1, E2. reflexivity.
  Qed.
  Lemma nodes64 : nodes G cfg = nodes A lcfg.
  Proof. unfold nodes. apply map_ext_in. intros j Hj. apply in_seq in Hj. apply node64. exact (proj2 Hj). Qed.
  Lemma contour64 h : contour_avg G cfg h = contour_avg A lcfg (B2R h).
  Proof.
    extensionality psi. extensionality f. extensionality z. unfold contour_avg. rewrite npts64. cbn [emul eofT G A Gops Fops ediv esum low_cfg contour_points].
    f_equal. f_equal. apply (sc_sum Ha). intros j Hj. rewrite (node64 Hj). reflexivity.
  Qed.
  Lemma small64 z : small_idx (A := G) z (modecutoff cfg) = small_idx (A := A) z (modecutoff lcfg).
  Proof.
    extensionality i. unfold small_idx. destruct Hcfg as (Fc & _). destruct (sc_abs Ha (z i)) as [P E].
    change (tltb Bops (eabs G (z i)) (modecutoff cfg)) with (Bltb (RtoB (fl_abs a (z i))) (modecutoff cfg)).
    rewrite RtoB_ltb by assumption. rewrite E. reflexivity.
  Qed.
  Lemma psi1_64 : psi1 G = psi1 A.
  Proof. extensionality z. unfold psi1, lit. rewrite !lit64 by (cbn; lia). reflexivity. Qed.
  Lemma psi2_64 : psi2 G = psi2 A.
  Proof. extensionality z. unfold psi2, lit. rewrite !lit64 by (cbn; lia). reflexivity. Qed.
  Lemma psi3_64 : psi3 G = psi3 A.
  Proof. extensionality z. unfold psi3, lit. rewrite !lit64 by (cbn; lia). reflexivity. Qed.
  Lemma eye64 : eye G = eye A.
  Proof. extensionality i. extensionality j. unfold eye, lit. rewrite !lit64 by (cbn; lia). reflexivity. Qed.

  Variable h : b64.
  Hypothesis Hh : h_ok h.
  Lemma mulhz z : Z.abs z <= 131072 ->
    emul G (eofT G (tmul Bops h (tofZ Bops z))) = emul A (eofT A (tmul Rops (B2R h) (tofZ Rops z))) /\
    emul G (eofT G (tmul Bops (tofZ Bops z) h)) = emul A (eofT A (tmul Rops (tofZ Rops z) (B2R h))).
  Proof.
    intros Hz. destruct (B2R_ofZ z ltac:(lia)) as [F1 E1]. apply (mulh64 (b64_ofZ z) Hh F1 E1). rewrite <- abs_IZR. apply IZR_le. exact Hz.
  Qed.
  Lemma mulhh : emul G (eofT G (tmul Bops (tdiv Bops (tofZ Bops 1) (tofZ Bops 2)) h)) = emul A (eofT A (tmul Rops (tdiv Rops (tofZ Rops 1) (tofZ Rops 2)) (B2R h))).
  Proof. destruct half64 as [F E]. apply (mulh64 (half Bops) Hh F E). rewrite Rabs_pos_eq; lra. Qed.

  Ltac low := unfold vscalz, vdivz, mscalz, mdivz, vscal, vdivs, mscal, mdivs, lit;
    rewrite ?psi1_64, ?psi2_64, ?psi3_64, ?contour64, ?small64, ?nodes64, ?eye64, ?npts64, ?mulhh;
    repeat match goal with
    | |- context [emul G (eofT G (tdiv Bops (tofZ Bops ?x) (tofZ Bops ?y)))] => rewrite (@mulq64 x y) by (cbn; lia)
    | |- context [emul G (eofT G (tmul Bops h (tofZ Bops ?x)))] => rewrite (proj1 (@mulhz x ltac:(cbn; lia)))
    | |- context [emul G (eofT G (tmul Bops (tofZ Bops ?x) h))] => rewrite (proj2 (@mulhz x ltac:(cbn; lia)))
    end;
    repeat match goal with |- context [eofT G (tofZ Bops ?z)] => rewrite (@lit64 z) by (cbn; lia) end.

  (** Coefficients. *)
  Lemma if4d_64 (L : cvec) (c : if_coefs cvec) : if4d_coeffs Bops G L h c = if4d_coeffs Rops A L (B2R h) c.
  Proof. unfold if4d_coeffs at 1. cbv beta zeta. low. reflexivity. Qed.
  Lemma if4n_64 expm (L : cmat) (c : if_coefs cmat) : if4n_coeffs Bops G expm L h c = if4n_coeffs Rops A expm L (B2R h) c.
  Proof. unfold if4n_coeffs at 1. cbv beta zeta. low. reflexivity. Qed.
  Lemma etd4d_64 (L : cvec) (c : etd4_coefs cvec) : etd4d_coeffs Bops G cfg L h c = etd4d_coeffs Rops A lcfg L (B2R h) c.
  Proof. unfold etd4d_coeffs at 1. cbv beta zeta. low. reflexivity. Qed.
  Lemma etd34_64 (z : cvec) (c : etd4_coefs cvec) : etd34_coeffs_of Bops G cfg h z c = etd34_coeffs_of Rops A lcfg (B2R h) z c.
  Proof. unfold etd34_coeffs_of at 1. cbv beta zeta. low. reflexivity. Qed.
  Lemma etd5d_64 (L : cvec) (c : etd5_coefs cvec) : etd5d_coeffs Bops G cfg L h c = etd5d_coeffs Rops A lcfg L (B2R h) c.
  Proof. unfold etd5d_coeffs at 1. cbv beta zeta. low. reflexivity. Qed.
  Lemma etd35_64 (z : cvec) (c : etd5_coefs cvec) : etd35_coeffs_of Bops G cfg h z c = etd35_coeffs_of Rops A lcfg (B2R h) z c.
  Proof. unfold etd35_coeffs_of at 1. cbv beta zeta. low. reflexivity. Qed.
  Lemma etd4_contour_64 inv (z : cmat) pts :
    (etd4_contour Bops G cfg inv z pts : psis4 cmat -> exn + psis4 cmat) = etd4_contour Rops A lcfg inv z pts.
  Proof. induction pts as [|pt pts IH]; extensionality p; [reflexivity|]. cbn [etd4_contour]. rewrite IH. low. reflexivity. Qed.
  Lemma etd5_contour_64 inv (z : cmat) pts :
    (etd5_contour Bops G cfg inv z pts : psis5 cmat -> exn + psis5 cmat) = etd5_contour Rops A lcfg inv z pts.
  Proof. induction pts as [|pt pts IH]; extensionality p; [reflexivity|]. cbn [etd5_contour]. rewrite IH. low. reflexivity. Qed.
  Lemma etd4n_64 expm inv (L : cmat) (c : etd4_coefs cmat) : etd4n_coeffs Bops G cfg expm inv L h c = etd4n_coeffs Rops A lcfg expm inv L (B2R h) c.
  Proof. unfold etd4n_coeffs at 1. cbv beta zeta. rewrite etd4_contour_64. low. reflexivity. Qed.
  Lemma etd5n_64 expm inv (L : cmat) (c : etd5_coefs cmat) : etd5n_coeffs Bops G cfg expm inv L h c = etd5n_coeffs Rops A lcfg expm inv L (B2R h) c.
  Proof. unfold etd5n_coeffs at 1. cbv beta zeta. rewrite etd5_contour_64. low. reflexivity. Qed.

  (** Stages. *)
  Lemma if_form_d_64 N (c : if_coefs cvec) (u NL1 : cvec) : if_form_d (A := G) N h c u NL1 = if_form_d (A := A) N (B2R h) c u NL1.
  Proof. unfold if_form_d at 1. cbv beta zeta. low. reflexivity. Qed.
  Lemma if_form_n_64 N n (c : if_coefs cmat) (u NL1 : cvec) : if_form_n (A := G) N h n c u NL1 = if_form_n (A := A) N (B2R h) n c u NL1.
  Proof. unfold if_form_n at 1. cbv beta zeta. low. reflexivity. Qed.
  Lemma etd5_form_64 X (act : X -> cvec -> cvec) N (c : etd5_coefs X) (u NL1 : cvec) : etd5_form (A := G) act N c u NL1 = etd5_form (A := A) act N c u NL1.
  Proof. unfold etd5_form at 1. cbv beta zeta. low. reflexivity. Qed.
End Transfer.

(** ** The strategies *)
Section Family.
  Variable a : arith.
  Hypothesis Ha : scalars64 a.
  Variable W : Type.
  Variable p : problem (Gops a) W.
  Hypothesis Hp : cfg64 (p_cfg p).
  Variable N : (nat -> C) -> (nat -> C).

  Lemma cs_uc_64 k h : h_ok h -> forall c,
    match k return (cs_K (Gops a) k -> Prop) with
    | IF4d => fun c => cs_uc p IF4d h c = cs_uc (lower p) IF4d (B2R h) c
    | IF4n => fun c => cs_uc p IF4n h c = cs_uc (lower p) IF4n (B2R h) c
    | ETD4d => fun c => cs_uc p ETD4d h c = cs_uc (lower p) ETD4d (B2R h) c
    | ETD4n => fun c => cs_uc p ETD4n h c = cs_uc (lower p) ETD4n (B2R h) c
    | ETD5d => fun c => cs_uc p ETD5d h c = cs_uc (lower p) ETD5d (B2R h) c
    | ETD5n => fun c => cs_uc p ETD5n h c = cs_uc (lower p) ETD5n (B2R h) c
    end c.
  Proof.
    intros Hh. destruct k; intros c; first
      [ exact (if4d_64 a h (p_vec p) c) | exact (if4n_64 h (p_expm p) (p_mat p) c) | exact (etd4d_64 Ha Hp h (p_vec p) c) | exact (etd5d_64 Ha Hp h (p_vec p) c)
      | exact (etd4n_64 Ha Hp Hh (p_expm p) (p_inv p) (p_mat p) c) | exact (etd5n_64 Ha Hp Hh (p_expm p) (p_inv p) (p_mat p) c) ].
  Qed.
  (** IF45DP is not among them: it rounds twice in [11 * h / 84] ([RoundingDP.v]). *)
  Lemma as_uc_64 k h : h_ok h -> forall c,
    match k return (as_K (Gops a) k -> Prop) with
    | IF34d => fun c => as_uc p IF34d h c = as_uc (lower p) IF34d (B2R h) c
    | IF34n => fun c => as_uc p IF34n h c = as_uc (lower p) IF34n (B2R h) c
    | IF34z => fun c => as_uc p IF34z h c = as_uc (lower p) IF34z (B2R h) c
    | ETD34d => fun c => as_uc p ETD34d h c = as_uc (lower p) ETD34d (B2R h) c
    | ETD34n => fun c => as_uc p ETD34n h c = as_uc (lower p) ETD34n (B2R h) c
    | ETD34z => fun c => as_uc p ETD34z h c = as_uc (lower p) ETD34z (B2R h) c
    | ETD35d => fun c => as_uc p ETD35d h c = as_uc (lower p) ETD35d (B2R h) c
    | ETD35n => fun c => as_uc p ETD35n h c = as_uc (lower p) ETD35n (B2R h) c
    | ETD35z => fun c => as_uc p ETD35z h c = as_uc (lower p) ETD35z (B2R h) c
    | IF45DPd => fun _ => True
    end c.
  Proof.
    intros Hh. destruct k; intros c; first
      [ exact I | exact (if4d_64 a h (p_vec p) c) | exact (if4d_64 a h (p_eigs p) c) | exact (if4n_64 h (p_expm p) (p_mat p) c)
      | exact (etd34_64 Ha Hp h (vscal (A := Gops a) h (p_vec p)) c) | exact (etd34_64 Ha Hp h (vscal (A := Gops a) h (p_eigs p)) c)
      | exact (etd35_64 Ha Hp h (vscal (A := Gops a) h (p_vec p)) c) | exact (etd35_64 Ha Hp h (vscal (A := Gops a) h (p_eigs p)) c)
      | exact (etd4n_64 Ha Hp Hh (p_expm p) (p_inv p) (p_mat p) c) | exact (etd5n_64 Ha Hp Hh (p_expm p) (p_inv p) (p_mat p) c) ].
  Qed.

  Lemma Beqb_cases (x y : b64) : Beqb x y = true -> x = y \/ (h_ok x /\ h_ok y /\ B2R x = B2R y).
  Proof.
    intros E. destruct (is_finite x) eqn:Fx; [destruct (is_finite y) eqn:Fy|].
    - assert (E2 := proj1 (eqb_R x y Fx Fy) E). destruct (Req_dec (B2R x) 0) as [Z|Z].
      + right. unfold h_ok. rewrite <- E2, Z, Rabs_R0. repeat split; (assumption || lra).
      + left. assert (S : forall z : b64, B2R z <> 0 -> is_finite z = true -> is_finite_strict z = true) by (intros [s|s| |s mm e H] H1 H2; cbn in *; (congruence || reflexivity)).
        apply B2R_inj; [apply S; assumption|apply S; [rewrite <- E2|]; assumption|exact E2].
    - exfalso. clear - E Fx Fy. destruct x as [[]|[]| |[] ? ? ?], y as [[]|[]| |[] ? ? ?]; cbn in *; discriminate.
    - left. clear - E Fx. destruct x as [[]|[]| |[] ? ? ?], y as [[]|[]| |[] ? ? ?]; cbn in *; (discriminate || reflexivity).
  Qed.
  Lemma cs_uc_eq k x y : teqb Bops x y = true -> cs_uc p k x = cs_uc p k y.
  Proof.
    intros E. destruct (Beqb_cases x y E) as [->|(Hx & Hy & Exy)]; [reflexivity|]. extensionality c.
    assert (X := cs_uc_64 k Hx c). assert (Y := cs_uc_64 k Hy c). rewrite <- Exy in Y. destruct k; exact (eq_trans X (eq_sym Y)).
  Qed.
  Lemma as_uc_eq k x y : k <> IF45DPd -> teqb Bops x y = true -> as_uc p k x = as_uc p k y.
  Proof.
    intros Hk E. destruct (Beqb_cases x y E) as [->|(Hx & Hy & Exy)]; [reflexivity|]. extensionality c.
    assert (X := as_uc_64 k Hx c). assert (Y := as_uc_64 k Hy c). rewrite <- Exy in Y. destruct k; try (elim Hk; reflexivity); exact (eq_trans X (eq_sym Y)).
  Qed.

  Notation dot := (fl_dot a (p_size p)).
  Notation back := (fun x : (nat -> C) * (nat -> C) => (dot (p_S p) (fst x), snd x)).
  Notation eN := (fun v => dot (p_Sinv p) (N (dot (p_S p) v))).
  Ltac form_tac h c v := first
    [ reflexivity | exact (f_equal fst (if_form_d_64 (a := a) h N c v (N v))) | exact (f_equal fst (if_form_n_64 (a := a) h N (p_size p) c v (N v)))
    | exact (if_form_d_64 (a := a) h N c v (N v)) | exact (if_form_n_64 (a := a) h N (p_size p) c v (N v))
    | exact (f_equal back (if_form_d_64 (a := a) h eN c (dot (p_Sinv p) v) (dot (p_Sinv p) (N v))))
    | exact (f_equal fst (etd5_form_64 (a := a) (@vmul Rops (Fops a)) N c v (N v))) | exact (f_equal fst (etd5_form_64 (a := a) dot N c v (N v)))
    | exact (etd5_form_64 (a := a) (@vmul Rops (Fops a)) N c v (N v)) | exact (etd5_form_64 (a := a) dot N c v (N v))
    | exact (f_equal back (etd5_form_64 (a := a) (@vmul Rops (Fops a)) eN c (dot (p_Sinv p) v) (dot (p_Sinv p) (N v)))) ].
  (** The same steps. *)
  Theorem cs_Phi_64 k h : h_ok h -> cs_good p k h -> cs_good (lower p) k (B2R h) /\ forall v, cs_Phi p N k h v = cs_Phi (lower p) N k (B2R h) v.
  Proof.
    intros Hh Hg. assert (X := cs_uc_64 k Hh (cs_k0 (Gops a) k)). unfold cs_good in *.
    destruct (cs_uc p k h (cs_k0 (Gops a) k)) as [r c] eqn:E. cbn [fst] in Hg. subst r.
    destruct k; (assert (Y := eq_trans (eq_sym X) E); split; [exact (f_equal fst Y)|]; intros v;
      match goal with |- @cs_Phi _ _ _ _ _ ?k _ _ = _ =>
        refine (eq_trans (@cs_Phi_form _ _ _ p N k h c v E) (eq_trans _ (eq_sym (@cs_Phi_form _ _ _ (lower p) N k (B2R h) c v Y)))) end; form_tac h c v).
  Qed.
  Theorem as_Phi_64 k h : k <> IF45DPd -> h_ok h -> as_good p k h -> as_good (lower p) k (B2R h) /\ forall v, as_Phi p N k h v = as_Phi (lower p) N k (B2R h) v.
  Proof.
    intros Hk Hh Hg. assert (X := as_uc_64 k Hh (as_k0 (Gops a) k)). unfold as_good in *.
    destruct (as_uc p k h (as_k0 (Gops a) k)) as [r c] eqn:E. cbn [fst] in Hg. subst r.
    destruct k; try (elim Hk; reflexivity); (assert (Y := eq_trans (eq_sym X) E); split; [exact (f_equal fst Y)|]; intros v;
      match goal with |- @as_Phi _ _ _ _ _ ?k _ _ = _ =>
        refine (eq_trans (@as_Phi_form _ _ _ p N k h c v E) (eq_trans _ (eq_sym (@as_Phi_form _ _ _ (lower p) N k (B2R h) c v Y)))) end; form_tac h c v).
  Qed.
End Family.
