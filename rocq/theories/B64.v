(** * IEEE binary64 as an instance of the arithmetic interface

    Python floats and [numpy.float64]: Flocq's [binary_float 53 1024] with rounding to nearest
    even. All NaNs are identified. *)

From Coq Require Import ZArith List Bool Reals Lra Lia.
From Flocq Require Import Core BinarySingleNaN Sterbenz Relative.
From Verif Require Import Scalars Control.
Import ListNotations.

Definition b64 := binary_float 53 1024.
Global Instance b64_prec : Prec_gt_0 53. Proof. exact (eq_refl _). Qed.
Global Instance b64_emax : Prec_lt_emax 53 1024. Proof. exact (eq_refl _). Qed.

Definition b64_plus : b64 -> b64 -> b64 := Bplus mode_NE.
Definition b64_minus : b64 -> b64 -> b64 := Bminus mode_NE.
Definition b64_mult : b64 -> b64 -> b64 := Bmult mode_NE.
Definition b64_div : b64 -> b64 -> b64 := Bdiv mode_NE.
(** The float nearest to an integer. *)
Definition b64_ofZ (z : Z) : b64 := binary_normalize 53 1024 _ _ mode_NE z 0 false.

Definition Bops : tops :=
  mk_tops b64 b64_plus b64_minus b64_mult b64_div b64_ofZ Bltb Bleb Beqb.

(** The float nearest to the decimal fraction [a/b] (for [|a|, |b| < 2^53], so that both are
    exact): [0.1] is [dec 1 10]. *)
Definition dec (a b : Z) : b64 := b64_div (b64_ofZ a) (b64_ofZ b).
(** [m * 2^e]. *)
Definition dyadic (m e : Z) : b64 := binary_normalize 53 1024 _ _ mode_NE m e false.
Definition flt (x : b64) : pynum (T Bops) := PyN (A := T Bops) false x.

(** ** Basic facts *)
Local Open Scope R_scope.
Notation fmt := (generic_format radix2 (SpecFloat.fexp 53 1024)).
Notation rnd := (round radix2 (SpecFloat.fexp 53 1024) (round_mode mode_NE)).

Global Instance fexp_ok : Valid_exp (SpecFloat.fexp 53 1024).
Proof. apply (fexp_correct 53 1024). exact b64_prec. Qed.
Global Instance fexp_mono : Monotone_exp (SpecFloat.fexp 53 1024).
Proof. apply (fexp_monotone 53 1024). Qed.

Lemma fexp_FLT : forall e, SpecFloat.fexp 53 1024 e = FLT_exp (-1074) 53 e.
Proof. reflexivity. Qed.

Lemma fmt_b (x : b64) : fmt (B2R x).
Proof. apply generic_format_B2R. Qed.

Lemma rnd_id x : fmt x -> rnd x = x.
Proof. intros H. apply round_generic; [apply valid_rnd_round_mode|exact H]. Qed.

Lemma rnd_le x y : x <= y -> rnd x <= rnd y.
Proof. apply round_le; [exact fexp_ok|apply valid_rnd_round_mode]. Qed.

(** Values of the form [n * 2^e] are representable. *)
Lemma fmt_grid (n e : Z) : (Z.abs n < 2^53)%Z -> (-1074 <= e)%Z -> fmt (IZR n * bpow radix2 e).
Proof.
  intros Hn He. change (SpecFloat.fexp 53 1024) with (FLT_exp (-1074) 53).
  apply generic_format_FLT. exists (Float radix2 n e); [reflexivity|exact Hn|exact He].
Qed.
Lemma grid_bound (n e : Z) : (Z.abs n < 2^53)%Z -> (e <= 970)%Z -> Rabs (IZR n * bpow radix2 e) < bpow radix2 1024.
Proof.
  intros Hn He. rewrite Rabs_mult, (Rabs_pos_eq (bpow radix2 e)) by apply bpow_ge_0.
  apply Rlt_le_trans with (bpow radix2 53 * bpow radix2 e).
  - apply Rmult_lt_compat_r; [apply bpow_gt_0|]. rewrite <- abs_IZR. change (bpow radix2 53) with (IZR (2^53)).
    apply IZR_lt. exact Hn.
  - rewrite <- bpow_plus. apply bpow_le. lia.
Qed.

Lemma plus_exact (x y : b64) : is_finite x = true -> is_finite y = true ->
  fmt (B2R x + B2R y) -> Rabs (B2R x + B2R y) < bpow radix2 1024 ->
  B2R (b64_plus x y) = B2R x + B2R y /\ is_finite (b64_plus x y) = true.
Proof.
  intros Hx Hy Hf Hb. assert (H := Bplus_correct 53 1024 _ _ mode_NE x y Hx Hy).
  rewrite (rnd_id _ Hf) in H. rewrite Rlt_bool_true in H by exact Hb. split; apply H.
Qed.
Lemma minus_exact (x y : b64) : is_finite x = true -> is_finite y = true ->
  fmt (B2R x - B2R y) -> Rabs (B2R x - B2R y) < bpow radix2 1024 ->
  B2R (b64_minus x y) = B2R x - B2R y /\ is_finite (b64_minus x y) = true.
Proof.
  intros Hx Hy Hf Hb. assert (H := Bminus_correct 53 1024 _ _ mode_NE x y Hx Hy).
  rewrite (rnd_id _ Hf) in H. rewrite Rlt_bool_true in H by exact Hb. split; apply H.
Qed.

Lemma ltb_R (x y : b64) : is_finite x = true -> is_finite y = true -> (Bltb x y = true <-> B2R x < B2R y).
Proof.
  intros Hx Hy. rewrite Bltb_correct by assumption. split; intros H.
  - destruct (Rlt_bool_spec (B2R x) (B2R y)); [assumption|discriminate].
  - apply Rlt_bool_true. exact H.
Qed.
Lemma ltb_R_false (x y : b64) : is_finite x = true -> is_finite y = true -> (Bltb x y = false <-> B2R y <= B2R x).
Proof.
  intros Hx Hy. rewrite Bltb_correct by assumption. split; intros H.
  - destruct (Rlt_bool_spec (B2R x) (B2R y)); [discriminate|assumption].
  - apply Rlt_bool_false. exact H.
Qed.
Lemma leb_R (x y : b64) : is_finite x = true -> is_finite y = true -> (Bleb x y = true <-> B2R x <= B2R y).
Proof.
  intros Hx Hy. rewrite Bleb_correct by assumption. split; intros H.
  - destruct (Rle_bool_spec (B2R x) (B2R y)); [assumption|discriminate].
  - apply Rle_bool_true. exact H.
Qed.
Lemma eqb_R (x y : b64) : is_finite x = true -> is_finite y = true -> (Beqb x y = true <-> B2R x = B2R y).
Proof.
  intros Hx Hy. rewrite Beqb_correct by assumption. split; intros H.
  - destruct (Req_bool_spec (B2R x) (B2R y)); [assumption|discriminate].
  - apply Req_bool_true. exact H.
Qed.

Lemma nan_ltb_l (y : b64) : Bltb B754_nan y = false. Proof. reflexivity. Qed.
Lemma nan_ltb_r (x : b64) : Bltb x B754_nan = false. Proof. destruct x as [[]|[]| |[] ? ? ?]; reflexivity. Qed.
Lemma nan_leb_r (x : b64) : Bleb x B754_nan = false. Proof. destruct x as [[]|[]| |[] ? ? ?]; reflexivity. Qed.
Lemma nan_plus_r (x : b64) : b64_plus x B754_nan = B754_nan. Proof. destruct x as [[]|[]| |[] ? ? ?]; reflexivity. Qed.
