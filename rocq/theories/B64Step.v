(** * Adaptive stepping in binary64: what one step and the clamp do *)

From Coq Require Import ZArith List Bool Lia Reals Lra.
From Flocq Require Import Core BinarySingleNaN Sterbenz Relative.
From Verif Require Import Scalars Control ControlCS ControlCSReal ControlAS B64.
Import ListNotations.
Local Open Scope R_scope.

Notation fx := (SpecFloat.fexp 53 1024).
Notation ulp64 := (ulp radix2 fx).
Notation succ64 := (succ radix2 fx).

Global Instance fexp_not_FTZ : Exp_not_FTZ fx.
Proof. apply monotone_exp_not_FTZ; [apply fexp_ok|apply fexp_mono]. Qed.

(** The class constants in binary64 (rkstiff/solveras.py:255-257). *)
Definition consts64 : consts (T Bops) := mk_consts (A := T Bops) 50 (b64_ofZ 4) (dec 1 4).

(** What the setters of [SolverConfig] guarantee for non-NaN finite values (solveras.py:95-169),
    restricted to the fields used by the step control. *)
Definition valid64 (c : config (T Bops)) : Prop :=
  is_finite (incr_f c) = true /\ 1 < B2R (incr_f c) /\
  is_finite (decr_f c) = true /\ B2R (decr_f c) < 1 /\
  is_finite (minh c) = true /\ 0 < B2R (minh c).

(** [SFin] carries finite numbers only. *)
Definition finite_factors {U : Type} (compute_s : U -> U -> exn + sval (T Bops)) : Prop :=
  forall a b x, compute_s a b = inr (SFin x) -> is_finite (x : b64) = true.

Lemma B2R_lt_max (x : b64) : - bpow radix2 1024 < B2R x < bpow radix2 1024.
Proof. assert (H := abs_B2R_lt_emax 53 1024 x). apply Rabs_def2 in H. lra. Qed.

Lemma sign_pos (x : b64) : 0 < B2R x -> Bsign x = false.
Proof.
  destruct x as [s|s| |s mm e H]; cbn; try lra. destruct s; [|reflexivity].
  intros H0. exfalso. revert H0. apply Rle_not_lt. apply F2R_le_0. cbn. lia.
Qed.
Lemma sign_neg (x : b64) : B2R x < 0 -> Bsign x = true.
Proof.
  destruct x as [s|s| |s mm e H]; cbn; try lra. destruct s; [reflexivity|].
  intros H0. exfalso. revert H0. apply Rle_not_lt. apply F2R_ge_0. cbn. lia.
Qed.

Lemma B2SF_inf (x : b64) s : B2SF x = SpecFloat.S754_infinity s -> x = B754_infinity s.
Proof. destruct x; cbn; intros H; try discriminate. injection H as ->. reflexivity. Qed.
Lemma ltb_pinf (x : b64) : is_finite x = true -> Bltb x (B754_infinity false) = true.
Proof. destruct x as [s|s| |s mm e H]; cbn; try discriminate; destruct s; reflexivity. Qed.
Lemma ninf_ltb (x : b64) : is_finite x = true -> Bltb (B754_infinity true) x = true.
Proof. destruct x as [s|s| |s mm e H]; cbn; try discriminate; destruct s; reflexivity. Qed.

(** Addition: rounded sum, or an infinity of the common sign. *)
Lemma plus_cases (x y : b64) : is_finite x = true -> is_finite y = true ->
  (Rabs (rnd (B2R x + B2R y)) < bpow radix2 1024 /\ is_finite (b64_plus x y) = true /\
   B2R (b64_plus x y) = rnd (B2R x + B2R y)) \/
  (bpow radix2 1024 <= Rabs (rnd (B2R x + B2R y)) /\ b64_plus x y = B754_infinity (Bsign x) /\ Bsign x = Bsign y).
Proof.
  intros Hx Hy. assert (H := Bplus_correct 53 1024 _ _ mode_NE x y Hx Hy).
  destruct (Rlt_bool_spec (Rabs (rnd (B2R x + B2R y))) (bpow radix2 1024)) as [L|L].
  - left. tauto.
  - right. destruct H as [H1 H2]. split; [exact L|]. split; [apply B2SF_inf; exact H1|exact H2].
Qed.
Lemma mult_cases (x y : b64) : is_finite x = true -> is_finite y = true ->
  (Rabs (rnd (B2R x * B2R y)) < bpow radix2 1024 /\ is_finite (b64_mult x y) = true /\
   B2R (b64_mult x y) = rnd (B2R x * B2R y)) \/
  (bpow radix2 1024 <= Rabs (rnd (B2R x * B2R y)) /\ b64_mult x y = B754_infinity (xorb (Bsign x) (Bsign y))).
Proof.
  intros Hx Hy. assert (H := Bmult_correct 53 1024 _ _ mode_NE x y).
  destruct (Rlt_bool_spec (Rabs (rnd (B2R x * B2R y))) (bpow radix2 1024)) as [L|L].
  - left. rewrite Hx, Hy in H. tauto.
  - right. split; [exact L|]. apply B2SF_inf. exact H.
Qed.
Lemma minus_rnd (x y : b64) : is_finite x = true -> is_finite y = true ->
  Rabs (rnd (B2R x - B2R y)) < bpow radix2 1024 ->
  B2R (b64_minus x y) = rnd (B2R x - B2R y) /\ is_finite (b64_minus x y) = true.
Proof.
  intros Hx Hy Hb. assert (H := Bminus_correct 53 1024 _ _ mode_NE x y Hx Hy).
  rewrite Rlt_bool_true in H by exact Hb. split; apply H.
Qed.

Lemma rnd_0 : rnd 0 = 0.
Proof. apply round_0. apply valid_rnd_round_mode. Qed.
Lemma rnd_ge0 x : 0 <= x -> 0 <= rnd x.
Proof. intros H. rewrite <- rnd_0. apply rnd_le. exact H. Qed.
Lemma fmt_rnd x : fmt (rnd x).
Proof. apply generic_format_round; [exact fexp_ok|apply valid_rnd_round_mode]. Qed.

(** *** Maxima and minima of finite numbers *)
Lemma not_nan (x : b64) : is_finite x = true -> tisnan Bops x = false.
Proof.
  intros H. unfold tisnan. apply negb_false_iff. change (Beqb x x = true).
  apply eqb_R; auto.
Qed.
Lemma npmax64 (x y : b64) : is_finite x = true -> is_finite y = true ->
  is_finite (npmax Bops x y) = true /\ B2R (npmax Bops x y) = Rmax (B2R x) (B2R y).
Proof.
  intros Hx Hy. unfold npmax. rewrite !not_nan by assumption.
  change (tltb Bops x y) with (Bltb x y). destruct (Bltb x y) eqn:E.
  - apply ltb_R in E; [|assumption|assumption]. split; [assumption|]. symmetry. apply Rmax_right. lra.
  - apply ltb_R_false in E; [|assumption|assumption]. split; [assumption|]. symmetry. apply Rmax_left. lra.
Qed.
Lemma npmin64 (x y : b64) : is_finite x = true -> is_finite y = true ->
  is_finite (npmin Bops x y) = true /\ B2R (npmin Bops x y) = Rmin (B2R x) (B2R y).
Proof.
  intros Hx Hy. unfold npmin. rewrite !not_nan by assumption.
  change (tltb Bops y x) with (Bltb y x). destruct (Bltb y x) eqn:E.
  - apply ltb_R in E; [|assumption|assumption]. split; [assumption|]. symmetry. apply Rmin_right. lra.
  - apply ltb_R_false in E; [|assumption|assumption]. split; [assumption|]. symmetry. apply Rmin_left. lra.
Qed.

(** *** Rejected steps shrink and stay above [minh], accepted steps do not shrink *)
Lemma shrink (c h mh : b64) : is_finite c = true -> is_finite h = true -> is_finite mh = true ->
  B2R c <= 1 -> 0 <= B2R h -> 0 < B2R mh -> Bltb (b64_mult c h) mh = false ->
  is_finite (b64_mult c h) = true /\ B2R mh <= B2R (b64_mult c h) <= B2R h.
Proof.
  intros Fc Fh Fm Hc Hh Hm HL.
  assert (Hle : rnd (B2R c * B2R h) <= B2R h).
  { rewrite <- (rnd_id (B2R h)) at 2 by apply fmt_b. apply rnd_le.
    apply Rle_trans with (1 * B2R h); [apply Rmult_le_compat_r; lra|lra]. }
  destruct (mult_cases c h Fc Fh) as [(A & B & C)|(A & B)].
  - split; [exact B|]. apply ltb_R_false in HL; [|assumption|assumption]. rewrite C in *. lra.
  - exfalso. assert (M := B2R_lt_max h).
    assert (Hn : rnd (B2R c * B2R h) < 0).
    { destruct (Rlt_le_dec (rnd (B2R c * B2R h)) 0) as [|Hp]; [assumption|exfalso].
      rewrite Rabs_pos_eq in A by assumption. lra. }
    assert (Hcn : B2R c < 0).
    { destruct (Rlt_le_dec (B2R c) 0) as [|Hp]; [assumption|exfalso].
      assert (0 <= rnd (B2R c * B2R h)) by (apply rnd_ge0; apply Rmult_le_pos; assumption). lra. }
    assert (Hhp : 0 < B2R h).
    { destruct Hh as [|Hh]; [assumption|exfalso]. rewrite <- Hh, Rmult_0_r, rnd_0 in Hn. lra. }
    rewrite (sign_neg c Hcn), (sign_pos h Hhp) in B. cbn in B. rewrite B, (ninf_ltb mh Fm) in HL. discriminate.
Qed.

Lemma grow (s h : b64) : is_finite s = true -> is_finite h = true -> 1 <= B2R s -> 0 <= B2R h ->
  (is_finite (b64_mult s h) = true /\ B2R h <= B2R (b64_mult s h)) \/ b64_mult s h = B754_infinity false.
Proof.
  intros Fs Fh Hs Hh.
  assert (Hge : B2R h <= rnd (B2R s * B2R h)).
  { rewrite <- (rnd_id (B2R h)) at 1 by apply fmt_b. apply rnd_le.
    apply Rle_trans with (1 * B2R h); [lra|apply Rmult_le_compat_r; lra]. }
  destruct (mult_cases s h Fs Fh) as [(A & B & C)|(A & B)].
  - left. rewrite C. auto.
  - right. assert (Hhp : 0 < B2R h).
    { destruct Hh as [|Hh]; [assumption|exfalso]. rewrite <- Hh, Rmult_0_r, rnd_0, Rabs_R0 in A.
      assert (X := bpow_gt_0 radix2 1024). lra. }
    rewrite (sign_pos s ltac:(lra)), (sign_pos h Hhp) in B. exact B.
Qed.

Section Step.
  Variables U W : Type.
  Variable m : asm (T Bops) U W.
  Variable cfg : config (T Bops).
  Variable compute_s : U -> U -> exn + sval (T Bops).
  Hypothesis Hcfg : valid64 cfg.
  Hypothesis Hs : finite_factors compute_s.
  Notation obj := (asobj Bops U W m).

  Lemma B2R_4 : B2R (b64_ofZ 4) = 4.
  Proof. vm_compute. lra. Qed.
  Lemma B2R_quarter : B2R (dec 1 4) = 1 / 4.
  Proof. vm_compute. lra. Qed.
  Lemma B2R_1 : B2R (b64_ofZ 1) = 1.
  Proof. vm_compute. lra. Qed.

  Lemma rejections64 acc0 u n (hs : nat -> pynum (T Bops)) sts ws :
    as_rejections (m := m) consts64 cfg compute_s acc0 u n hs sts ws ->
    is_finite (val (hs 0%nat)) = true -> 0 <= B2R (val (hs 0%nat)) ->
    (forall j, (0 < j <= n)%nat -> tltb Bops (val (hs j)) (minh cfg) = false) ->
    forall j, (j <= n)%nat ->
      is_finite (val (hs j)) = true /\ 0 <= B2R (val (hs j)) <= B2R (val (hs 0%nat)) /\
      (hs j = hs 0%nat \/ B2R (minh cfg) <= B2R (val (hs j))).
  Proof.
    intros Hr F0 H0 Hm. destruct Hcfg as (_ & _ & Fd & Hd & Fm & Hmh).
    induction j as [|j IH]; intros Hj; [split; [exact F0|]; split; [lra|left; reflexivity]|].
    destruct IH as (I0 & [I1 I2] & _); [lia|].
    destruct (Hr j ltac:(lia)) as (unew & err & sv & _ & Ecs & _ & E).
    assert (Hlt := Hm (S j) ltac:(lia)). rewrite E in Hlt |- *.
    assert (G : is_finite (val (reject_size consts64 cfg sv (hs j))) = true /\
                B2R (minh cfg) <= B2R (val (reject_size consts64 cfg sv (hs j))) <= B2R (val (hs j))).
    { destruct sv as [x| | |].
      - assert (Fx := Hs _ _ _ Ecs).
        destruct (npmax64 x (dec 1 4) Fx eq_refl) as [M1 M2].
        destruct (npmin64 _ (decr_f cfg) M1 Fd) as [N1 N2].
        refine (shrink _ (val (hs j)) (minh cfg) N1 I0 Fm _ I1 Hmh Hlt).
        rewrite N2. apply Rle_trans with (1 := Rmin_r _ _). lra.
      - exact (shrink (dec 1 4) (val (hs j)) (minh cfg) eq_refl I0 Fm ltac:(rewrite B2R_quarter; lra) I1 Hmh Hlt).
      - exact (shrink (dec 1 4) (val (hs j)) (minh cfg) eq_refl I0 Fm ltac:(rewrite B2R_quarter; lra) I1 Hmh Hlt).
      - exact (shrink (dec 1 4) (val (hs j)) (minh cfg) eq_refl I0 Fm ltac:(rewrite B2R_quarter; lra) I1 Hmh Hlt). }
    destruct G as [G1 G2]. split; [exact G1|]. split; [lra|]. right; lra.
  Qed.

  (** The contract of a returning step in binary64. *)
  Lemma as_step64 u (h : pynum (T Bops)) (o : obj) w u1 h1 h2 o' w' :
    is_finite (val h) = true ->
    as_step consts64 cfg compute_s u h o w = (Ret (u1, h1, h2), o', w') ->
    0 <= B2R (val h) /\
    is_finite (val h1) = true /\ 0 <= B2R (val h1) <= B2R (val h) /\
    (h1 = h \/ B2R (minh cfg) <= B2R (val h1)) /\
    ((is_finite (val h2) = true /\ B2R (val h1) <= B2R (val h2)) \/ val h2 = B754_infinity false).
  Proof.
    intros Fh H. apply as_step_trace in H.
    destruct H as [(_ & H & _)|(Hh & n & hs & sts & ws & H0 & H1 & H2 & Hn & Hr & Hm & Hst & He)];
      [discriminate|].
    change (Bleb (b64_ofZ 0) (val h) = true) in Hh. apply leb_R in Hh; [|reflexivity|exact Fh].
    change (B2R (b64_ofZ 0)) with 0 in Hh.
    destruct He as (E1 & E2 & err & x & E3 & E4 & E5 & E6).
    assert (G := rejections64 _ _ _ _ _ _ Hr ltac:(rewrite H0; exact Fh) ltac:(rewrite H0; exact Hh) Hm n (Nat.le_refl n)).
    rewrite <- E1, H0 in G. destruct G as (G1 & G2 & G3).
    split; [exact Hh|]. split; [exact G1|]. split; [exact G2|]. split; [exact G3|].
    rewrite E6. unfold accept_size.
    assert (Fx := Hs _ _ _ E4). destruct (npmin64 x (b64_ofZ 4) Fx eq_refl) as [N1 N2].
    destruct (tltb Bops (incr_f cfg) (npmin Bops x (MAX_S consts64))) eqn:Ei.
    - apply (grow (npmin Bops x (b64_ofZ 4)) (val h1) N1 G1); [|lra].
      rewrite N2, B2R_4. change (Bltb x (b64_ofZ 1) = false) in E5.
      apply ltb_R_false in E5; [|exact Fx|reflexivity]. rewrite B2R_1 in E5. apply Rmin_glb; lra.
    - left. split; [exact G1|lra].
  Qed.
End Step.

(** *** The clamp *)
Section Clamp.
  (** Interval of the run, with no overflow of differences. *)
  Variables t0 tf : pynum (T Bops).
  Hypothesis F0 : is_finite (val t0) = true.
  Hypothesis Ff : is_finite (val tf) = true.
  Hypothesis Hsmall : B2R (val tf) - B2R (val t0) <= bpow radix2 1023.

  (** [top]: a bound on where a clamped step can land. *)
  Definition clamp_bound (top : R) : Prop :=
    fmt top /\ B2R (val tf) <= top < bpow radix2 1024 /\
    forall t, fmt t -> B2R (val t0) <= t <= B2R (val tf) -> rnd (t + rnd (B2R (val tf) - t)) <= top.

  Lemma rnd_small x : 0 <= x <= bpow radix2 1023 -> 0 <= rnd x <= bpow radix2 1023.
  Proof.
    intros Hx. split; [apply rnd_ge0; lra|].
    rewrite <- (rnd_id (bpow radix2 1023)).
    - apply rnd_le. lra.
    - apply generic_format_bpow. cbn. unfold SpecFloat.emin. lia.
  Qed.

  Lemma remaining (tc : pynum (T Bops)) : is_finite (val tc) = true ->
    B2R (val t0) <= B2R (val tc) <= B2R (val tf) ->
    is_finite (val (psub Bops tf tc)) = true /\
    B2R (val (psub Bops tf tc)) = rnd (B2R (val tf) - B2R (val tc)) /\
    0 <= rnd (B2R (val tf) - B2R (val tc)) <= bpow radix2 1023.
  Proof.
    intros Fc Ht. assert (S := rnd_small (B2R (val tf) - B2R (val tc)) ltac:(lra)).
    destruct (minus_rnd (val tf) (val tc) Ff Fc) as [A B].
    - rewrite Rabs_pos_eq by lra. apply Rle_lt_trans with (bpow radix2 1023); [lra|]. apply bpow_lt. lia.
    - auto.
  Qed.

  Lemma clamp_cases (tc hs : pynum (T Bops)) : is_finite (val tc) = true ->
    B2R (val t0) <= B2R (val tc) <= B2R (val tf) ->
    (is_finite (val hs) = true /\ 0 <= B2R (val hs)) \/ val hs = B754_infinity false ->
    let h := clamp (F := Bops) tf tc hs in
    is_finite (val h) = true /\ 0 <= B2R (val h) /\
    ((h = hs /\ rnd (B2R (val tc) + B2R (val h)) <= B2R (val tf)) \/
     (h = psub Bops tf tc /\ B2R (val h) = rnd (B2R (val tf) - B2R (val tc)))).
  Proof.
    intros Fc Ht Hh h. unfold h, clamp. destruct (tltb Bops (val tf) (val (padd Bops tc hs))) eqn:E.
    - destruct (remaining tc Fc Ht) as (R1 & R2 & R3). split; [exact R1|].
      split; [rewrite R2; lra|]. right. auto.
    - change (Bltb (val tf) (b64_plus (val tc) (val hs)) = false) in E.
      destruct Hh as [[Fh Hh]|Hh].
      + split; [exact Fh|]. split; [exact Hh|]. left. split; [reflexivity|].
        destruct (plus_cases (val tc) (val hs) Fc Fh) as [(A & B & C)|(A & B & C)].
        * rewrite <- C. apply ltb_R_false in E; assumption.
        * exfalso. assert (M := B2R_lt_max (val tc)).
          assert (Hge : B2R (val tc) <= rnd (B2R (val tc) + B2R (val hs))).
          { rewrite <- (rnd_id (B2R (val tc))) at 1 by apply fmt_b. apply rnd_le. lra. }
          assert (Hp : 0 < B2R (val hs)).
          { destruct Hh as [|Hh]; [assumption|exfalso].
            rewrite <- Hh, Rplus_0_r, rnd_id in A by apply fmt_b.
            destruct (Rle_lt_dec 0 (B2R (val tc))); [rewrite Rabs_pos_eq in A by lra|rewrite Rabs_left in A by lra]; lra. }
          rewrite C, (sign_pos _ Hp) in B. rewrite B, ltb_pinf in E by exact Ff. discriminate.
      + exfalso. rewrite Hh in E.
        assert (X : b64_plus (val tc) (B754_infinity false) = B754_infinity false).
        { clear - Fc. destruct (val tc) as [s|s| |s mm e H]; cbn in *; try discriminate; reflexivity. }
        rewrite X, ltb_pinf in E by exact Ff. discriminate.
  Qed.

  (** ** Runs *)
  Variables U W : Type.
  Variable m : asm (T Bops) U W.
  Variable cfg : config (T Bops).
  Variable compute_s : U -> U -> exn + sval (T Bops).
  Hypothesis Hcfg : valid64 cfg.
  Hypothesis Hs : finite_factors compute_s.

  (** A step size that may be passed to [clamp]. *)
  Definition size_ok (h : pynum (T Bops)) : Prop :=
    (is_finite (val h) = true /\ 0 <= B2R (val h)) \/ val h = B754_infinity false.

  Definition h0_64 (hi : option (pynum (T Bops))) : pynum (T Bops) :=
    match hi with
    | Some h => h
    | None => PyN (isnp (psub Bops tf t0)) (tdiv Bops (val (psub Bops tf t0)) (tofZ Bops 100))
    end.

  (** The end of a proposed step: at most [tf], or the rounded end of the rounded remainder. *)
  Definition proposed (tc h hsrc : pynum (T Bops)) : Prop :=
    is_finite (val h) = true /\ 0 <= B2R (val h) /\
    ((h = hsrc /\ rnd (B2R (val tc) + B2R (val h)) <= B2R (val tf)) \/
     (h = psub Bops tf tc /\ B2R (val h) = rnd (B2R (val tf) - B2R (val tc)))).

  (** One accepted step from a time inside the interval. *)
  Lemma advance top (tc hin hsrc : pynum (T Bops)) u (o : asobj Bops U W m) w u1 h1 h2 o' w' :
    clamp_bound top ->
    is_finite (val tc) = true -> B2R (val t0) <= B2R (val tc) <= B2R (val tf) -> proposed tc hin hsrc ->
    as_step consts64 cfg compute_s u hin o w = (Ret (u1, h1, h2), o', w') ->
    is_finite (val (padd Bops tc h1)) = true /\
    B2R (val (padd Bops tc h1)) = rnd (B2R (val tc) + B2R (val h1)) /\
    B2R (val tc) <= B2R (val (padd Bops tc h1)) <= top /\
    is_finite (val h1) = true /\ 0 <= B2R (val h1) <= B2R (val hin) /\
    (h1 = hin \/ B2R (minh cfg) <= B2R (val h1)) /\
    size_ok h2 /\ (val h2 = B754_infinity false \/ B2R (val h1) <= B2R (val h2)).
  Proof.
    intros (T1 & T2 & T3) Fc Ht (P1 & P2 & P3) E.
    apply as_step64 in E; [|exact Hcfg|exact Hs|exact P1].
    destruct E as (S1 & S2 & S3 & S4 & S5).
    assert (Hup : rnd (B2R (val tc) + B2R (val h1)) <= top).
    { apply Rle_trans with (rnd (B2R (val tc) + B2R (val hin))); [apply rnd_le; lra|].
      destruct P3 as [[_ P3]|[_ P3]]; [lra|]. rewrite P3. apply T3; [apply fmt_b|exact Ht]. }
    assert (Hlow : B2R (val tc) <= rnd (B2R (val tc) + B2R (val h1))).
    { rewrite <- (rnd_id (B2R (val tc))) at 1 by apply fmt_b. apply rnd_le. lra. }
    assert (M := B2R_lt_max (val tc)).
    destruct (plus_cases (val tc) (val h1) Fc S2) as [(A & B & C)|(A & B & C)].
    - change (val (padd Bops tc h1)) with (b64_plus (val tc) (val h1)).
      split; [exact B|]. split; [exact C|]. rewrite C. split; [lra|]. split; [exact S2|]. split; [lra|].
      split; [exact S4|]. destruct S5 as [[S5 S6]|S5]; (split; [|]); auto; [left; split; [exact S5|lra]|right; exact S5].
    - exfalso. destruct (Rle_lt_dec 0 (rnd (B2R (val tc) + B2R (val h1)))).
      + rewrite Rabs_pos_eq in A by lra. lra.
      + rewrite Rabs_left in A by lra. lra.
  Qed.

  (** Invariant along a run. *)
  Lemma chain64 top hi n us os ws hin hacc hsug (tau : nat -> pynum (T Bops)) :
    clamp_bound top -> B2R (val t0) < B2R (val tf) -> size_ok (h0_64 hi) ->
    tau 0%nat = t0 -> hin 0%nat = h_start t0 tf hi ->
    as_chain (m := m) consts64 cfg compute_s tf n us os ws hin hacc hsug tau ->
    (forall j, (j < n)%nat -> tltb Bops (val (tau j)) (val tf) = true) ->
    forall j, (j <= n)%nat ->
      is_finite (val (tau j)) = true /\ B2R (val t0) <= B2R (val (tau j)) <= top /\
      (B2R (val (tau j)) < B2R (val tf) ->
         proposed (tau j) (hin j) (match j with O => h0_64 hi | S i => hsug i end)).
  Proof.
    intros HT Hlt Hh0 T0 H0 Hch Hl.
    induction j as [|j IH]; intros Hj.
    - rewrite T0. split; [exact F0|]. split; [destruct HT as (_ & HT & _); lra|].
      intros _. rewrite H0. unfold h_start. apply clamp_cases; [exact F0|lra|exact Hh0].
    - destruct IH as (I1 & I2 & I3); [lia|].
      destruct (Hch j ltac:(lia)) as ((o1 & Es & _) & Et & Eh).
      assert (L := Hl j ltac:(lia)). change (Bltb (val (tau j)) (val tf) = true) in L.
      apply ltb_R in L; [|exact I1|exact Ff].
      destruct (advance _ _ _ _ _ _ _ _ _ _ _ _ HT I1 ltac:(lra) (I3 L) Es) as (A1 & A2 & A3 & A4 & A5 & A6 & A7 & A8).
      rewrite <- Et in A1, A2, A3. split; [exact A1|]. split; [lra|].
      intros L2. rewrite Eh. apply clamp_cases; [exact A1|lra|exact A7].
  Qed.
End Clamp.

(** ** Where clamped steps can land *)

(** Exact differences: the clamped step lands on [tf]. *)
Lemma exact_clamp_bound (t0 tf : pynum (T Bops)) :
  (forall t, fmt t -> B2R (val t0) <= t <= B2R (val tf) -> fmt (B2R (val tf) - t)) ->
  clamp_bound t0 tf (B2R (val tf)).
Proof.
  intros H. split; [apply fmt_b|]. split; [split; [lra|apply B2R_lt_max]|].
  intros t Ft Ht. rewrite (rnd_id (B2R (val tf) - t)) by (apply H; assumption).
  replace (t + (B2R (val tf) - t)) with (B2R (val tf)) by lra. rewrite rnd_id by apply fmt_b. lra.
Qed.

(** Sterbenz: differences are exact when [t0 >= tf/2 > 0], and when [2 tf <= t0] for [tf < 0]. *)
Lemma sterbenz_pos (a b t : R) : fmt b -> fmt t -> 0 < b -> b / 2 <= a -> a <= t <= b -> fmt (b - t).
Proof.
  intros Fb Ft Hb Ha Ht. apply sterbenz; [exact fexp_ok|exact fexp_mono|exact Fb|exact Ft|]. lra.
Qed.
Lemma sterbenz_neg (a b t : R) : fmt b -> fmt t -> b < 0 -> 2 * b <= a -> a <= t <= b -> fmt (b - t).
Proof.
  intros Fb Ft Hb Ha Ht. replace (b - t) with ((- t) - (- b)) by lra.
  apply sterbenz; [exact fexp_ok|exact fexp_mono|apply generic_format_opp; exact Ft|apply generic_format_opp; exact Fb|]. lra.
Qed.

Lemma bpow_1024 : bpow radix2 1024 = 2 * bpow radix2 1023.
Proof. change 1024%Z with (1 + 1023)%Z. rewrite bpow_plus. reflexivity. Qed.

(** In general, for nonnegative times: at most one unit in the last place beyond [tf]. *)
Lemma succ_clamp_bound (t0 tf : pynum (T Bops)) :
  0 <= B2R (val t0) -> 0 < B2R (val tf) < bpow radix2 1023 -> clamp_bound t0 tf (succ64 (B2R (val tf))).
Proof.
  intros H0 Hf. unfold clamp_bound. set (b := B2R (val tf)) in *.
  assert (Fb : fmt b) by apply fmt_b.
  assert (Es : succ64 b = b + ulp64 b) by (apply succ_eq_pos; lra).
  split; [apply generic_format_succ; [exact fexp_ok|exact Fb]|]. split.
  - split; [apply succ_ge_id|]. rewrite Es.
    assert (X := id_p_ulp_le_bpow radix2 fx b 1023 ltac:(lra) Fb ltac:(lra)).
    rewrite bpow_1024. assert (Y := bpow_gt_0 radix2 1023). lra.
  - intros t Ft Ht.
    assert (Eu : Rabs (rnd (b - t) - (b - t)) <= / 2 * ulp64 (b - t)).
    { apply (error_le_half_ulp radix2 fx). }
    assert (Hu : ulp64 (b - t) <= ulp64 b) by (apply ulp_le_pos; [exact fexp_ok|exact fexp_mono|lra|lra]).
    assert (Hp := ulp_ge_0 radix2 fx b).
    apply Rabs_le_inv in Eu.
    rewrite <- (rnd_id (succ64 b)) by (apply generic_format_succ; [exact fexp_ok|exact Fb]).
    apply rnd_le. rewrite Es. lra.
Qed.

Lemma B2R_100 : B2R (b64_ofZ 100) = 100.
Proof. vm_compute. lra. Qed.

Lemma default_size_ok (t0 tf : pynum (T Bops)) : is_finite (val t0) = true -> is_finite (val tf) = true ->
  B2R (val tf) - B2R (val t0) <= bpow radix2 1023 -> B2R (val t0) <= B2R (val tf) ->
  size_ok (h0_64 t0 tf None).
Proof.
  intros F0 Ff Hsm Hle. left. cbn [h0_64 val].
  destruct (remaining t0 tf Ff Hsm t0 F0 ltac:(lra)) as (R1 & R2 & R3).
  set (x := val (psub Bops tf t0)) in *. change (tdiv Bops x (tofZ Bops 100)) with (b64_div x (b64_ofZ 100)).
  assert (H := Bdiv_correct 53 1024 _ _ mode_NE x (b64_ofZ 100) ltac:(rewrite B2R_100; lra)).
  rewrite B2R_100 in H.
  assert (Hx : 0 <= B2R x / 100 <= bpow radix2 1023) by (rewrite R2; lra).
  apply rnd_small in Hx.
  rewrite Rlt_bool_true in H.
  - destruct H as (H1 & H2 & _). unfold b64_div. rewrite H1, H2. split; [exact R1|lra].
  - rewrite Rabs_pos_eq by lra. rewrite bpow_1024. assert (Y := bpow_gt_0 radix2 1023). lra.
Qed.

(** ** Progress *)
Lemma ulp_min x : bpow radix2 (-1074) <= ulp64 x.
Proof. rewrite <- (ulp_FLT_0 radix2 (-1074) 53). apply ulp_ge_ulp_0; [exact fexp_ok|exact fexp_not_FTZ]. Qed.
Lemma fmt_min t : fmt t -> 0 < t -> bpow radix2 (-1074) <= t.
Proof.
  intros Ft Ht. apply Rle_trans with (ulp64 t); [apply ulp_min|apply ulp_le_id; assumption].
Qed.

Lemma advance_ulp t b h : fmt t -> 0 <= t < b -> ulp64 b <= h -> t < rnd (t + h).
Proof.
  intros Ft Ht Hh.
  assert (Hu : ulp64 t <= ulp64 b) by (apply ulp_le_pos; [exact fexp_ok|exact fexp_mono|lra|lra]).
  apply Rlt_le_trans with (succ64 t).
  - rewrite succ_eq_pos by lra.
    assert (X := ulp_min t). assert (Z := bpow_gt_0 radix2 (-1074)). lra.
  - rewrite <- (rnd_id (succ64 t)) by (apply generic_format_succ; [exact fexp_ok|exact Ft]).
    apply rnd_le. rewrite succ_eq_pos by lra. lra.
Qed.

(** The rounded remaining time either lands exactly, or is at least one unit in the last place
    of [tf]. *)
Lemma remainder_cases t b : fmt t -> fmt b -> 0 <= t < b ->
  rnd (t + rnd (b - t)) = b \/ ulp64 b <= rnd (b - t).
Proof.
  intros Ft Fb Ht. destruct (Rle_lt_dec (b / 2) t) as [Hc|Hc].
  - left. rewrite (rnd_id (b - t)) by (apply (sterbenz_pos t b t); [assumption|assumption|lra|lra|lra]).
    replace (t + (b - t)) with b by lra. apply rnd_id. exact Fb.
  - destruct (Req_dec t 0) as [->|Hn].
    + left. rewrite Rminus_0_r, (rnd_id b Fb), Rplus_0_l. apply rnd_id. exact Fb.
    + right. rewrite <- (rnd_id (ulp64 b)) by (apply generic_format_ulp; [exact fexp_ok|exact fexp_not_FTZ]).
      apply rnd_le. assert (M := fmt_min t Ft ltac:(lra)).
      destruct (Rlt_le_dec b (bpow radix2 (-1074 + 53))) as [Hs|Hs].
      * assert (E := ulp_FLT_small radix2 (-1074) 53 b). rewrite Rabs_pos_eq in E by lra.
        change (FLT_exp (-1074) 53) with fx in E. rewrite (E Hs). lra.
      * assert (E := ulp_FLT_le radix2 (-1074) 53 b). rewrite Rabs_pos_eq in E by lra.
        change (FLT_exp (-1074) 53) with fx in E.
        apply Rle_trans with (b * bpow radix2 (1 - 53)).
        -- apply E. apply Rle_trans with (2 := Hs). apply bpow_le. lia.
        -- apply Rle_trans with (b * / 2); [|lra]. apply Rmult_le_compat_l; [lra|].
           change (/ 2) with (bpow radix2 (-1)). apply bpow_le. lia.
Qed.

Section Progress.
  Variables t0 tf : pynum (T Bops).
  Hypothesis F0 : is_finite (val t0) = true.
  Hypothesis Ff : is_finite (val tf) = true.
  Hypothesis Ht0 : 0 <= B2R (val t0) < B2R (val tf).
  Hypothesis Hsmall : B2R (val tf) < bpow radix2 1023.
  Variables U W : Type.
  Variable m : asm (T Bops) U W.
  Variable cfg : config (T Bops).
  Variable compute_s : U -> U -> exn + sval (T Bops).
  Hypothesis Hcfg : valid64 cfg.
  Hypothesis Hs : finite_factors compute_s.
  Hypothesis Hmin : ulp64 (B2R (val tf)) <= B2R (minh cfg).

  Lemma chain_advances hi n us os ws hin hacc hsug (tau : nat -> pynum (T Bops)) :
    size_ok (h0_64 t0 tf hi) -> val (h0_64 t0 tf hi) = B754_infinity false \/ ulp64 (B2R (val tf)) <= B2R (val (h0_64 t0 tf hi)) ->
    tau 0%nat = t0 -> hin 0%nat = h_start t0 tf hi ->
    as_chain (m := m) consts64 cfg compute_s tf n us os ws hin hacc hsug tau ->
    (forall j, (j < n)%nat -> tltb Bops (val (tau j)) (val tf) = true) ->
    forall j, (j <= n)%nat -> B2R (val t0) + INR j * bpow radix2 (-1074) <= B2R (val (tau j)) /\
      (B2R (val (tau j)) < B2R (val tf) -> ulp64 (B2R (val tf)) <= B2R (val (hin j)) \/
         B2R (val (hin j)) = rnd (B2R (val tf) - B2R (val (tau j)))).
  Proof.
    intros Hh0 Hu0 T0 H0 Hch Hl.
    assert (Hsm : B2R (val tf) - B2R (val t0) <= bpow radix2 1023) by lra.
    assert (HT : clamp_bound t0 tf (succ64 (B2R (val tf)))) by (apply succ_clamp_bound; lra).
    assert (HI := chain64 t0 tf F0 Ff Hsm U W m cfg compute_s Hcfg Hs _ hi n us os ws hin hacc hsug tau HT (proj2 Ht0) Hh0 T0 H0 Hch Hl).
    induction j as [|j IH]; intros Hj.
    - destruct (HI 0%nat ltac:(lia)) as (I1 & I2 & I3). split; [rewrite T0; cbn; lra|].
      intros L. destruct (I3 L) as (P1 & P2 & [[P3 P4]|[P3 P4]]); [|right; exact P4].
      left. rewrite P3. destruct Hu0 as [Hu0|Hu0]; [|exact Hu0].
      rewrite P3, Hu0 in P1. discriminate.
    - destruct IH as [IH1 IH2]; [lia|]. destruct (HI j ltac:(lia)) as (I1 & I2 & I3).
      destruct (HI (S j) ltac:(lia)) as (J1 & J2 & J3).
      assert (L := Hl j ltac:(lia)). change (Bltb (val (tau j)) (val tf) = true) in L.
      apply ltb_R in L; [|exact I1|exact Ff].
      destruct (Hch j ltac:(lia)) as ((o1 & Es & _) & Et & Eh).
      destruct (advance t0 tf U W m cfg compute_s Hcfg Hs _ _ _ _ _ _ _ _ _ _ _ _ HT I1 ltac:(lra) (I3 L) Es)
        as (A1 & A2 & A3 & A4 & A5 & A6 & A7 & A8).
      rewrite <- Et in A1, A2, A3.
      (* the step either is at least an ulp of tf, or lands *)
      assert (C : ulp64 (B2R (val tf)) <= B2R (val (hacc j)) \/ B2R (val (tau (S j))) = B2R (val tf)).
      { destruct A6 as [A6|A6]; [|left; lra]. rewrite A6. destruct (IH2 L) as [Q|Q]; [left; exact Q|].
        destruct (remainder_cases (B2R (val (tau j))) (B2R (val tf)) (fmt_b _) (fmt_b _) ltac:(lra)) as [R|R].
        - right. rewrite A2, A6, Q. exact R.
        - left. rewrite Q. exact R. }
      assert (G : B2R (val (tau j)) < B2R (val (tau (S j)))).
      { destruct C as [C|C]; [|lra]. rewrite A2. apply advance_ulp with (B2R (val tf)); [apply fmt_b|lra|exact C]. }
      split.
      + rewrite S_INR.
        assert (Hsucc : succ64 (B2R (val (tau j))) <= B2R (val (tau (S j))))
          by (apply succ_le_lt; [exact fexp_ok|apply fmt_b|apply fmt_b|exact G]).
        rewrite succ_eq_pos in Hsucc by lra.
        assert (X := ulp_min (B2R (val (tau j)))). lra.
      + intros L2. destruct C as [C|C]; [|lra].
        destruct (J3 L2) as (P1 & P2 & [[P3 P4]|[P3 P4]]); [|right; exact P4].
        left. rewrite P3 in *. destruct A8 as [A8|A8]; [rewrite A8 in P1; discriminate|lra].
  Qed.
End Progress.
