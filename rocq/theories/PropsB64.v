(** * Time stepping in binary64: C18, C19 (NaN), C21, C23, C24 *)

From Coq Require Import ZArith List Bool Lia Reals Lra Sorted.
From Flocq Require Import Core BinarySingleNaN Sterbenz Relative.
From Verif Require Import Scalars Control ControlCS ControlCSReal ControlAS ControlASReal ControlSim PropsControl B64 B64Step.
Import ListNotations.
Local Open Scope R_scope.

(** ** Constant-step runs over any arithmetic: the number of steps is decided by the computed times *)
Section Steps.
  Variable F : tops.
  Variables U W : Type.
  Variable m : csm (T F) U W.
  Variable Phi : T F -> U -> U.
  Variable Inv : cs_st m -> U -> Prop.
  Hypothesis HM : cs_memoryless m Phi Inv.

  Lemma chain_iter h n us sts ws u : us 0%nat = u -> Inv (sts 0%nat) u -> cs_chain (F := F) m h n us sts ws ->
    forall k, (k <= n)%nat -> us k = Nat.iter k (Phi h) u /\ Inv (sts k) (us k).
  Proof.
    intros Hu Hi Hch. induction k as [|k IH]; intros Hk.
    - split; [exact Hu|rewrite Hu; exact Hi].
    - destruct IH as [I1 I2]; [lia|].
      destruct (proj2 HM (sts k) (us k) h (ws k) I2) as (s' & w' & E & I3).
      specialize (Hch k ltac:(lia)). rewrite E in Hch.
      injection Hch as J1 J2 J3. rewrite <- J1, <- J2.
      split; [cbn; rewrite I1; reflexivity|exact I3].
  Qed.

  Lemma cs_evolve_steps fuel u t0 tf h sd sf n (o : csobj F U W m) w :
    tleb F (tofZ F 0) (val h) = true -> tltb F (val tf) (val (padd F t0 h)) = false ->
    (forall j, (j < n)%nat -> tltb F (val (time_after F t0 h j)) (val tf) = true) ->
    tltb F (val (time_after F t0 h n)) (val tf) = false ->
    (teqb F (val tf) (tofZ F 0) = false \/ (n < 100)%nat) -> (sd = true -> sf <> 0%Z) -> (n <= fuel)%nat ->
    exists o' w', cs_evolve fuel u t0 tf h sd sf o w = (Ret (Nat.iter n (Phi (val h)) u), o', w') /\
                  c_tc o' = time_after F t0 h n.
  Proof.
    intros Hh Hfit Hlt Hge Hpr Hsf Hfuel. rewrite cs_evolve_unfold, Hfit.
    destruct (cs_loop fuel u h sd sf 0 (cs_start u t0 tf sd o) w) as [[r o'] w'] eqn:H.
    exists o', w'. apply cs_loop_trace in H.
    destruct H as (n' & us & sts & ws & Hu0 & Hs0 & Hw0 & Hch & Hn' & Hlt' & Hh' & Hpr' & Hsf' & Htf & Ht & Hu & He).
    assert (Es : c_tc (cs_start u t0 tf sd o) = t0 /\ c_tf (cs_start u t0 tf sd o) = tf /\
                 c_m (cs_start u t0 tf sd o) = cs_reset m (c_m o)) by (unfold cs_start; destruct sd; auto).
    destruct Es as (S1 & S2 & S3). rewrite S1, S2 in *. rewrite S3 in Hs0.
    assert (Hit := chain_iter _ _ _ _ _ u Hu0 (eq_ind_r (fun s => Inv s u) (proj1 HM (c_m o) u) Hs0) Hch).
    assert (Hle : (n' <= n)%nat).
    { destruct (Nat.le_gt_cases n' n) as [|Hgt]; [assumption|exfalso]. specialize (Hlt' n Hgt). congruence. }
    unfold cs_ending in He. destruct r as [u'|e|].
    - destruct He as (E1 & E2 & E3 & E4 & E5).
      assert (n' = n) by (destruct (Nat.lt_ge_cases n' n) as [Hl|]; [rewrite (Hlt n' Hl) in E2; discriminate|lia]).
      subst n'. split; [|exact E5]. rewrite E1, (proj1 (Hit n (Nat.le_refl n))). reflexivity.
    - exfalso. destruct He as (E1 & E2 & E3).
      assert (Hn'n : (n' < n)%nat).
      { destruct (Nat.lt_ge_cases n' n); [assumption|exfalso]. assert (n' = n) by lia. subst n'. congruence. }
      destruct E3 as [[_ E3]|[[_ (s & E3 & _)]|[_ (u1 & s1 & E3 & [Hp|[Hs Hz]])]]].
      + congruence.
      + destruct (Hit n' (Nat.le_refl n')) as [_ I2].
        destruct (proj2 HM (sts n') (us n') (val h) (ws n') I2) as (s' & w1 & Eu & _). congruence.
      + rewrite Z.add_0_l, progress_raises_spec in Hp by lia.
        apply andb_prop in Hp. destruct Hp as [Hp P3]. apply andb_prop in Hp. destruct Hp as [P1 P2].
        apply Z.eqb_eq in P1. destruct Hpr as [Hpr|Hpr]; [congruence|].
        rewrite Z.mod_small in P1 by lia. lia.
      + elim (Hsf Hs Hz).
    - exfalso. destruct He as (E1 & E2). assert (n' = n) by lia. subst n'. congruence.
  Qed.
End Steps.

(** A scheme that counts its steps (for witnesses; the state is the number of steps made). *)
Definition count_cs (F : tops) : csm (T F) nat unit :=
  {| cs_st := unit; cs_reset := fun s => s; cs_upd := fun u h s w => (inr (S u), s, w) |}.
Definition count_cs_obj (F : tops) : csobj F nat unit (count_cs F) :=
  {| c_t := []; c_u := []; c_tc := PyN false (tofZ F 0); c_tf := PyN false (tofZ F 0); c_m := (tt : cs_st (count_cs F)) |}.

Lemma lt_S_inv j n : (j < S n)%nat -> (j < n)%nat \/ j = n.
Proof. lia. Qed.

(** Boolean check that the computed times reach [tf] after exactly [n] steps. *)
Fixpoint takes (F : tops) (t tf h : pynum (T F)) (n : nat) : bool :=
  match n with
  | O => negb (tltb F (val t) (val tf))
  | S n => tltb F (val t) (val tf) && takes F (padd F t h) tf h n
  end.
Lemma takes_spec F (tf h : pynum (T F)) n : forall t, takes F t tf h n = true ->
  (forall j, (j < n)%nat -> tltb F (val (time_after F t h j)) (val tf) = true) /\
  tltb F (val (time_after F t h n)) (val tf) = false.
Proof.
  induction n as [|n IH]; intros t H; cbn [takes] in H.
  - split; [intros j Hj; lia|]. apply negb_true_iff. exact H.
  - apply andb_prop in H. destruct H as [H1 H2]. destruct (IH _ H2) as [I1 I2]. split.
    + intros [|j] Hj; [exact H1|]. rewrite <- time_after_succ_r. apply I1. lia.
    + rewrite <- time_after_succ_r. exact I2.
Qed.

(** ** C18: h = 0.1 from 0 to 1 takes eleven steps *)

(** For every constant-step solver: [evolve(u, 0, 1, 0.1)] returns the state after eleven steps,
    at time 1.0999999999999999, not the solution at time 1. *)
Theorem C18_overshoot_refuted :
  forall (U W : Type) (m : csm (T Bops) U W) (Phi : b64 -> U -> U) (Inv : cs_st m -> U -> Prop),
  cs_memoryless m Phi Inv ->
  forall u (o : csobj Bops U W m) w fuel, (11 <= fuel)%nat ->
  exists o' w',
    cs_evolve (F := Bops) fuel u (flt (b64_ofZ 0)) (flt (b64_ofZ 1)) (flt (dec 1 10)) true 1 o w
    = (Ret (Nat.iter 11 (Phi (dec 1 10)) u), o', w') /\
    Beqb (val (c_tc o')) (dyadic 4953959590107545 (-52)) = true /\
    Bltb (b64_ofZ 1) (val (c_tc o')) = true.
Proof.
  intros U W m Phi Inv HM u o w fuel Hf.
  destruct (takes_spec Bops (flt (b64_ofZ 1)) (flt (dec 1 10)) 11 (flt (b64_ofZ 0))) as [T1 T2]; [vm_compute; reflexivity|].
  destruct (cs_evolve_steps Bops U W m Phi Inv HM fuel u (flt (b64_ofZ 0)) (flt (b64_ofZ 1)) (flt (dec 1 10)) true 1 11 o w)
    as (o' & w' & E & Et).
  - vm_compute; reflexivity.
  - vm_compute; reflexivity.
  - exact T1.
  - exact T2.
  - left. vm_compute; reflexivity.
  - discriminate.
  - exact Hf.
  - exists o', w'. split; [exact E|]. rewrite Et. split; vm_compute; reflexivity.
Qed.
Example C18_count_not_vacuous : cs_memoryless (count_cs Bops) (fun _ n => S n) (fun _ _ => True).
Proof. split; [auto|]. intros s u h w _. exists s, w. auto. Qed.

(** When the arguments lie on a common binary grid, no rounding happens: evolve makes exactly
    [(tf - t0)/h] steps and ends at [tf]. Covers integers and all [k/2^p] in practice. *)
Lemma grid_time (e k0 kh : Z) (t0 h : pynum (T Bops)) n :
  (-1074 <= e <= 970)%Z -> is_finite (val t0) = true -> is_finite (val h) = true ->
  B2R (val t0) = IZR k0 * bpow radix2 e -> B2R (val h) = IZR kh * bpow radix2 e ->
  (0 <= kh)%Z -> (Z.abs k0 < 2^53)%Z -> (Z.abs (k0 + Z.of_nat n * kh) < 2^53)%Z ->
  forall j, (j <= n)%nat ->
    is_finite (val (time_after Bops t0 h j)) = true /\
    B2R (val (time_after Bops t0 h j)) = IZR (k0 + Z.of_nat j * kh) * bpow radix2 e.
Proof.
  intros He F0 Fh E0 Eh Hkh H0 Hn. induction j as [|j IH]; intros Hj.
  - cbn [time_after]. split; [exact F0|]. rewrite E0. f_equal. f_equal. lia.
  - destruct IH as [I1 I2]; [lia|].
    assert (Hb : (Z.abs (k0 + Z.of_nat (S j) * kh) < 2^53)%Z).
    { assert (0 <= Z.of_nat (S j) * kh <= Z.of_nat n * kh)%Z by (split; [apply Z.mul_nonneg_nonneg; lia|apply Z.mul_le_mono_nonneg_r; lia]). lia. }
    assert (Es : B2R (val (time_after Bops t0 h j)) + B2R (val h) = IZR (k0 + Z.of_nat (S j) * kh) * bpow radix2 e).
    { rewrite I2, Eh, <- Rmult_plus_distr_r, <- plus_IZR. f_equal. f_equal. lia. }
    destruct (plus_exact _ _ I1 Fh) as [P1 P2].
    + rewrite Es. apply fmt_grid; [exact Hb|lia].
    + rewrite Es. apply grid_bound; [exact Hb|lia].
    + split; [exact P2|]. rewrite <- Es. exact P1.
Qed.

Theorem C18_binary_grid_lands_on_tf :
  forall (U W : Type) (m : csm (T Bops) U W) (Phi : b64 -> U -> U) (Inv : cs_st m -> U -> Prop),
  cs_memoryless m Phi Inv ->
  forall u (t0 tf h : pynum (T Bops)) sd sf n (o : csobj Bops U W m) w fuel (e k0 kh : Z),
  is_finite (val t0) = true -> is_finite (val tf) = true -> is_finite (val h) = true ->
  B2R (val t0) = IZR k0 * bpow radix2 e -> B2R (val h) = IZR kh * bpow radix2 e ->
  B2R (val tf) = IZR (k0 + Z.of_nat n * kh) * bpow radix2 e ->
  (-1074 <= e <= 970)%Z -> (0 < kh)%Z -> (Z.abs k0 < 2^53)%Z -> (Z.abs (k0 + Z.of_nat n * kh) < 2^53)%Z ->
  (1 <= n)%nat -> (k0 + Z.of_nat n * kh <> 0 \/ (n < 100)%nat)%Z -> (sd = true -> sf <> 0%Z) -> (n <= fuel)%nat ->
  exists o' w',
    cs_evolve (F := Bops) fuel u t0 tf h sd sf o w = (Ret (Nat.iter n (Phi (val h)) u), o', w') /\
    Beqb (val (c_tc o')) (val tf) = true.
Proof.
  intros U W m Phi Inv HM u t0 tf h sd sf n o w fuel e k0 kh F0 Ff Fh E0 Eh Ef He Hkh H0 Hf Hn Hz Hsf Hfuel.
  assert (G := grid_time e k0 kh t0 h n He F0 Fh E0 Eh ltac:(lia) H0 Hf).
  assert (B := bpow_gt_0 radix2 e).
  destruct (cs_evolve_steps Bops U W m Phi Inv HM fuel u t0 tf h sd sf n o w) as (o' & w' & E & Et).
  - change (Bleb (b64_ofZ 0) (val h) = true). apply leb_R; [reflexivity|exact Fh|].
    rewrite Eh. change (B2R (b64_ofZ 0)) with 0. apply Rmult_le_pos; [apply IZR_le; lia|lra].
  - change (Bltb (val tf) (val (time_after Bops t0 h 1)) = false).
    destruct (G 1%nat ltac:(lia)) as [G1 G2]. apply ltb_R_false; [exact Ff|exact G1|].
    rewrite G2, Ef. apply Rmult_le_compat_r; [lra|]. apply IZR_le.
    assert (1 * kh <= Z.of_nat n * kh)%Z by (apply Z.mul_le_mono_nonneg_r; lia). lia.
  - intros j Hj. destruct (G j ltac:(lia)) as [G1 G2]. apply ltb_R; [exact G1|exact Ff|].
    rewrite G2, Ef. apply Rmult_lt_compat_r; [lra|]. apply IZR_lt.
    assert (Z.of_nat j * kh < Z.of_nat n * kh)%Z by (apply Z.mul_lt_mono_pos_r; lia). lia.
  - destruct (G n ltac:(lia)) as [G1 G2]. apply ltb_R_false; [exact G1|exact Ff|]. rewrite G2, Ef. lra.
  - destruct Hz as [Hz|Hz]; [left|right; exact Hz].
    change (Beqb (val tf) (b64_ofZ 0) = false). rewrite Beqb_correct by (assumption || reflexivity).
    apply Req_bool_false. rewrite Ef. change (B2R (b64_ofZ 0)) with 0.
    apply Rmult_integral_contrapositive. split; [|lra]. apply not_0_IZR. exact Hz.
  - exact Hsf.
  - exact Hfuel.
  - exists o', w'. split; [exact E|]. rewrite Et. destruct (G n ltac:(lia)) as [G1 G2].
    apply eqb_R; [exact G1|exact Ff|]. rewrite G2, Ef. reflexivity.
Qed.

(** E.g. from 0 to 10 in steps of 1/64: 640 steps, on the grid with e = -6. *)
Example C18_not_vacuous :
  let t0 := flt (b64_ofZ 0) in let tf := flt (b64_ofZ 10) in let h := flt (dyadic 1 (-6)) in
  is_finite (val t0) = true /\ is_finite (val tf) = true /\ is_finite (val h) = true /\
  B2R (val t0) = IZR 0 * bpow radix2 (-6) /\ B2R (val h) = IZR 1 * bpow radix2 (-6) /\
  B2R (val tf) = IZR (0 + Z.of_nat 640 * 1) * bpow radix2 (-6).
Proof.
  cbn zeta. split; [reflexivity|]. split; [reflexivity|]. split; [reflexivity|].
  split; [|split].
  - change (B2R (val (flt (b64_ofZ 0)))) with 0. lra.
  - change (val (flt (dyadic 1 (-6)))) with (dyadic 1 (-6)).
    replace (B2R (dyadic 1 (-6))) with (F2R (Float radix2 (2^52) (-58))) by (vm_compute; reflexivity).
    unfold F2R; cbn [Fnum Fexp]. change (2^52)%Z with (Zpower radix2 52). rewrite IZR_Zpower by lia.
    rewrite <- bpow_plus. rewrite Rmult_1_l. reflexivity.
  - change (val (flt (b64_ofZ 10))) with (b64_ofZ 10).
    replace (B2R (b64_ofZ 10)) with (F2R (Float radix2 (10 * 2^49) (-49))) by (vm_compute; reflexivity).
    unfold F2R; cbn [Fnum Fexp]. change (0 + Z.of_nat 640 * 1)%Z with (10 * Zpower radix2 6)%Z.
    change (10 * 2^49)%Z with (10 * Zpower radix2 49)%Z. rewrite !mult_IZR, !IZR_Zpower by lia.
    rewrite !Rmult_assoc, <- !bpow_plus. reflexivity.
Qed.

(** ** C19: NaN arguments *)
Theorem C19_nan_end_time :
  forall (U W : Type) (m : csm (T Bops) U W) fuel u (t0 h : pynum (T Bops)) np sd sf (o : csobj Bops U W m) w,
  exists o', cs_evolve (F := Bops) fuel u t0 (PyN (A := T Bops) np B754_nan) h sd sf o w = (Ret u, o', w).
Proof.
  intros. eexists. apply cs_evolve_nothing_to_do.
  - apply nan_ltb_l.
  - apply nan_ltb_r.
Qed.
Theorem C19_nan_step :
  forall (U W : Type) (m : csm (T Bops) U W) fuel u (t0 tf : pynum (T Bops)) np sd sf (o : csobj Bops U W m) w,
  Bltb (val t0) (val tf) = true -> (0 < fuel)%nat ->
  exists o', cs_evolve (F := Bops) fuel u t0 tf (PyN (A := T Bops) np B754_nan) sd sf o w = (Exc AssertionError, o', w).
Proof.
  intros. eexists. apply cs_evolve_negative.
  - change (Bltb (val tf) (b64_plus (val t0) B754_nan) = false). rewrite nan_plus_r. apply nan_ltb_r.
  - assumption.
  - apply nan_leb_r.
  - assumption.
Qed.
(** The range check compares rounded sums: [evolve(u, 1, 1, 1e-17)] has [h > tf - t0] but
    returns the input without an error, for every solver. *)
Theorem C19_rounded_range_check_refuted :
  forall (U W : Type) (m : csm (T Bops) U W) fuel u sd sf (o : csobj Bops U W m) w,
  let one := flt (b64_ofZ 1) in let h := flt (dec 1 100000000000000000) in
  Bltb (b64_minus (val one) (val one)) (val h) = true /\
  exists o', cs_evolve (F := Bops) fuel u one one h sd sf o w = (Ret u, o', w).
Proof.
  intros U W m fuel u sd sf o w one h. split; [vm_compute; reflexivity|].
  exists (cs_start u one one sd o). apply cs_evolve_nothing_to_do; vm_compute; reflexivity.
Qed.

(** ** C21: the returned state is the last snapshot iff store_freq divides the number of steps *)

(** Witness: from 0 to 1 in steps of 1/4 with store_freq = 3; every number is exact. *)
Theorem C21_final_state_not_stored_refuted :
  let '(r, o', w') := cs_evolve (F := Bops) (m := count_cs Bops) 10 0%nat (flt (b64_ofZ 0)) (flt (b64_ofZ 1)) (flt (dec 1 4)) true 3
                        (count_cs_obj Bops) tt in
  r = Ret 4%nat /\ c_u o' = [0%nat; 3%nat] /\ map (fun t => B2SF (val t)) (c_t o') = [B2SF (b64_ofZ 0); B2SF (dec 3 4)].
Proof. vm_compute. auto. Qed.

Lemma last_nth_error A (l : list A) d n x : length l = S n -> nth_error l n = Some x -> last l d = x.
Proof.
  revert n. induction l as [|a l IH]; intros n Hl Hn; [discriminate|].
  destruct n as [|n]; cbn in Hl, Hn.
  - destruct l; [|discriminate]. injection Hn as <-. reflexivity.
  - destruct l as [|b l]; [discriminate|]. change (last (a :: b :: l) d) with (last (b :: l) d).
    apply (IH n); [lia|exact Hn].
Qed.

(** Exactly which state is stored last, for any arithmetic and solver: the one after
    [f * (n / f)] steps; with [f] dividing [n] (in particular [f = 1]) it is the returned one. *)
Theorem C21_last_snapshot_constant_step :
  forall (F : tops) (U W : Type) (m : csm (T F) U W) fuel u t0 tf h (f : nat) (o : csobj F U W m) w u' o' w',
  (1 <= f)%nat ->
  cs_evolve fuel u t0 tf h true (Z.of_nat f) o w = (Ret u', o', w') ->
  exists n us sts ws,
    us 0%nat = u /\ us n = u' /\ sts 0%nat = cs_reset m (c_m o) /\ ws 0%nat = w /\
    (forall j, (j < n)%nat -> cs_upd m (us j) (val h) (sts j) (ws j) = (inr (us (S j)), sts (S j), ws (S j))) /\
    last (c_u o') u = us (n / f * f)%nat /\ last (c_t o') t0 = time_after F t0 h (n / f * f) /\
    (Nat.divide f n -> last (c_u o') u = u').
Proof.
  intros F U W m fuel u t0 tf h f o w u' o' w' Hf H.
  destruct (C20_constant_step_snapshots F U W m fuel u t0 tf h f o w u' o' w' Hf H) as (n & us & sts & ws & H1 & H2 & H3 & H4 & H5 & H6 & H7 & H8).
  exists n, us, sts, ws. destruct (H8 (n / f)%nat (Nat.le_refl _)) as [N1 N2].
  do 5 (split; [assumption|]).
  split; [eapply last_nth_error; [exact H7|exact N2]|].
  split; [eapply last_nth_error; [exact H6|exact N1]|].
  intros [q Hq]. erewrite last_nth_error; [|exact H7|exact N2].
  rewrite <- H2. f_equal. rewrite Hq, Nat.div_mul by lia. reflexivity.
Qed.
Theorem C21_last_snapshot_adaptive :
  forall (F : tops) (U W : Type) (m : asm (T F) U W) k cfg compute_s fuel u t0 tf hi (f : nat) (o : asobj F U W m) w u' o' w',
  (1 <= f)%nat ->
  as_evolve k cfg compute_s fuel u t0 tf hi true (Z.of_nat f) o w = (Ret u', o', w') ->
  exists n us os ws hin hacc hsug tau,
    us 0%nat = u /\ us n = u' /\ tau 0%nat = t0 /\
    as_chain (m := m) k cfg compute_s tf n us os ws hin hacc hsug tau /\
    last (a_u o') u = us (n / f * f)%nat /\ last (a_t o') t0 = tau (n / f * f)%nat /\
    (Nat.divide f n -> last (a_u o') u = u').
Proof.
  intros F U W m k cfg cs fuel u t0 tf hi f o w u' o' w' Hf H.
  apply as_evolve_snapshots in H; [|exact Hf].
  destruct H as (n & us & os & ws & hin & hacc & hsug & tau & H1 & H2 & H3 & H4 & H5 & H6 & H7 & H8 & H9 & H10 & H11 & H12).
  exists n, us, os, ws, hin, hacc, hsug, tau.
  assert (N : forall A (v : nat -> A) d, last (snapshots f n v) d = v (n / f * f)%nat).
  { intros A v d. unfold snapshots. apply last_nth_error with (n := (n / f)%nat).
    - rewrite map_length, seq_length. reflexivity.
    - rewrite nth_error_map, (nth_error_nth' _ 0%nat) by (rewrite seq_length; lia).
      rewrite seq_nth by lia. reflexivity. }
  split; [assumption|]. split; [symmetry; assumption|]. do 2 (split; [assumption|]).
  rewrite H11, H12, !N. split; [reflexivity|]. split; [reflexivity|].
  intros [q Hq]. rewrite H8. f_equal. rewrite Hq, Nat.div_mul by lia. reflexivity.
Qed.

(** ** C23: landing in binary64 *)

(** The clamped step from [tc] ends exactly on [tf] when the difference is representable; by
    Sterbenz' lemma this holds for [tf/2 <= tc <= tf] ([tf > 0]) and for [2 tf <= tc <= tf]
    ([tf < 0]); it also holds for [tc = 0]. *)
Theorem C23_clamped_step_is_exact :
  forall tc tf : b64, is_finite tc = true -> is_finite tf = true ->
  (0 < B2R tf /\ B2R tf / 2 <= B2R tc <= B2R tf) \/ (B2R tf < 0 /\ 2 * B2R tf <= B2R tc <= B2R tf) \/ B2R tc = 0 ->
  Beqb (b64_plus tc (b64_minus tf tc)) tf = true.
Proof.
  intros tc tf Fc Ff H.
  assert (D : fmt (B2R tf - B2R tc)).
  { destruct H as [[H1 H2]|[[H1 H2]|H]].
    - apply (sterbenz_pos (B2R tc)); [apply fmt_b|apply fmt_b|lra|lra|lra].
    - apply (sterbenz_neg (B2R tc)); [apply fmt_b|apply fmt_b|lra|lra|lra].
    - rewrite H, Rminus_0_r. apply fmt_b. }
  assert (Mf := B2R_lt_max tf). assert (Mc := B2R_lt_max tc).
  destruct (minus_exact tf tc Ff Fc D) as [E1 E2].
  { apply Rabs_def1; destruct H as [H|[H|H]]; lra. }
  destruct (plus_exact tc (b64_minus tf tc) Fc E2) as [P1 P2].
  - rewrite E1. replace (B2R tc + (B2R tf - B2R tc)) with (B2R tf) by lra. apply fmt_b.
  - rewrite E1. replace (B2R tc + (B2R tf - B2R tc)) with (B2R tf) by lra. apply Rabs_def1; lra.
  - apply eqb_R; [exact P2|exact Ff|]. rewrite P1, E1. lra.
Qed.
(** Without the restriction on [tc] it fails: tc = 2^-52 * 3/2, tf = 1 + 3 * 2^-52. *)
Theorem C23_small_start_refuted :
  let tc := dyadic 3 (-53) in let tf := b64_plus (b64_ofZ 1) (dyadic 3 (-52)) in
  Bltb (b64_ofZ 0) tc = true /\ Bltb tc tf = true /\ Bltb tf (b64_plus tc (b64_minus tf tc)) = true.
Proof. vm_compute. auto. Qed.

Definition h_init_ok (h_init : option (pynum (T Bops))) : Prop :=
  match h_init with Some h => is_finite (val h) = true /\ 0 <= B2R (val h) | None => True end.

Lemma h_init_size (t0 tf : pynum (T Bops)) hi : is_finite (val t0) = true -> is_finite (val tf) = true ->
  B2R (val tf) - B2R (val t0) <= bpow radix2 1023 -> B2R (val t0) <= B2R (val tf) -> h_init_ok hi -> size_ok (h0_64 t0 tf hi).
Proof.
  intros F0 Ff Hs Hle Hi. destruct hi as [h|]; [left; exact Hi|]. apply default_size_ok; assumption.
Qed.

(** Whole runs: every adaptive run in binary64 over an interval with [tf/2 <= t0 < tf] (or
    [2 tf <= t0 < tf < 0]) that returns has final time exactly [tf], and no accepted time
    exceeds [tf]; for every solver, nonlinearity, history of rejections. *)
Theorem C23_run_lands_on_tf :
  forall (U W : Type) (m : asm (T Bops) U W) cfg compute_s,
  valid64 cfg -> finite_factors compute_s ->
  forall fuel u (t0 tf : pynum (T Bops)) h_init store_data store_freq (o : asobj Bops U W m) w u' o' w',
  is_finite (val t0) = true -> is_finite (val tf) = true -> h_init_ok h_init ->
  B2R (val tf) - B2R (val t0) <= bpow radix2 1023 ->
  (0 < B2R (val tf) / 2 <= B2R (val t0) \/ (B2R (val tf) < 0 /\ 2 * B2R (val tf) <= B2R (val t0))) ->
  B2R (val t0) < B2R (val tf) ->
  as_evolve consts64 cfg compute_s fuel u t0 tf h_init store_data store_freq o w = (Ret u', o', w') ->
  Beqb (val (a_tc o')) (val tf) = true /\
  (forall t, In t (a_t o') -> is_finite (val t) = true /\ B2R (val t0) <= B2R (val t) <= B2R (val tf)).
Proof.
  intros U W m cfg cs Hc Hf fuel u t0 tf hi sd sf o w u' o' w' F0 Ff Hi Hsm Hst Hlt H.
  assert (HT : clamp_bound t0 tf (B2R (val tf))).
  { apply exact_clamp_bound. intros t Ft Ht. destruct Hst as [Hst|[Hn Hst]].
    - apply (sterbenz_pos t); [apply fmt_b|exact Ft|lra|lra|lra].
    - apply (sterbenz_neg t); [apply fmt_b|exact Ft|lra|lra|lra]. }
  assert (Hsz := h_init_size t0 tf hi F0 Ff Hsm ltac:(lra) Hi).
  rewrite as_evolve_unfold in H. apply as_loop_trace in H.
  destruct H as (n & us & os & ws & hin & hacc & hsug & tau & Hu0 & Ho0 & Hw0 & Hh0 & Ht0 &
                     Hch & Hn & Hlt' & Hpr' & Hsf' & Htf' & Ht' & Hu' & Hend).
  assert (Es : a_tc (as_start u t0 tf sd o) = t0 /\ a_tf (as_start u t0 tf sd o) = tf /\
               a_t (as_start u t0 tf sd o) = (if sd then [t0] else [])) by (unfold as_start; destruct sd; auto).
  destruct Es as (S1 & S2 & S3). rewrite S1, S2, ?S3 in *.
  assert (HI := chain64 t0 tf F0 Ff Hsm U W m cfg cs Hc Hf _ hi n us os ws hin hacc hsug tau HT Hlt Hsz Ht0 Hh0 Hch Hlt').
  destruct Hend as (E1 & E2 & E3 & E4 & E5 & E6).
  split.
  - rewrite E6. destruct (HI n (Nat.le_refl n)) as (I1 & I2 & _). apply eqb_R; [exact I1|exact Ff|].
    change (Bltb (val (tau n)) (val tf) = false) in E2. apply ltb_R_false in E2; [|exact I1|exact Ff]. lra.
  - intros t Hin. rewrite Ht' in Hin. apply in_app_or in Hin. destruct Hin as [Hin|Hin].
    + destruct sd; [|contradiction]. destruct Hin as [<-|[]]. split; [exact F0|lra].
    + apply in_map_iff in Hin. destruct Hin as (j & <- & Hj).
      assert (Hjn : (j <= n)%nat).
      { unfold due in Hj. destruct sd; [|destruct Hj]. apply filter_In in Hj. destruct Hj as [Hj _]. apply in_seq in Hj. lia. }
      destruct (HI j Hjn) as (I1 & I2 & _). auto.
Qed.

(** ** C24: never passing tf, and termination, in binary64 *)

(** Witness scheme: counts accepted steps; every candidate is accepted with factor exactly 1. *)
Definition count_as : asm (T Bops) nat unit :=
  {| as_st := unit; as_reset := fun s => s; as_upd := fun acc u h s w => (inr (S u, O), s, w) |}.
Definition count_as_obj : asobj Bops nat unit count_as :=
  mk_asobj (F := Bops) (m := count_as) [] [] (flt (b64_ofZ 0)) (flt (b64_ofZ 0)) false tt.
Definition factor_one (u err : nat) : exn + sval (T Bops) := inr (SFin (A := T Bops) (b64_ofZ 1)).
(** The default configuration (rkstiff/solveras.py:63-72). *)
Definition default64 : config (T Bops) :=
  mk_config (A := T Bops) (dec 1 10000) (dec 125 100) (dec 85 100) (dec 8 10) (dec 1 100) (dec 1 10000000000000000).

Lemma default64_valid : valid64 default64.
Proof.
  assert (P : forall x y : b64, Bltb x y = true -> is_finite x = true -> is_finite y = true -> B2R x < B2R y)
    by (intros x y H1 H2 H3; apply ltb_R; assumption).
  unfold valid64. repeat split; try (vm_compute; reflexivity).
  - rewrite <- B2R_1. apply P; vm_compute; reflexivity.
  - rewrite <- B2R_1. apply P; vm_compute; reflexivity.
  - change 0 with (B2R (b64_ofZ 0)). apply P; vm_compute; reflexivity.
Qed.

(** Passing tf: from -1 to tf = 3/4 * 2^-52 the clamped step ends at 2^-52 > tf. *)
Theorem C24_passes_tf_refuted :
  let tf := dyadic 3 (-54) in
  let '(r, o', w') := as_evolve (m := count_as) consts64 default64 factor_one 5 0%nat (flt (b64_ofZ (-1))) (flt tf)
                        (Some (flt (b64_ofZ 2))) true 1 count_as_obj tt in
  r = Ret 1%nat /\ Bltb tf (val (a_tc o')) = true /\ Beqb (val (a_tc o')) (dyadic 1 (-52)) = true.
Proof. vm_compute. auto. Qed.

(** Stagnation: from 1 to 2 with h_init = 1e-17 every step is accepted and the time never moves;
    the accepted step size is never compared with minh. *)
Lemma stagnates fuel : forall u count (o : asobj Bops nat unit count_as),
  a_tc o = flt (b64_ofZ 1) -> a_tf o = flt (b64_ofZ 2) ->
  exists o' w', as_loop consts64 default64 factor_one fuel u (flt (dec 1 100000000000000000)) false 1 count o tt = (Fuel, o', w').
Proof.
  induction fuel as [|fuel IH]; intros u count o Hc Hf; cbn [as_loop]; rewrite Hc, Hf.
  - replace (tltb Bops (val (flt (b64_ofZ 1))) (val (flt (b64_ofZ 2)))) with true by (vm_compute; reflexivity).
    eauto.
  - replace (tltb Bops (val (flt (b64_ofZ 1))) (val (flt (b64_ofZ 2)))) with true by (vm_compute; reflexivity).
    unfold as_step.
    replace (tleb Bops (tofZ Bops 0) (val (flt (dec 1 100000000000000000)))) with true by (vm_compute; reflexivity).
    cbn [as_step_loop count_as as_upd factor_one accepts set_accept set_meth a_tc a_tf a_t a_u a_accept a_m].
    replace (tltb Bops (b64_ofZ 1) (tofZ Bops 1)) with false by (vm_compute; reflexivity).
    cbn [set_accept set_meth a_tc a_tf a_t a_u a_accept a_m]. rewrite Hc, Hf.
    replace (accept_size consts64 default64 (b64_ofZ 1) (flt (dec 1 100000000000000000))) with (flt (dec 1 100000000000000000)).
    2:{ unfold accept_size.
        replace (tltb Bops (incr_f default64) (npmin Bops (b64_ofZ 1) (MAX_S consts64))) with false by (vm_compute; reflexivity).
        reflexivity. }
    assert (Ep : padd Bops (flt (b64_ofZ 1)) (flt (dec 1 100000000000000000)) = flt (b64_ofZ 1)).
    { unfold padd, flt. cbn [isnp val orb]. f_equal. apply B2SF_inj. vm_compute. reflexivity. }
    rewrite !Ep.
    replace (progress_raises Bops (count + 1) (flt (b64_ofZ 1)) (flt (b64_ofZ 2))) with false.
    2:{ unfold progress_raises. replace (teqb Bops (val (flt (b64_ofZ 2))) (tofZ Bops 0)) with false by (vm_compute; reflexivity).
        rewrite andb_false_r. reflexivity. }
    replace (tltb Bops (val (flt (b64_ofZ 2))) (val (flt (b64_ofZ 1)))) with false by (vm_compute; reflexivity).
    cbn [store_now]. apply IH; reflexivity.
Qed.
Theorem C24_never_terminates_refuted :
  forall fuel, exists o' w',
    as_evolve (m := count_as) consts64 default64 factor_one fuel 0%nat (flt (b64_ofZ 1)) (flt (b64_ofZ 2))
      (Some (flt (dec 1 100000000000000000))) false 1 count_as_obj tt = (Fuel, o', w').
Proof.
  intros fuel. rewrite as_evolve_unfold.
  replace (h_start (F := Bops) (flt (b64_ofZ 1)) (flt (b64_ofZ 2)) (Some (flt (dec 1 100000000000000000))))
    with (flt (dec 1 100000000000000000)).
  - apply stagnates; reflexivity.
  - unfold h_start, clamp.
    replace (tltb Bops (val (flt (b64_ofZ 2))) (val (padd Bops (flt (b64_ofZ 1)) (flt (dec 1 100000000000000000))))) with false
      by (vm_compute; reflexivity).
    reflexivity.
Qed.

(** What does hold for nonnegative times: no accepted time exceeds [tf] by more than one unit in
    the last place, and a returning run ends at [tf] or at its successor. *)
Theorem C24_at_most_one_ulp_beyond_tf :
  forall (U W : Type) (m : asm (T Bops) U W) cfg compute_s,
  valid64 cfg -> finite_factors compute_s ->
  forall fuel u (t0 tf : pynum (T Bops)) h_init store_data store_freq (o : asobj Bops U W m) w u' o' w',
  is_finite (val t0) = true -> is_finite (val tf) = true -> h_init_ok h_init ->
  0 <= B2R (val t0) < B2R (val tf) -> B2R (val tf) < bpow radix2 1023 ->
  as_evolve consts64 cfg compute_s fuel u t0 tf h_init store_data store_freq o w = (Ret u', o', w') ->
  is_finite (val (a_tc o')) = true /\
  (B2R (val (a_tc o')) = B2R (val tf) \/ B2R (val (a_tc o')) = succ radix2 fx (B2R (val tf))) /\
  (forall t, In t (a_t o') -> is_finite (val t) = true /\ B2R (val t0) <= B2R (val t) <= succ radix2 fx (B2R (val tf))).
Proof.
  intros U W m cfg cs Hc Hf fuel u t0 tf hi sd sf o w u' o' w' F0 Ff Hi Hlt Hsm H.
  assert (HT : clamp_bound t0 tf (succ radix2 fx (B2R (val tf)))) by (apply succ_clamp_bound; lra).
  assert (Hsm2 : B2R (val tf) - B2R (val t0) <= bpow radix2 1023) by lra.
  assert (Hsz := h_init_size t0 tf hi F0 Ff Hsm2 ltac:(lra) Hi).
  rewrite as_evolve_unfold in H. apply as_loop_trace in H.
  destruct H as (n & us & os & ws & hin & hacc & hsug & tau & Hu0 & Ho0 & Hw0 & Hh0 & Ht0 &
                     Hch & Hn & Hlt' & Hpr' & Hsf' & Htf' & Ht' & Hu' & Hend).
  assert (Es : a_tc (as_start u t0 tf sd o) = t0 /\ a_tf (as_start u t0 tf sd o) = tf /\
               a_t (as_start u t0 tf sd o) = (if sd then [t0] else [])) by (unfold as_start; destruct sd; auto).
  destruct Es as (S1 & S2 & S3). rewrite S1, S2, ?S3 in *.
  assert (HI := chain64 t0 tf F0 Ff Hsm2 U W m cfg cs Hc Hf _ hi n us os ws hin hacc hsug tau HT ltac:(lra) Hsz Ht0 Hh0 Hch Hlt').
  destruct Hend as (E1 & E2 & E3 & E4 & E5 & E6).
  destruct (HI n (Nat.le_refl n)) as (I1 & I2 & _).
  split; [rewrite E6; exact I1|]. split.
  - rewrite E6. change (Bltb (val (tau n)) (val tf) = false) in E2. apply ltb_R_false in E2; [|exact I1|exact Ff].
    destruct E2 as [E2|E2]; [right|left; lra].
    apply Rle_antisym; [lra|]. apply succ_le_lt; [exact fexp_ok|apply fmt_b|apply fmt_b|exact E2].
  - intros t Hin. rewrite Ht' in Hin. apply in_app_or in Hin. destruct Hin as [Hin|Hin].
    + destruct sd; [|contradiction]. destruct Hin as [<-|[]]. split; [exact F0|].
      assert (X := succ_ge_id radix2 fx (B2R (val tf))). lra.
    + apply in_map_iff in Hin. destruct Hin as (j & <- & Hj).
      assert (Hjn : (j <= n)%nat).
      { unfold due in Hj. destruct sd; [|destruct Hj]. apply filter_In in Hj. destruct Hj as [Hj _]. apply in_seq in Hj. lia. }
      destruct (HI j Hjn) as (J1 & J2 & _). auto.
Qed.

(** Termination when the smallest allowed step is not below the resolution of time at [tf]:
    [ulp tf <= minh] and [ulp tf <= h_init]. *)
Theorem C24_terminates_above_resolution :
  forall (U W : Type) (m : asm (T Bops) U W) cfg compute_s,
  valid64 cfg -> finite_factors compute_s ->
  forall u (t0 tf h : pynum (T Bops)) store_data store_freq (o : asobj Bops U W m) w,
  is_finite (val t0) = true -> is_finite (val tf) = true -> is_finite (val h) = true ->
  0 <= B2R (val t0) < B2R (val tf) -> B2R (val tf) < bpow radix2 1023 ->
  ulp radix2 fx (B2R (val tf)) <= B2R (minh cfg) -> ulp radix2 fx (B2R (val tf)) <= B2R (val h) ->
  exists N, forall fuel, (N <= fuel)%nat ->
  exists r o' w',
    as_evolve consts64 cfg compute_s fuel u t0 tf (Some h) store_data store_freq o w = (r, o', w') /\ r <> Fuel.
Proof.
  intros U W m cfg cs Hc Hf u t0 tf h sd sf o w F0 Ff Fh Hlt Hsm Hmin Hh.
  destruct (enough_fuel (B2R (val t0)) (B2R (val tf)) (bpow_gt_0 radix2 (-1074))) as [N HN].
  exists N. intros fuel Hfuel.
  destruct (as_evolve consts64 cfg cs fuel u t0 tf (Some h) sd sf o w) as [[r o'] w'] eqn:E.
  exists r, o', w'. split; [reflexivity|]. intros ->.
  rewrite as_evolve_unfold in E. apply as_loop_trace in E.
  destruct E as (n & us & os & ws & hin & hacc & hsug & tau & Hu0 & Ho0 & Hw0 & Hh0 & Ht0 &
                     Hch & Hn & Hlt' & Hpr' & Hsf' & Htf' & Ht' & Hu' & Hend).
  assert (Es : a_tc (as_start u t0 tf sd o) = t0 /\ a_tf (as_start u t0 tf sd o) = tf) by (unfold as_start; destruct sd; auto).
  destruct Es as (S1 & S2). rewrite S1, S2 in *.
  destruct Hend as [-> Hend].
  assert (Hu : 0 <= ulp radix2 fx (B2R (val tf))) by apply ulp_ge_0.
  assert (Hsz : size_ok (h0_64 t0 tf (Some h))) by (left; split; [exact Fh|cbn [h0_64]; lra]).
  assert (A := chain_advances t0 tf F0 Ff Hlt Hsm U W m cfg cs Hc Hf Hmin (Some h) fuel us os ws hin hacc hsug tau Hsz
                 (or_intror Hh) Ht0 Hh0 Hch Hlt' fuel (Nat.le_refl fuel)).
  assert (HT : clamp_bound t0 tf (succ radix2 fx (B2R (val tf)))) by (apply succ_clamp_bound; lra).
  assert (HI := chain64 t0 tf F0 Ff ltac:(lra) U W m cfg cs Hc Hf _ (Some h) fuel us os ws hin hacc hsug tau HT ltac:(lra) Hsz Ht0 Hh0 Hch Hlt').
  destruct (HI fuel (Nat.le_refl fuel)) as (I1 & _).
  change (Bltb (val (tau fuel)) (val tf) = true) in Hend. apply ltb_R in Hend; [|exact I1|exact Ff].
  destruct A as [A _].
  assert (INR N <= INR fuel) by (apply le_INR; exact Hfuel).
  assert (INR N * bpow radix2 (-1074) <= INR fuel * bpow radix2 (-1074)) by (apply Rmult_le_compat_r; [apply bpow_ge_0|assumption]).
  lra.
Qed.

(** The hypotheses are met by the default configuration and e.g. tf = 1/4, t0 = 1/5, h = 1/100. *)
Example C23_C24_not_vacuous :
  finite_factors factor_one /\ valid64 default64 /\
  let t0 := dec 1 5 in let tf := dec 1 4 in let h := dec 1 100 in
  (0 < B2R tf / 2 <= B2R t0) /\ B2R t0 < B2R tf /\
  ulp radix2 fx (B2R tf) <= B2R (minh default64) /\ ulp radix2 fx (B2R tf) <= B2R h.
Proof.
  split; [intros a b x E; injection E as <-; reflexivity|]. split; [exact default64_valid|].
  cbn zeta.
  assert (P : forall x y : b64, Bltb x y = true -> is_finite x = true -> is_finite y = true -> B2R x < B2R y)
    by (intros x y H1 H2 H3; apply ltb_R; assumption).
  assert (E4 : B2R (dec 1 4) = 1 / 4) by apply B2R_quarter.
  assert (L1 : B2R (dec 1 8) < B2R (dec 1 5)) by (apply P; vm_compute; reflexivity).
  assert (E8 : B2R (dec 1 8) = 1 / 8) by (vm_compute; lra).
  assert (L2 : B2R (dec 1 5) < B2R (dec 1 4)) by (apply P; vm_compute; reflexivity).
  assert (Eu : ulp radix2 fx (B2R (dec 1 4)) = bpow radix2 (-54)).
  { replace (B2R (dec 1 4)) with (bpow radix2 (-2)).
    - rewrite ulp_bpow. reflexivity.
    - rewrite E4. cbn. lra. }
  assert (E54 : B2R (dyadic 1 (-54)) = bpow radix2 (-54)).
  { replace (B2R (dyadic 1 (-54))) with (F2R (Float radix2 (2^52) (-106))) by (vm_compute; reflexivity).
    unfold F2R; cbn [Fnum Fexp]. change (2^52)%Z with (Zpower radix2 52). rewrite IZR_Zpower by lia.
    rewrite <- bpow_plus. reflexivity. }
  split; [lra|]. split; [exact L2|]. rewrite Eu, <- E54.
  split; left; apply P; vm_compute; reflexivity.
Qed.

Print Assumptions C18_overshoot_refuted.
Print Assumptions C18_binary_grid_lands_on_tf.
Print Assumptions C23_run_lands_on_tf.
Print Assumptions C24_at_most_one_ulp_beyond_tf.
Print Assumptions C24_terminates_above_resolution.
