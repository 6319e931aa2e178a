(** * Theorems for the step-control layer: C01-C04, C17, C19, C20, C22 (exact arithmetic or any
    arithmetic).  Every theorem holds for an arbitrary scheme [m] (any internal state, any
    nonlinear function, any world) and an arbitrary error-to-factor function [compute_s]. *)

From Coq Require Import ZArith List Bool Lia Reals Lra Sorted.
From Verif Require Import Scalars Control ControlCS ControlCSReal ControlAS ControlASReal ControlSim.
Import ListNotations.

Local Open Scope R_scope.

(** Concrete schemes for the non-vacuity examples: explicit Euler for u' = -u, with "error
    vector" h*h; [toy_s] accepts iff err <= 1/100, [toy_s2] always asks to double the step. *)
Definition num (x : R) : pynum (T Rops) := PyN (A := T Rops) false x.
Definition toy_cs : csm (T Rops) R unit :=
  {| cs_st := unit; cs_reset := fun s => s; cs_upd := fun u h s w => (inr (u - h * u), s, w) |}.
Definition toy_as : asm (T Rops) R unit :=
  {| as_st := unit; as_reset := fun s => s;
     as_upd := fun acc u h s w => (inr (u - h * u, h * h), s, w) |}.
Definition toy_s (u err : R) : exn + sval (T Rops) :=
  inr (SFin (A := T Rops) (if Rle_dec err (1/100) then 1 else 1/2)).
Definition toy_s2 (u err : R) : exn + sval (T Rops) := inr (SFin (A := T Rops) 2).
Definition toy_cfg : config (T Rops) :=
  mk_config (A := T Rops) (1/10000) (5/4) (85/100) (8/10) (1/100) (1/10^16).
Definition toy_obj_as : asobj Rops R unit toy_as :=
  mk_asobj (F := Rops) (m := toy_as) [] [] (num 0) (num 0) false tt.
Definition toy_obj_cs : csobj Rops R unit toy_cs :=
  mk_csobj (F := Rops) (m := toy_cs) [] [] (num 0) (num 0) tt.

Lemma toy_cfg_valid : valid_config toy_cfg.
Proof. unfold valid_config, toy_cfg; cbn. repeat split; lra. Qed.
Lemma the_consts_ok : 0 < MIN_S the_consts < 1 /\ 1 <= MAX_S the_consts.
Proof. cbn. lra. Qed.

(** ** C01: an adaptive run that returns ends exactly at [tf] *)
Theorem C01_adaptive_run_lands_on_tf :
  forall (U W : Type) (m : asm (T Rops) U W) (cfg : config (T Rops)) compute_s,
  valid_config cfg ->
  forall fuel u (t0 tf : pynum (T Rops)) h_init store_freq (o : asobj Rops U W m) w u' o' w',
  val t0 < val tf -> match h_init with Some h => 0 < val h | None => True end ->
  as_evolve the_consts cfg compute_s fuel u t0 tf h_init true store_freq o w = (Ret u', o', w') ->
  (* the final time is exactly tf *)
  val (a_tc o') = val tf /\
  (* it is t0 plus the sum of the accepted step sizes, each returned by a call of step *)
  (exists n us os ws hin hacc hsug tau,
     us 0%nat = u /\ us n = u' /\ (1 <= n)%nat /\
     as_chain (m := m) the_consts cfg compute_s tf n us os ws hin hacc hsug tau /\
     val t0 + sum_steps hacc n = val tf /\ (forall j, (j < n)%nat -> 0 < val (hacc j))) /\
  (* recorded times start at t0, increase strictly and never exceed tf *)
  StronglySorted Rlt (map val (a_t o')) /\
  (forall t, In t (a_t o') -> val t0 <= val t <= val tf) /\
  (exists l, a_t o' = t0 :: l).
Proof.
  intros U W m cfg cs Hc fuel u t0 tf hi sf o w u' o' w' Ht Hh H.
  assert (H0 : 0 < h0_of (val t0) (val tf) hi)
    by (destruct hi; [exact Hh|change (0 < (val tf - val t0) / 100); lra]).
  assert (M := as_evolve_times _ _ the_consts_ok Hc _ _ _ _ _ _ _ _ Ht H0 H).
  apply as_evolve_lands in H; try assumption; [|exact the_consts_ok].
  destruct H as (n & us & os & ws & hin & hacc & hsug & tau & L1 & L2 & L3 & L4 & L5 & L6 & L7 & L8 & L9 & L10 & L11 & L12 & L13 & L14 & L15).
  split; [exact L11|]. split; [|exact M].
  exists n, us, os, ws, hin, hacc, hsug, tau. repeat split; try assumption; apply L7; assumption.
Qed.

(** A run with growing and clamped steps that satisfies the hypotheses. *)
Example C01_not_vacuous : exists fuel u' o',
  as_evolve the_consts toy_cfg toy_s2 fuel 1 (num 0) (num 1) (Some (num (1/20))) true 1 toy_obj_as tt
  = (Ret u', o', tt).
Proof.
  destruct (@as_evolve_returns R unit toy_as the_consts toy_cfg toy_s2 the_consts_ok toy_cfg_valid 1 (num 0) (num 1)
              (Some (num (1/20))) true 1%Z toy_obj_as tt) as (fuel & u' & o' & [] & H).
  - intros acc u h s w. cbn. eauto.
  - intros a b. exists 2. split; [reflexivity|lra].
  - cbn; lra.
  - cbn; lra.
  - cbn; lra.
  - intros _; discriminate.
  - eauto.
Qed.

(** ** C02: an adaptive run always finishes *)
Theorem C02_adaptive_run_terminates :
  forall (U W : Type) (m : asm (T Rops) U W) (cfg : config (T Rops)) compute_s,
  valid_config cfg ->
  forall u (t0 tf : pynum (T Rops)) h_init store_data store_freq (o : asobj Rops U W m) w,
  match h_init with Some h => 0 < val h | None => True end ->
  exists N, forall fuel, (N <= fuel)%nat ->
  exists r o' w',
    as_evolve the_consts cfg compute_s fuel u t0 tf h_init store_data store_freq o w = (r, o', w') /\
    r <> Fuel.
Proof.
  intros U W m cfg cs Hc u t0 tf hi sd sf o w Hh.
  set (e := match hi with Some h => Rmin (val h) (minh cfg) | None => Rmin ((val tf - val t0) / 100) (minh cfg) end).
  destruct (Rlt_le_dec (val t0) (val tf)) as [Ht|Ht].
  - assert (H0 : 0 < h0_of (val t0) (val tf) hi)
      by (destruct hi; [exact Hh|change (0 < (val tf - val t0) / 100); lra]).
    assert (He : 0 < eta cfg (h0_of (val t0) (val tf) hi)).
    { destruct Hc as (_ & _ & _ & _ & _ & Hmh). apply Rmin_pos; assumption. }
    destruct (enough_fuel (val t0) (val tf) He) as [N HN].
    exists N. intros fuel Hf.
    destruct (as_evolve the_consts cfg cs fuel u t0 tf hi sd sf o w) as [[r o'] w'] eqn:E.
    exists r, o', w'. split; [reflexivity|].
    eapply as_evolve_terminates; [exact the_consts_ok|exact Hc| | |exact E]; [intros _; exact H0|].
    apply Rlt_le_trans with (1 := HN). apply Rmult_le_compat_r; [lra|apply le_INR; exact Hf].
  - exists 0%nat. intros fuel _. exists (Ret u), (as_start u t0 tf sd o), w.
    split; [|discriminate]. apply as_evolve_nothing_to_do. apply Rltb_false. exact Ht.
Qed.

(** The bound: a run that is still unfinished after [n] steps has covered at least
    [n * min(h_init, minh)], so at most [(tf - t0) / min(h_init, minh)] + 1 steps are made. *)
Theorem C02_progress_per_step :
  forall (U W : Type) (m : asm (T Rops) U W) (cfg : config (T Rops)) compute_s,
  valid_config cfg ->
  forall fuel u (t0 tf h : pynum (T Rops)) store_data store_freq (o : asobj Rops U W m) w o' w',
  0 < val h ->
  as_evolve the_consts cfg compute_s fuel u t0 tf (Some h) store_data store_freq o w = (Fuel, o', w') ->
  INR fuel * Rmin (val h) (minh cfg) <= val tf - val t0.
Proof.
  intros U W m cfg cs Hc fuel u t0 tf h sd sf o w o' w' Hh H.
  destruct (Rle_lt_dec (INR fuel * Rmin (val h) (minh cfg)) (val tf - val t0)) as [|Hlt]; [assumption|].
  exfalso. eapply as_evolve_terminates; [exact the_consts_ok|exact Hc| | |exact H|reflexivity].
  - intros _. exact Hh.
  - exact Hlt.
Qed.

(** ** C03: contract of step *)
Theorem C03_step_contract :
  forall (U W : Type) (m : asm (T Rops) U W) (cfg : config (T Rops)) compute_s,
  valid_config cfg ->
  forall u (h : pynum (T Rops)) (o : asobj Rops U W m) w r o' w',
  as_step the_consts cfg compute_s u h o w = (r, o', w') ->
  match r with
  | Fuel => False                          (* the retry loop always ends *)
  | Exc e =>
      (e = AssertionError /\ val h < 0) \/ e = MaxLoopsExceeded \/ e = MinimumStepReached \/
      (exists acc h1 s wl s', as_upd m acc u (val h1) s wl = (inl e, s', w')) \/
      (exists v err, compute_s v err = inl e)
  | Ret (u1, h1, h2) =>
      (h1 = h \/ minh cfg <= val h1) /\ 0 <= val h1 <= val h /\
      val h1 <= val h2 <= 4 * val h1 /\
      exists acc s wl err x,
        as_upd m acc u (val h1) s wl = (inr (u1, err), a_m o', w') /\
        compute_s u1 err = inr (SFin x) /\ 1 <= x
  end.
Proof.
  intros U W m cfg cs Hc u h o w r o' w' H. destruct r as [[[u1 h1] h2]|e|].
  - apply as_step_contract in H; [|exact the_consts_ok|exact Hc].
    destruct H as (_ & H1 & H2 & H3 & _ & H4). change (MAX_S the_consts) with 4 in H3.
    repeat split; try assumption; lra.
  - apply as_step_exceptions in H.
    destruct H as [[H1 H2]|H]; [left; split; assumption|right; exact H].
  - exact (as_step_not_fuel _ _ _ _ _ _ _ H).
Qed.

(** At most 51 candidates are computed: [as_counted m] is [m] with a call counter. *)
Theorem C03_at_most_51_attempts :
  forall (F : tops) (U W : Type) (m : asm (T F) U W) (ks : T F * T F) (cfg : config (T F)) compute_s
         u h (o : asobj F U W m) c w,
  let k := mk_consts 50 (fst ks) (snd ks) in
  exists c', (c <= c' <= c + 51)%nat /\
  let '(r, o', w') := as_step k cfg compute_s u h o w in
  as_step k cfg compute_s u h (counted_obj o) (c, w) = (r, counted_obj o', (c', w')).
Proof. intros. apply (as_step_counted (mk_consts 50 (fst ks) (snd ks))). Qed.

(** A step with one rejection: h = 1/5 is rejected, 1/10 accepted. *)
Example C03_not_vacuous :
  exists o', as_step the_consts toy_cfg toy_s 1 (num (1/5)) toy_obj_as tt
    = (Ret (1 - (1/2 * (1/5)) * 1, PyN (A := T Rops) true (1/2 * (1/5)), PyN (A := T Rops) true (1/2 * (1/5))), o', tt).
Proof.
  assert (R1 : toy_s (1 - 1/5 * 1) (1/5 * (1/5)) = inr (SFin (A := T Rops) (1/2))).
  { unfold toy_s. destruct (Rle_dec _ _) as [H|H]; [lra|reflexivity]. }
  assert (R2 : toy_s (1 - 1/2*(1/5) * 1) (1/2*(1/5) * (1/2*(1/5))) = inr (SFin (A := T Rops) 1)).
  { unfold toy_s. destruct (Rle_dec _ _) as [H|H]; [reflexivity|lra]. }
  unfold as_step. replace (tleb Rops (tofZ Rops 0) (val (num (1/5)))) with true
    by (symmetry; apply Rleb_true; cbn; lra).
  cbn [as_step_loop as_upd toy_as]. change (val (num (1/5))) with (1/5).
  rewrite R1. unfold accepts.
  replace (tltb Rops (1/2) (tofZ Rops 1)) with true by (symmetry; apply Rltb_true; cbn; lra).
  change (MAX_LOOPS the_consts) with 50%nat. cbn [Nat.ltb Nat.leb].
  assert (E : reject_size the_consts toy_cfg (SFin (A := T Rops) (1/2)) (num (1/5)) =
              PyN (A := T Rops) true (1/2 * (1/5))).
  { unfold reject_size. rewrite npmax_R, npmin_R.
    change (MIN_S the_consts) with (1/4). change (decr_f toy_cfg) with (85/100).
    rewrite Rmax_left, Rmin_left by lra. reflexivity. }
  rewrite E. cbn [val].
  replace (tltb Rops (1/2 * (1/5)) (minh toy_cfg)) with false
    by (symmetry; apply Rltb_false; cbn; lra).
  rewrite R2.
  replace (tltb Rops 1 (tofZ Rops 1)) with false by (symmetry; apply Rltb_false; cbn; lra).
  eexists. unfold accept_size. rewrite npmin_R.
  change (MAX_S the_consts) with 4. change (incr_f toy_cfg) with (5/4).
  rewrite Rmin_left by lra.
  replace (tltb Rops (5/4) 1) with false by (symmetry; apply Rltb_false; cbn; lra).
  reflexivity.
Qed.

(** ** C04: bounds on rejected and accepted step sizes *)
Theorem C04_rejection_factor :
  forall (cfg : config (T Rops)) s (h : pynum (T Rops)),
  valid_config cfg ->
  exists c, val (reject_size the_consts cfg s h) = c * val h /\
    match s with
    | SFin x => Rmin (1/4) (decr_f cfg) <= c <= decr_f cfg /\ c = Rmin (Rmax x (1/4)) (decr_f cfg)
    | _ => c = 1/4
    end /\ c < 1 /\ (0 < decr_f cfg -> 0 < c).
Proof.
  intros cfg s h Hc. destruct (reject_size_factor the_consts cfg s h) as (c & E & H).
  exists c. split; [exact E|]. destruct Hc as (_ & _ & Hd & _).
  change (MIN_S the_consts) with (1/4) in H.
  destruct s as [x| | |].
  - destruct H as [H1 H2]. split; [split; assumption|]. split; [lra|].
    intros Hp. apply Rlt_le_trans with (2 := proj1 H2). apply Rmin_pos; lra.
  - split; [exact H|]. split; [rewrite H|intros _; rewrite H]; lra.
  - split; [exact H|]. split; [rewrite H|intros _; rewrite H]; lra.
  - split; [exact H|]. split; [rewrite H|intros _; rewrite H]; lra.
Qed.

Theorem C04_acceptance_factor :
  forall (cfg : config (T Rops)) x (h : pynum (T Rops)),
  valid_config cfg -> 1 <= x ->
  exists c, val (accept_size the_consts cfg x h) = c * val h /\ 1 <= c <= 4 /\
            (Rmin x 4 <= incr_f cfg -> c = 1) /\ (incr_f cfg < Rmin x 4 -> c = Rmin x 4).
Proof.
  intros cfg x h Hc Hx. destruct Hc as (_ & Hi & _).
  destruct (accept_size_factor the_consts cfg h Hx (proj2 the_consts_ok)) as (c & E & H & Hc); [lra|].
  exists c. split; [exact E|]. split; [exact H|]. change (MAX_S the_consts) with 4 in Hc.
  destruct (Rlt_dec (incr_f cfg) (Rmin x 4)) as [Hr|Hr]; split; intros G; try exact Hc; lra.
Qed.

Example C04_not_vacuous : valid_config toy_cfg /\ 0 < decr_f toy_cfg /\ incr_f toy_cfg < Rmin 2 4.
Proof. split; [exact toy_cfg_valid|]. cbn. rewrite Rmin_left by lra. lra. Qed.

(** ** C17: constant steps *)
Theorem C17_constant_steps_exact :
  forall (U W : Type) (m : csm (T Rops) U W) (Phi : R -> U -> U) (Inv : cs_st m -> U -> Prop),
  cs_memoryless m Phi Inv ->
  forall u (t0 tf h : pynum (T Rops)) (o : csobj Rops U W m) w,
  0 < val h -> val h <= val tf - val t0 -> val tf <> 0 ->
  exists n, (* n is the least number of steps reaching tf *)
    (val tf <= val t0 + INR n * val h /\
     forall j, (j < n)%nat -> val t0 + INR j * val h < val tf) /\
    forall fuel, (n <= fuel)%nat -> exists o' w',
      cs_evolve (F := Rops) fuel u t0 tf h true 1 o w = (Ret (Nat.iter n (Phi (val h)) u), o', w') /\
      val (c_tc o') = val t0 + INR n * val h /\
      val tf <= val (c_tc o') < val tf + val h /\
      map val (c_t o') = map (fun j => val t0 + INR j * val h) (seq 0 (S n)) /\
      c_u o' = map (fun j => Nat.iter j (Phi (val h)) u) (seq 0 (S n)).
Proof.
  intros U W m Phi Inv HM u t0 tf h o w Hh Hfit Hz.
  destruct (@steps_exist (val t0) (val tf) (val h) Hh) as (n & Hn1 & Hn2); [lra|].
  exists n. split.
  { split; [lra|]. intros j Hj. assert (INR j <= INR (n - 1)) by (apply le_INR; lia).
    assert (INR j * val h <= INR (n - 1) * val h) by (apply Rmult_le_compat_r; lra). lra. }
  intros fuel Hf.
  destruct (@cs_evolve_exact U W m Phi Inv fuel u t0 tf h 1 n o w HM Hh) as (o' & w' & E1 & E2 & E3 & E4 & _);
    [lra|exact Hn2|left; exact Hz|lia|exact Hf|].
  exists o', w'. split; [exact E1|]. split; [exact E2|]. split.
  { rewrite E2. split; [lra|].
    assert (INR n = INR (n - 1) + 1) by (rewrite <- S_INR; f_equal; lia). rewrite H. lra. }
  unfold snapshots in E3, E4. rewrite Nat.div_1_r in E3, E4.
  split; [rewrite E3|rewrite E4]; apply map_ext; intros a; rewrite Nat.mul_1_r; reflexivity.
Qed.

Example C17_not_vacuous :
  cs_memoryless toy_cs (fun h u => u - h * u) (fun _ _ => True) /\ 0 < 1/10 <= 1 - 0 /\ (1:R) <> 0.
Proof.
  split; [|lra]. split; [auto|]. intros s u h w _. exists s, w. split; [reflexivity|exact I].
Qed.

(** ** C19 (exact and generic parts; the binary64/NaN cases are in [PropsB64.v]) *)
Theorem C19_step_too_large :
  forall (U W : Type) (m : csm (T Rops) U W) fuel u (t0 tf h : pynum (T Rops)) sd sf (o : csobj Rops U W m) w,
  val h > val tf - val t0 ->
  exists o', cs_evolve fuel u t0 tf h sd sf o w = (Exc ValueError, o', w).
Proof.
  intros. eexists. apply cs_evolve_too_large. apply Rltb_true.
  change (val tf < val t0 + val h). lra.
Qed.

Theorem C19_negative_step :
  forall (U W : Type) (m : csm (T Rops) U W) fuel u (t0 tf h : pynum (T Rops)) sd sf (o : csobj Rops U W m) w,
  val h < 0 -> val t0 < val tf -> (0 < fuel)%nat ->
  exists o', cs_evolve fuel u t0 tf h sd sf o w = (Exc AssertionError, o', w).
Proof.
  intros. eexists. apply cs_evolve_negative.
  - apply Rltb_false. change (val t0 + val h <= val tf). lra.
  - apply Rltb_true. assumption.
  - apply Rleb_false. assumption.
  - assumption.
Qed.

Theorem C19_backwards_is_noop :
  forall (U W : Type) (m : csm (T Rops) U W) fuel u (t0 tf h : pynum (T Rops)) sd sf (o : csobj Rops U W m) w,
  val tf < val t0 -> val t0 + val h <= val tf ->
  exists o', cs_evolve fuel u t0 tf h sd sf o w = (Ret u, o', w).
Proof.
  intros. eexists. apply cs_evolve_nothing_to_do.
  - apply Rltb_false. assumption.
  - apply Rltb_false. lra.
Qed.

Theorem C19_zero_step_never_returns :
  forall (U W : Type) (m : csm (T Rops) U W) fuel u (t0 tf h : pynum (T Rops)) sd sf (o : csobj Rops U W m) w,
  cs_never_raises m -> val h = 0 -> val t0 < val tf -> val tf <> 0 -> (sd = true -> sf <> 0%Z) ->
  exists o' w', cs_evolve fuel u t0 tf h sd sf o w = (Fuel, o', w').
Proof. intros. apply cs_evolve_h_zero; assumption. Qed.

Example C19_not_vacuous : cs_never_raises toy_cs.
Proof. intros u h s w. cbn. eauto. Qed.

(** ** C20: snapshots, for any arithmetic *)
Theorem C20_constant_step_snapshots :
  forall (F : tops) (U W : Type) (m : csm (T F) U W) fuel u t0 tf h (f : nat) (o : csobj F U W m) w u' o' w',
  (1 <= f)%nat ->
  cs_evolve fuel u t0 tf h true (Z.of_nat f) o w = (Ret u', o', w') ->
  exists n us sts ws,
    (* us 0 .. us n are the successive states, starting at u after a reset *)
    us 0%nat = u /\ us n = u' /\ sts 0%nat = cs_reset m (c_m o) /\ ws 0%nat = w /\
    (forall j, (j < n)%nat -> cs_upd m (us j) (val h) (sts j) (ws j) = (inr (us (S j)), sts (S j), ws (S j))) /\
    length (c_t o') = (1 + n / f)%nat /\ length (c_u o') = (1 + n / f)%nat /\
    (forall j, (j <= n / f)%nat ->
       nth_error (c_t o') j = Some (time_after F t0 h (j * f)) /\
       nth_error (c_u o') j = Some (us (j * f)%nat)).
Proof.
  intros F U W m fuel u t0 tf h f o w u' o' w' Hf H.
  apply cs_evolve_snapshots in H; [|exact Hf]; destruct H as (n & us & sts & ws & H1 & H2 & H3 & H4 & H5 & H6 & H7 & H8 & H9).
  exists n, us, sts, ws. repeat (split; [first [assumption | symmetry; assumption]|]).
  assert (L : forall A (v : nat -> A), length (snapshots f n v) = (1 + n / f)%nat)
    by (intros; unfold snapshots; rewrite map_length, seq_length; reflexivity).
  assert (N : forall A (v : nat -> A) j, (j <= n / f)%nat -> nth_error (snapshots f n v) j = Some (v (j * f)%nat)).
  { intros A v j Hj. unfold snapshots. rewrite nth_error_map, (nth_error_nth' _ 0%nat) by (rewrite seq_length; lia).
    rewrite seq_nth by lia. reflexivity. }
  rewrite H8, H9. split; [apply L|]. split; [apply L|]. intros j Hj. split; apply N; exact Hj.
Qed.

Theorem C20_adaptive_snapshots :
  forall (F : tops) (U W : Type) (m : asm (T F) U W) k cfg compute_s
         fuel u t0 tf hi (f : nat) (o : asobj F U W m) w u' o' w',
  (1 <= f)%nat ->
  as_evolve k cfg compute_s fuel u t0 tf hi true (Z.of_nat f) o w = (Ret u', o', w') ->
  exists n us os ws hin hacc hsug tau,
    us 0%nat = u /\ us n = u' /\ tau 0%nat = t0 /\ ws 0%nat = w /\
    as_chain (m := m) k cfg compute_s tf n us os ws hin hacc hsug tau /\
    length (a_t o') = (1 + n / f)%nat /\ length (a_u o') = (1 + n / f)%nat /\
    (forall j, (j <= n / f)%nat ->
       nth_error (a_t o') j = Some (tau (j * f)%nat) /\
       nth_error (a_u o') j = Some (us (j * f)%nat)).
Proof.
  intros F U W m k cfg cs fuel u t0 tf hi f o w u' o' w' Hf H.
  apply as_evolve_snapshots in H; [|exact Hf].
  destruct H as (n & us & os & ws & hin & hacc & hsug & tau & H1 & H2 & H3 & H4 & H5 & H6 & H7 & H8 & H9 & H10 & H11 & H12).
  exists n, us, os, ws, hin, hacc, hsug, tau.
  assert (L : forall A (v : nat -> A), length (snapshots f n v) = (1 + n / f)%nat)
    by (intros; unfold snapshots; rewrite map_length, seq_length; reflexivity).
  assert (N : forall A (v : nat -> A) j, (j <= n / f)%nat -> nth_error (snapshots f n v) j = Some (v (j * f)%nat)).
  { intros A v j Hj. unfold snapshots. rewrite nth_error_map, (nth_error_nth' _ 0%nat) by (rewrite seq_length; lia).
    rewrite seq_nth by lia. reflexivity. }
  split; [assumption|]. split; [symmetry; assumption|]. split; [assumption|]. split; [assumption|].
  split; [assumption|].
  rewrite H11, H12. split; [apply L|]. split; [apply L|]. intros j Hj. split; apply N; exact Hj.
Qed.

Theorem C20_store_data_false_records_nothing :
  (forall (F : tops) (U W : Type) (m : csm (T F) U W) fuel u t0 tf h sf (o : csobj F U W m) w r o' w',
     cs_evolve fuel u t0 tf h false sf o w = (r, o', w') -> c_t o' = [] /\ c_u o' = []) /\
  (forall (F : tops) (U W : Type) (m : asm (T F) U W) k cfg compute_s fuel u t0 tf hi sf (o : asobj F U W m) w r o' w',
     as_evolve k cfg compute_s fuel u t0 tf hi false sf o w = (r, o', w') -> a_t o' = [] /\ a_u o' = []).
Proof.
  split; intros.
  - eapply cs_evolve_no_snapshots; eassumption.
  - eapply as_evolve_no_snapshots; eassumption.
Qed.

Example C20_not_vacuous : exists o' w',
  cs_evolve (F := Rops) 10 1 (num 0) (num 1) (num (1/4)) true (Z.of_nat 2) toy_obj_cs tt
  = (Ret (Nat.iter 4 (fun u => u - 1/4 * u) 1), o', w').
Proof.
  destruct (@cs_evolve_exact R unit toy_cs (fun h u => u - h * u) (fun _ _ => True) 10 1 (num 0) (num 1) (num (1/4)) 2 4
              toy_obj_cs tt (proj1 C17_not_vacuous)) as (o' & w' & E & _); cbn; try lra; try lia; eauto.
Qed.

(** ** C22: time translation (exact arithmetic), and where it fails *)
Theorem C22_time_translation_partial :
  (forall (U W : Type) (m : csm (T Rops) U W) d fuel u (t0 tf h : pynum (T Rops)) sd sf (o : csobj Rops U W m) w,
     val tf <> 0 -> val tf + d <> 0 ->
     let '(r1, o1, w1) := cs_evolve fuel u t0 tf h sd sf o w in
     let '(r2, o2, w2) := cs_evolve fuel u (shift d t0) (shift d tf) h sd sf o w in
     r2 = r1 /\ w2 = w1 /\ c_u o2 = c_u o1 /\ c_t o2 = map (shift d) (c_t o1)) /\
  (forall (U W : Type) (m : asm (T Rops) U W) k cfg compute_s d fuel u (t0 tf : pynum (T Rops)) hi sd sf (o : asobj Rops U W m) w,
     val tf <> 0 -> val tf + d <> 0 ->
     let '(r1, o1, w1) := as_evolve k cfg compute_s fuel u t0 tf hi sd sf o w in
     let '(r2, o2, w2) := as_evolve k cfg compute_s fuel u (shift d t0) (shift d tf) hi sd sf o w in
     r2 = r1 /\ w2 = w1 /\ a_u o2 = a_u o1 /\ a_t o2 = map (shift d) (a_t o1)).
Proof.
  split; intros.
  - apply cs_evolve_shift; left; assumption.
  - apply as_evolve_shift; left; assumption.
Qed.

(** Counterexample at [tf = 0]: integrating Euler from -1 to 0 with 100 steps of 1/100 raises
    ZeroDivisionError (progress report), while the same run shifted by 1 succeeds. *)
Theorem C22_time_translation_refuted :
  exists (t0 tf h : pynum (T Rops)) d,
    (exists o' w', cs_evolve (F := Rops) 1000 1 t0 tf h true 1 toy_obj_cs tt = (Exc ZeroDivisionError, o', w')) /\
    (exists u' o' w', cs_evolve (F := Rops) 1000 1 (shift d t0) (shift d tf) h true 1 toy_obj_cs tt = (Ret u', o', w')).
Proof.
  exists (num (-1)), (num 0), (num (1/100)), 1.
  assert (I99 : INR 99 = 99) by (rewrite INR_IZR_INZ; reflexivity).
  assert (I100 : INR 100 = 100) by (rewrite INR_IZR_INZ; reflexivity).
  split.
  - apply (@cs_evolve_tf_zero R unit toy_cs 1000 1 (num (-1)) (num 0) (num (1/100)) 1 toy_obj_cs tt
             C19_not_vacuous); try reflexivity; try lia.
    + cbn; lra.
    + rewrite I99. cbn; lra.
  - destruct (@cs_evolve_exact R unit toy_cs (fun h u => u - h * u) (fun _ _ => True) 1000 1
                (shift 1 (num (-1))) (shift 1 (num 0)) (num (1/100)) 1 100
                toy_obj_cs tt (proj1 C17_not_vacuous)) as (o' & w' & E & _).
    + cbn; lra.
    + cbn; lra.
    + change (100 - 1)%nat with 99%nat. rewrite I99, I100. cbn. lra.
    + left. cbn; lra.
    + lia.
    + lia.
    + eauto.
Qed.

Print Assumptions C01_adaptive_run_lands_on_tf.
Print Assumptions C02_adaptive_run_terminates.
Print Assumptions C02_progress_per_step.
Print Assumptions C03_step_contract.
Print Assumptions C03_at_most_51_attempts.
Print Assumptions C04_rejection_factor.
Print Assumptions C04_acceptance_factor.
Print Assumptions C17_constant_steps_exact.
Print Assumptions C19_step_too_large.
Print Assumptions C19_negative_step.
Print Assumptions C19_backwards_is_noop.
Print Assumptions C19_zero_step_never_returns.
Print Assumptions C20_constant_step_snapshots.
Print Assumptions C20_adaptive_snapshots.
Print Assumptions C20_store_data_false_records_nothing.
Print Assumptions C22_time_translation_partial.
Print Assumptions C22_time_translation_refuted.
