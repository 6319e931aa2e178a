(** * Runs of evolve in binary64 as sequences of steps at rounded times

    Links the loops of [evolve] (Control.v: solvercs.py, solveras.py) read over binary64 numbers with sequences of steps of the
    one-step method: times are sums rounded to binary64, step sizes are the computed ones. *)

From Coq Require Import ZArith List Bool Reals Lra Lia FunctionalExtensionality.
From Flocq Require Import Core BinarySingleNaN Plus_error.
From Verif Require Import Scalars Control ControlCS ControlCSReal ControlAS ControlASReal ControlSim ControlSound SchemePartial Converge ConvRuns
     B64 B64Step PropsB64.
Import ListNotations.
Local Open Scope R_scope.
Set Implicit Arguments.

(** Real value of a number of the program. *)
Notation rval := (fun t : pynum (T Bops) => B2R (val t)).

(** [m] steps from the value [u] at time [t0]: sizes [ha], times [tau], values [us]. *)
Definition trace64 {U} (Phi : b64 -> U -> U) (good : b64 -> Prop) (t0 tf : R) (u : U) (m : nat) (tau : nat -> R) (ha : nat -> b64) (us : nat -> U) : Prop :=
  tau 0%nat = t0 /\ us 0%nat = u /\
  forall j, (j < m)%nat -> tau (S j) = rnd (tau j + B2R (ha j)) /\ 0 <= tau j < tf /\ is_finite (ha j) = true /\ 0 < B2R (ha j) /\ good (ha j) /\ us (S j) = Phi (ha j) (us j).

Lemma rnd_top x : 0 <= x <= bpow radix2 1023 -> 0 <= rnd x <= bpow radix2 1023.
Proof.
  intros Hx. split; [apply rnd_ge0; lra|]. rewrite <- (rnd_id (bpow radix2 1023)); [apply rnd_le; lra|]. apply generic_format_bpow. cbn. unfold SpecFloat.emin. lia.
Qed.
Lemma plus_top (x y : b64) : is_finite x = true -> is_finite y = true -> 0 <= B2R x + B2R y <= bpow radix2 1023 ->
  is_finite (b64_plus x y) = true /\ B2R (b64_plus x y) = rnd (B2R x + B2R y).
Proof.
  intros Fx Fy H. assert (P := rnd_top H). assert (Q : bpow radix2 1023 < bpow radix2 1024) by (apply bpow_lt; lia).
  destruct (plus_cases x y Fx Fy) as [(A & B & C)|(A & _)]; [auto|]. rewrite Rabs_pos_eq in A; lra.
Qed.

(** ** Constant steps *)
Theorem cs_times64 U W (m : csm (T Bops) U W) Phi good Inv : cs_sound1 m Phi good Inv ->
  forall fuel u (t0 tf h : pynum (T Bops)) (o : csobj Bops U W m) w r o' w',
  is_finite (val t0) = true -> is_finite (val tf) = true -> is_finite (val h) = true ->
  0 <= rval t0 <= rval tf -> 0 < rval h -> rval tf + rval h <= bpow radix2 1023 ->
  cs_evolve (F := Bops) fuel u t0 tf h true 1 o w = (r, o', w') ->
  exists n tau us, trace64 Phi good (rval t0) (rval tf) u n tau (fun _ => val h) us /\
    map rval (c_t o') = map tau (seq 0 (S n)) /\ c_u o' = map us (seq 0 (S n)) /\
    forall u', r = Ret u' -> u' = us n /\ rval tf <= tau n.
Proof.
  intros HS fuel u t0 tf h o w r o' w' F0 Ff Fh Ht Hh Hbig H. rewrite cs_evolve_unfold in H.
  destruct (tltb Bops (val tf) (val (padd Bops t0 h))).
  { injection H as <- <- <-. exists 0%nat, (fun _ => rval t0), (fun _ => u). split; [split; [reflexivity|split; [reflexivity|lia]]|].
    split; [reflexivity|]. split; [reflexivity|discriminate]. }
  apply cs_loop_trace in H.
  destruct H as (n & us & sts & ws & Hu0 & Hs0 & Hw0 & Hch & Hn & Hlt & Hle & Hpr & Hsf & Htf & Ht' & Hu' & Hend).
  change (c_tc (cs_start u t0 tf true o)) with t0 in *. change (c_tf (cs_start u t0 tf true o)) with tf in *.
  change (c_t (cs_start u t0 tf true o)) with [t0] in *. change (c_u (cs_start u t0 tf true o)) with [u] in *.
  change (c_m (cs_start u t0 tf true o)) with (cs_reset m (c_m o)) in *.
  assert (Step : forall j, (j <= n)%nat -> Inv (sts j) (us j) /\ forall i, (i < j)%nat -> good (val h) /\ us (S i) = Phi (val h) (us i)).
  { induction j as [|j IH]; intros Hj; [split; [rewrite Hs0; apply (proj1 HS)|intros; lia]|].
    destruct (IH ltac:(lia)) as [IH1 IH2]. assert (E := Hch j ltac:(lia)).
    assert (G := proj2 HS (sts j) (us j) (val h) (ws j) IH1). rewrite E in G. destruct G as (G0 & G1 & G2). split; [exact G2|].
    intros i Hi. destruct (Nat.eq_dec i j) as [->|]; [split; [exact G0|exact G1]|apply IH2; lia]. }
  destruct (Step n ltac:(lia)) as [_ Steps]. clear Step.
  set (tau := fun j => time_after Bops t0 h j).
  assert (Times : forall j, (j <= n)%nat -> (is_finite (val (tau j)) = true /\ 0 <= rval (tau j)) /\
            forall i, (i < j)%nat -> rval (tau (S i)) = rnd (rval (tau i) + rval h) /\ 0 <= rval (tau i) < rval tf).
  { induction j as [|j IH]; intros Hj; [split; [split; [exact F0|apply Ht]|intros; lia]|].
    destruct (IH ltac:(lia)) as [[I1 I2] I3]. assert (L := Hlt j ltac:(lia)). change (Bltb (val (tau j)) (val tf) = true) in L. apply ltb_R in L; [|exact I1|exact Ff].
    destruct (plus_top (val (tau j)) (val h) I1 Fh ltac:(lra)) as [P1 P2].
    assert (E : rval (tau (S j)) = rnd (rval (tau j) + rval h)) by exact P2.
    split; [split; [exact P1|]|].
    - rewrite E. apply rnd_ge0. lra.
    - intros i Hi. destruct (Nat.eq_dec i j) as [->|]; [split; [exact E|lra]|apply I3; lia]. }
  destruct (Times n ltac:(lia)) as [[Tn _] Ti].
  exists n, (fun j => rval (tau j)), us. split; [|split; [|split]].
  - split; [reflexivity|]. split; [exact Hu0|]. intros j Hj. destruct (Ti j Hj) as [T1 T2]. destruct (Steps j Hj) as [G1 G2]. auto 10.
  - rewrite Ht', due_1, map_app, map_map. cbn [app map]. rewrite <- cons_seq. reflexivity.
  - rewrite Hu', due_1. cbn [app]. rewrite <- cons_seq. cbn [map]. rewrite Hu0. reflexivity.
  - intros u' ->. destruct Hend as (E1 & E2 & _). change (Bltb (val (tau n)) (val tf) = false) in E2. apply ltb_R_false in E2; [|exact Tn|exact Ff].
    split; [exact E1|exact E2].
Qed.

(** ** Adaptive steps *)
(** An accepted step is a step of the one-step method with the accepted size, over any arithmetic of scalars. *)
Lemma as_step_ret64 (F : tops) U W (m : asm (T F) U W) Phi good Inv (ks : consts (T F)) cfg compute_s : as_sound1 m Phi good Inv ->
  forall fuel nl u h (o : asobj F U W m) w u1 h1 h2 o' w', Inv (a_accept o) (a_m o) u ->
  as_step_loop ks cfg compute_s fuel nl u h o w = (Ret (u1, h1, h2), o', w') ->
  good (val h1) /\ u1 = fst (Phi (val h1) u) /\ Inv (a_accept o') (a_m o') u1.
Proof.
  intros HS. induction fuel as [|fuel IH]; intros nl u h o w u1 h1 h2 o' w' Hi E; cbn [as_step_loop] in E; [discriminate|].
  assert (H := proj2 HS (a_accept o) (a_m o) u (val h) w Hi).
  destruct (as_upd m (a_accept o) u (val h) (a_m o) w) as [[[e|[unew err]] s'] w1]; [discriminate|].
  destruct H as (Hg & Hp & Hf & Ht). cbn [fst] in Ht.
  destruct (compute_s unew err) as [e|sv]; [discriminate|].
  destruct (accepts sv) as [x|].
  - inversion E; subst. rewrite <- Hp. split; [exact Hg|]. split; [reflexivity|exact Ht].
  - destruct (Nat.ltb (MAX_LOOPS ks) (S nl)); [discriminate|].
    destruct (tltb F (val (reject_size ks cfg sv h)) (minh cfg)); [discriminate|].
    eapply IH; [|exact E]. exact Hf.
Qed.

(** The first step size is positive: a positive [h_init], or an interval of which a hundredth does not underflow. *)
Definition start_ok (t0 tf : R) (hi : option (pynum (T Bops))) : Prop :=
  match hi with Some h => is_finite (val h) = true /\ 0 < rval h | None => bpow radix2 (-1000) <= tf - t0 end.

Lemma rnd_pos_bpow x e : (-1074 <= e)%Z -> (e <= 1000)%Z -> bpow radix2 e <= x -> 0 < rnd x.
Proof.
  intros H1 H2 Hx. apply Rlt_le_trans with (bpow radix2 e); [apply bpow_gt_0|].
  rewrite <- (rnd_id (bpow radix2 e)); [apply rnd_le; exact Hx|]. apply generic_format_bpow. unfold SpecFloat.fexp, SpecFloat.emin. lia.
Qed.
Lemma rnd_diff_pos x y : fmt x -> fmt y -> x < y -> 0 < rnd (y - x).
Proof.
  intros Fx Fy Hxy. assert (Z : rnd (y - x) <> 0).
  { unfold Rminus. apply round_plus_neq_0; [exact fexp_ok|exact fexp_not_FTZ|apply valid_rnd_round_mode|exact Fy|apply generic_format_opp; exact Fx|lra]. }
  assert (P := rnd_ge0 (y - x) ltac:(lra)). lra.
Qed.

Lemma start_positive (t0 tf : pynum (T Bops)) hi : is_finite (val t0) = true -> is_finite (val tf) = true ->
  0 <= rval t0 < rval tf -> rval tf < bpow radix2 1023 -> start_ok (rval t0) (rval tf) hi ->
  is_finite (val (h0_64 t0 tf hi)) = true /\ 0 < rval (h0_64 t0 tf hi).
Proof.
  intros F0 Ff Ht Hsm Hs. destruct hi as [h|]; [exact Hs|]. cbn [start_ok] in Hs. cbn [h0_64 val].
  destruct (remaining t0 tf Ff ltac:(lra) t0 F0 ltac:(lra)) as (R1 & R2 & R3).
  set (x := val (psub Bops tf t0)) in *. change (tdiv Bops x (tofZ Bops 100)) with (b64_div x (b64_ofZ 100)).
  assert (H := Bdiv_correct 53 1024 _ _ mode_NE x (b64_ofZ 100) ltac:(rewrite B2R_100; lra)). rewrite B2R_100 in H.
  assert (Lx : bpow radix2 (-1000) <= B2R x).
  { rewrite R2, <- (rnd_id (bpow radix2 (-1000))); [apply rnd_le; exact Hs|]. apply generic_format_bpow. cbn. unfold SpecFloat.emin. lia. }
  assert (L7 : bpow radix2 (-1007) <= B2R x / 100).
  { apply Rle_trans with (bpow radix2 (-1000) / 100); [|lra]. replace (bpow radix2 (-1000)) with (128 * bpow radix2 (-1007)) by (change 128 with (bpow radix2 7); rewrite <- bpow_plus; reflexivity).
    assert (P := bpow_gt_0 radix2 (-1007)). lra. }
  assert (P := bpow_gt_0 radix2 (-1007)). assert (T := rnd_top (x := B2R x / 100) ltac:(lra)).
  rewrite Rlt_bool_true in H.
  - destruct H as (H1 & H2 & _). change (Bdiv mode_NE x (b64_ofZ 100)) with (b64_div x (b64_ofZ 100)) in *. split; [rewrite H2; exact R1|].
    rewrite H1. refine (@rnd_pos_bpow _ (-1007)%Z _ _ L7); lia.
  - assert (Q : bpow radix2 1023 < bpow radix2 1024) by (apply bpow_lt; lia). change (round radix2 fx (round_mode mode_NE) (B2R x / 100)) with (rnd (B2R x / 100)). rewrite Rabs_pos_eq; lra.
Qed.

Theorem as_times64 U W (m : asm (T Bops) U W) Phi good Inv cfg compute_s :
  as_sound1 m Phi good Inv -> valid64 cfg -> finite_factors compute_s ->
  forall fuel u (t0 tf : pynum (T Bops)) hi (o : asobj Bops U W m) w r o' w',
  is_finite (val t0) = true -> is_finite (val tf) = true -> 0 <= rval t0 < rval tf -> rval tf < bpow radix2 1023 ->
  start_ok (rval t0) (rval tf) hi ->
  as_evolve consts64 cfg compute_s fuel u t0 tf hi true 1 o w = (r, o', w') ->
  exists n tau ha us, trace64 (fun h v => fst (Phi h v)) good (rval t0) (rval tf) u n tau ha us /\
    (forall j, (j <= n)%nat -> rval t0 <= tau j <= succ64 (rval tf)) /\
    map rval (a_t o') = map tau (seq 0 (S n)) /\ a_u o' = map us (seq 0 (S n)) /\
    forall u', r = Ret u' -> u' = us n /\ rval tf <= tau n.
Proof.
  intros HS Hc Hf fuel u t0 tf hi o w r o' w' F0 Ff Ht Hsm Hst H.
  assert (HT : clamp_bound t0 tf (succ64 (rval tf))) by (apply succ_clamp_bound; lra).
  assert (Hsm2 : rval tf - rval t0 <= bpow radix2 1023) by lra.
  destruct (start_positive t0 tf hi F0 Ff Ht Hsm Hst) as [Fh Ph].
  assert (Hsz : size_ok (h0_64 t0 tf hi)) by (left; split; [exact Fh|lra]).
  rewrite as_evolve_unfold in H. apply as_loop_trace in H.
  destruct H as (n & us & os & ws & hin & hacc & hsug & tau & Hu0 & Ho0 & Hw0 & Hh0 & Ht0 &
                     Hch & Hn & Hlt' & Hpr' & Hsf' & Htf' & Ht' & Hu' & Hend).
  assert (Es : a_tc (as_start u t0 tf true o) = t0 /\ a_tf (as_start u t0 tf true o) = tf /\
               a_t (as_start u t0 tf true o) = [t0]) by (unfold as_start; auto).
  destruct Es as (S1 & S2 & S3). rewrite S1, S2, ?S3 in *.
  assert (HI := chain64 t0 tf F0 Ff Hsm2 U W m cfg compute_s Hc Hf _ hi n us os ws hin hacc hsug tau HT ltac:(lra) Hsz Ht0 Hh0 Hch Hlt').
  assert (Inv0 : Inv (a_accept (os 0%nat)) (a_m (os 0%nat)) (us 0%nat)) by (rewrite Ho0, Hu0; apply (proj1 HS)).
  assert (Step : forall j, (j <= n)%nat -> Inv (a_accept (os j)) (a_m (os j)) (us j) /\ forall i, (i < j)%nat -> good (val (hacc i)) /\ us (S i) = fst (Phi (val (hacc i)) (us i))).
  { induction j as [|j IH]; intros Hj; [split; [exact Inv0|intros; lia]|].
    destruct (IH ltac:(lia)) as [IH1 IH2]. destruct (Hch j ltac:(lia)) as ((o1 & E & Ea & Em) & _).
    unfold as_step in E. destruct (tleb Bops (tofZ Bops 0) (val (hin j))); [|discriminate].
    destruct (as_step_ret64 consts64 cfg compute_s HS _ _ _ _ _ _ IH1 E) as (G0 & G1 & G2). rewrite Ea, Em. split; [exact G2|].
    intros i Hi. destruct (Nat.eq_dec i j) as [->|]; [split; [exact G0|exact G1]|apply IH2; lia]. }
  destruct (Step n ltac:(lia)) as [_ Steps]. clear Step.
  (* sizes *)
  set (src := fun j => match j with O => h0_64 t0 tf hi | S i => hsug i end).
  assert (Lt : forall j, (j < n)%nat -> rval (tau j) < rval tf).
  { intros j Hj. assert (L := Hlt' j Hj). change (Bltb (val (tau j)) (val tf) = true) in L. apply ltb_R in L; [exact L|apply HI; lia|exact Ff]. }
  assert (Sizes : forall j, (j <= n)%nat -> (is_finite (val (src j)) = true -> 0 < rval (src j)) /\
            forall i, (i < j)%nat -> rval (tau (S i)) = rnd (rval (tau i) + rval (hacc i)) /\ is_finite (val (hacc i)) = true /\ 0 < rval (hacc i)).
  { induction j as [|j IH]; intros Hj; [split; [intros _; exact Ph|intros; lia]|].
    destruct (IH ltac:(lia)) as [I1 I2]. destruct (HI j ltac:(lia)) as (J1 & J2 & J3). assert (L := Lt j ltac:(lia)).
    destruct (Hch j ltac:(lia)) as ((o1 & Es & _) & Et & Eh).
    assert (P := J3 L). fold (src j) in P.
    destruct (advance t0 tf U W m cfg compute_s Hc Hf _ _ _ _ _ _ _ _ _ _ _ _ HT J1 ltac:(lra) P Es) as (A1 & A2 & A3 & A4 & A5 & A6 & A7 & A8).
    assert (Hin : 0 < rval (hin j)).
    { destruct P as (P1 & P2 & [[P3 _]|[_ P3]]).
      - rewrite P3 in *. apply I1, P1.
      - cbn beta. rewrite P3. apply rnd_diff_pos; [apply fmt_b|apply fmt_b|exact L]. }
    assert (Hac : 0 < rval (hacc j)).
    { destruct A6 as [->|A6]; [exact Hin|]. destruct Hc as (_ & _ & _ & _ & _ & Hm). lra. }
    split.
    - cbn [src]. intros Fs. destruct A8 as [A8|A8]; [rewrite A8 in Fs; discriminate|]. lra.
    - intros i Hi. destruct (Nat.eq_dec i j) as [->|]; [|apply I2; lia]. rewrite Et. auto. }
  destruct (Sizes n ltac:(lia)) as [_ Sz].
  exists n, (fun j => rval (tau j)), (fun j => val (hacc j)), us. split; [|split; [|split; [|split]]].
  - split; [rewrite Ht0; reflexivity|]. split; [exact Hu0|]. intros j Hj. destruct (Sz j Hj) as (Z1 & Z2 & Z3). destruct (Steps j Hj) as [G1 G2].
    destruct (HI j ltac:(lia)) as (_ & J2 & _). assert (L := Lt j Hj). repeat split; try assumption; lra.
  - intros j Hj. apply (HI j Hj).
  - rewrite Ht', due_1, map_app, map_map. cbn [app map]. rewrite <- cons_seq. cbn [map]. rewrite Ht0. reflexivity.
  - rewrite Hu', due_1. unfold as_start. cbn [a_u app]. rewrite <- cons_seq. cbn [map]. rewrite Hu0. reflexivity.
  - intros u' ->. destruct Hend as (E1 & E2 & _). change (Bltb (val (tau n)) (val tf) = false) in E2. apply ltb_R_false in E2; [|apply HI; lia|exact Ff].
    split; [exact E1|exact E2].
Qed.
