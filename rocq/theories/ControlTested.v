(** * Every recorded step of a run has passed the test

    The recorded values of an adaptive run that stores every step are consecutive candidates of the one-step method whose
    error estimates were accepted (rkstiff/solveras.py:214-310, 346-416). *)

From Coq Require Import ZArith List Bool Reals Lra Lia.
From Verif Require Import Scalars Control ControlCS ControlCSReal ControlAS ControlASReal ControlSim ControlSound PropsControl SchemePartial Converge ConvRuns.
Import ListNotations.
Local Open Scope R_scope.
Set Implicit Arguments.

Lemma as_step_tested U W (m : asm (T Rops) U W) Phi good Inv (ks : consts (T Rops)) cfg compute_s : as_sound1 m Phi good Inv ->
  forall fuel nl u h (o : asobj Rops U W m) w u1 h1 h2 o' w', Inv (a_accept o) (a_m o) u ->
  as_step_loop ks cfg compute_s fuel nl u h o w = (Ret (u1, h1, h2), o', w') ->
  good (val h1) /\ u1 = fst (Phi (val h1) u) /\ Inv (a_accept o') (a_m o') u1 /\
  exists sv x, compute_s (fst (Phi (val h1) u)) (snd (Phi (val h1) u)) = inr sv /\ accepts sv = Some x.
Proof.
  intros HS. induction fuel as [|fuel IH]; intros nl u h o w u1 h1 h2 o' w' Hi E; cbn [as_step_loop] in E; [discriminate|].
  assert (H := proj2 HS (a_accept o) (a_m o) u (val h) w Hi).
  destruct (as_upd m (a_accept o) u (val h) (a_m o) w) as [[[e|[unew err]] s'] w1]; [discriminate|].
  destruct H as (Hg & Hp & Hf & Ht). cbn [fst] in Ht.
  destruct (compute_s unew err) as [e|sv] eqn:Ecs; [discriminate|].
  destruct (accepts sv) as [x|] eqn:Eac.
  - inversion E; subst. rewrite <- Hp. split; [exact Hg|]. split; [reflexivity|]. split; [exact Ht|]. exists sv, x. split; [exact Ecs|exact Eac].
  - destruct (Nat.ltb (MAX_LOOPS ks) (S nl)); [discriminate|].
    destruct (tltb Rops (val (reject_size ks cfg sv h)) (minh cfg)); [discriminate|].
    eapply IH; [|exact E]. exact Hf.
Qed.

Theorem as_evolve_tested U W (m : asm (T Rops) U W) Phi good Inv (ks : consts (T Rops)) cfg compute_s :
  as_sound1 m Phi good Inv -> 0 < MIN_S ks < 1 /\ 1 <= MAX_S ks -> valid_config cfg ->
  forall fuel u (t0 tf : pynum (T Rops)) hi (o : asobj Rops U W m) w r o' w',
  val t0 < val tf -> match hi with Some h => 0 < val h | None => True end ->
  as_evolve ks cfg compute_s fuel u t0 tf hi true 1 o w = (r, o', w') ->
  length (a_t o') = length (a_u o') /\
  forall j, (S j < length (a_t o'))%nat -> exists h, 0 < h /\ good h /\
    nth (S j) (map val (a_t o')) 0 = nth j (map val (a_t o')) 0 + h /\
    nth (S j) (a_u o') u = fst (Phi h (nth j (a_u o') u)) /\
    exists sv x, compute_s (fst (Phi h (nth j (a_u o') u))) (snd (Phi h (nth j (a_u o') u))) = inr sv /\ accepts sv = Some x.
Proof.
  intros HS Hks Hc fuel u t0 tf hi o w r o' w' Ht Hh H.
  assert (H0 : 0 < h0_of (val t0) (val tf) hi) by (destruct hi; [exact Hh|change (0 < (val tf - val t0) / 100); lra]).
  rewrite as_evolve_unfold in H. apply as_loop_trace in H.
  destruct H as (n & us & os & ws & hin & hacc & hsug & tau & Hu0 & Ho0 & Hw0 & Hh0 & Ht0 &
                     Hch & Hn & Hlt' & Hpr' & Hsf' & Htf' & Ht' & Hu' & Hend).
  destruct (start_times u t0 tf true o) as (S1 & S2 & S3). rewrite S1, S2, ?S3 in *.
  assert (P := chain_progress Hks Hc hi Ht H0 Ht0 Hh0 Hch Hlt').
  assert (Inv0 : Inv (a_accept (os 0%nat)) (a_m (os 0%nat)) (us 0%nat)) by (rewrite Ho0, Hu0; apply (proj1 HS)).
  assert (Step : forall j, (j <= n)%nat -> Inv (a_accept (os j)) (a_m (os j)) (us j) /\ forall i, (i < j)%nat ->
     good (val (hacc i)) /\ us (S i) = fst (Phi (val (hacc i)) (us i)) /\
     exists sv x, compute_s (fst (Phi (val (hacc i)) (us i))) (snd (Phi (val (hacc i)) (us i))) = inr sv /\ accepts sv = Some x).
  { induction j as [|j IH]; intros Hj; [split; [exact Inv0|intros; lia]|].
    destruct (IH ltac:(lia)) as [IH1 IH2]. destruct (Hch j ltac:(lia)) as ((o1 & E & Ea & Em) & _).
    unfold as_step in E. destruct (tleb Rops (tofZ Rops 0) (val (hin j))); [|discriminate].
    destruct (as_step_tested ks cfg compute_s HS _ _ _ _ _ _ IH1 E) as (G0 & G1 & G2 & G3). rewrite Ea, Em. split; [exact G2|].
    intros i Hi. destruct (Nat.eq_dec i j) as [->|]; [split; [exact G0|split; [exact G1|exact G3]]|apply IH2; lia]. }
  destruct (Step n ltac:(lia)) as [_ Steps]. clear Step.
  assert (Et : a_t o' = map tau (seq 0 (S n))).
  { rewrite Ht', due_1. rewrite <- cons_seq. cbn [app map]. rewrite Ht0. reflexivity. }
  assert (Eu : a_u o' = map us (seq 0 (S n))).
  { rewrite Hu', due_1. unfold as_start. cbn [a_u app]. rewrite <- cons_seq. cbn [map]. rewrite Hu0. reflexivity. }
  assert (Lt : length (a_t o') = S n) by (rewrite Et, map_length, seq_length; reflexivity).
  split; [rewrite Et, Eu, !map_length; reflexivity|]. intros j Hj. rewrite Lt in Hj.
  assert (Vt : forall k, (k <= n)%nat -> nth k (map val (a_t o')) 0 = val (tau k)).
  { intros k Hk. rewrite Et, map_map, (nth_indep _ 0 (val (tau 0%nat))) by (rewrite map_length, seq_length; lia).
    rewrite (map_nth (fun x => val (tau x))), seq_nth by lia. reflexivity. }
  assert (Vu : forall k, (k <= n)%nat -> nth k (a_u o') u = us k).
  { intros k Hk. rewrite Eu, (nth_indep _ u (us 0%nat)) by (rewrite map_length, seq_length; lia). rewrite (map_nth us), seq_nth by lia. reflexivity. }
  destruct (Hch j ltac:(lia)) as (_ & E & _). destruct (Steps j ltac:(lia)) as (G0 & G1 & G2). destruct (P j ltac:(lia)) as [[P1 _] _].
  assert (Times : val (tau (S j)) = val (tau j) + val (hacc j)) by (rewrite E; reflexivity).
  exists (val (hacc j)). rewrite !Vt, !Vu by lia. split; [lra|]. split; [exact G0|]. split; [exact Times|]. split; [exact G1|exact G2].
Qed.

(** A run whose first attempt covers the whole interval and passes the test returns after that one step. *)
Lemma one_step_run U W (m : asm (T Rops) U W) Phi good Inv (ks : consts (T Rops)) cfg compute_s u (t0 tf h : pynum (T Rops)) x (o : asobj Rops U W m) w :
  as_sound1 m Phi good Inv -> (exists a s' w', as_upd m false u (val h) (as_reset m (a_m o)) w = (inr a, s', w')) ->
  0 < val h -> val t0 + val h = val tf ->
  compute_s (fst (Phi (val h) u)) (snd (Phi (val h) u)) = inr (SFin x) -> 1 <= x ->
  exists o' w', as_evolve ks cfg compute_s 1 u t0 tf (Some h) true 1 o w = (Ret (fst (Phi (val h) u)), o', w') /\ length (a_t o') = 2%nat.
Proof.
  intros [M1 M2] Hup Hh Ht Hc Hx. assert (Lt : val t0 < val tf) by (rewrite <- Ht; lra). rewrite as_evolve_unfold.
  assert (Eh : h_start t0 tf (Some h) = h).
  { unfold h_start, clamp. replace (tltb Rops (val tf) (val (padd Rops t0 h))) with false; [reflexivity|].
    symmetry. apply Rltb_false. change (val t0 + val h <= val tf). lra. }
  rewrite Eh. destruct (start_times u t0 tf true o) as (S1 & S2 & _).
  assert (St : a_t (as_start u t0 tf true o) = [t0]) by reflexivity.
  assert (Sm : a_accept (as_start u t0 tf true o) = false /\ a_m (as_start u t0 tf true o) = as_reset m (a_m o)) by (split; reflexivity).
  set (o1 := as_start u t0 tf true o) in *. clearbody o1. cbn [as_loop].
  replace (tltb Rops (val (a_tc o1)) (val (a_tf o1))) with true by (symmetry; apply Rltb_true; rewrite S1, S2; lra).
  unfold as_step. replace (tleb Rops (tofZ Rops 0) (val h)) with true by (symmetry; apply Rleb_true; exact (Rlt_le _ _ Hh)). cbn [as_step_loop].
  destruct Sm as [Sa Sm]. rewrite Sa, Sm. destruct Hup as (a & s' & w' & E).
  assert (M := M2 false (as_reset m (a_m o)) u (val h) w (M1 _ _)). rewrite E in M. destruct M as (_ & M & _).
  rewrite E, M. destruct (Phi (val h) u) as [cand err]. cbn [fst snd] in *. rewrite Hc. cbn [accepts].
  replace (tltb Rops x (tofZ Rops 1)) with false by (symmetry; apply Rltb_false; exact Hx).
  cbn [a_t a_u a_tf a_tc a_accept a_m set_accept set_meth]. unfold progress_raises, store_now. cbn [Z.add Z.modulo Z.div_eucl Z.eqb andb].
  rewrite S1, S2, St.
  change ((1 mod 100 =? 0)%Z) with false. change ((1 mod 1 =? 0)%Z) with true. cbv iota beta. cbn [andb a_tc a_tf].
  replace (tltb Rops (val (padd Rops t0 h)) (val tf)) with false by (symmetry; apply Rltb_false; change (val tf <= val t0 + val h); rewrite Ht; apply Rle_refl).
  eexists. eexists. split; reflexivity.
Qed.
