(** * Runs of evolve as sequences of steps of the pure one-step method

    Links the loops of [evolve] (Control.v: solvercs.py, solveras.py) with [run] of Converge.v. *)

From Coq Require Import ZArith List Bool Reals Lra Lia FunctionalExtensionality.
From Verif Require Import Scalars Control ControlCS ControlCSReal ControlAS ControlASReal ControlSim ControlSound SchemePartial Converge.
Import ListNotations.
Local Open Scope R_scope.
Set Implicit Arguments.

Fixpoint grun {U} (Phi : R -> U -> U) (hs : list R) (v : U) : U :=
  match hs with [] => v | h :: hs => grun Phi hs (Phi h v) end.
Lemma grun_app U (Phi : R -> U -> U) hs h v : grun Phi (hs ++ [h]) v = Phi h (grun Phi hs v).
Proof. revert v. induction hs as [|a hs IH]; intros v; [reflexivity|]. cbn. apply IH. Qed.
Lemma total_app hs h : total (hs ++ [h]) = total hs + h.
Proof. unfold total. induction hs as [|a hs IH]; cbn; [lra|]. cbn in IH. rewrite IH. lra. Qed.

(** Values [us] and times [ts] of a run: [us] starts at [u], and each value comes from the one before by a step of
    the size of the difference of the times. *)
Definition steps_of {U} (Phi : R -> U -> U) (t0 : R) (u : U) (hs : list R) (ts : list R) (us : list U) : Prop :=
  ts = map (fun j => t0 + total (firstn j hs)) (seq 0 (S (length hs))) /\
  us = map (fun j => grun Phi (firstn j hs) u) (seq 0 (S (length hs))).

Lemma trace_list U (Phi : R -> U -> U) n (us : nat -> U) (ha : nat -> R) :
  (forall j, (j < n)%nat -> us (S j) = Phi (ha j) (us j)) ->
  forall j, (j <= n)%nat -> us j = grun Phi (firstn j (map ha (seq 0 n))) (us 0%nat).
Proof.
  intros H. induction j as [|j IH]; intros Hj; [reflexivity|].
  rewrite H, IH by lia.
  assert (E : firstn (S j) (map ha (seq 0 n)) = firstn j (map ha (seq 0 n)) ++ [ha j]).
  { rewrite !firstn_map. assert (X : firstn (S j) (seq 0 n) = firstn j (seq 0 n) ++ [j]).
    { assert (F : forall k m, (k <= m)%nat -> firstn k (seq 0 m) = seq 0 k).
      { intros k m Hk. replace m with (k + (m - k))%nat by lia. rewrite seq_app, firstn_app, seq_length, Nat.sub_diag, firstn_O, app_nil_r.
        replace (seq 0 k) with (firstn (length (seq 0 k)) (seq 0 k)) at 2 by apply firstn_all. rewrite seq_length. reflexivity. }
      rewrite !F by lia. rewrite seq_S. reflexivity. }
    rewrite X, map_app. reflexivity. }
  rewrite E, grun_app. reflexivity.
Qed.
Lemma firstn_S_app n (ha : nat -> R) j : (j < n)%nat ->
  firstn (S j) (map ha (seq 0 n)) = firstn j (map ha (seq 0 n)) ++ [ha j].
Proof.
  intros Hj. rewrite !firstn_map. assert (F : forall k m, (k <= m)%nat -> firstn k (seq 0 m) = seq 0 k).
  { intros k m Hk. replace m with (k + (m - k))%nat by lia. rewrite seq_app, firstn_app, seq_length, Nat.sub_diag, firstn_O, app_nil_r.
    replace (seq 0 k) with (firstn (length (seq 0 k)) (seq 0 k)) at 2 by apply firstn_all. rewrite seq_length. reflexivity. }
  rewrite !F by lia. rewrite seq_S, map_app. reflexivity.
Qed.
Lemma trace_total n (tau : nat -> R) (ha : nat -> R) :
  (forall j, (j < n)%nat -> tau (S j) = tau j + ha j) ->
  forall j, (j <= n)%nat -> tau j = tau 0%nat + total (firstn j (map ha (seq 0 n))).
Proof.
  intros H. induction j as [|j IH]; intros Hj; [cbn; unfold total; cbn; lra|].
  rewrite H, IH, firstn_S_app, total_app by lia. lra.
Qed.

Lemma due_1 n : due true 1 0 n = seq 1 n.
Proof.
  change 1%Z with (Z.of_nat 1) at 1. rewrite due_multiples by lia. rewrite Nat.div_1_r.
  rewrite <- (map_id (seq 1 n)) at 2. apply map_ext. intros j. lia.
Qed.

(** An accepted step is a step of the one-step method with the accepted size. *)
Lemma as_step_ret U W (m : asm (T Rops) U W) Phi good Inv (ks : consts (T Rops)) cfg compute_s : as_sound1 m Phi good Inv ->
  forall fuel nl u h (o : asobj Rops U W m) w u1 h1 h2 o' w', Inv (a_accept o) (a_m o) u ->
  as_step_loop ks cfg compute_s fuel nl u h o w = (Ret (u1, h1, h2), o', w') ->
  good (val h1) /\ u1 = fst (Phi (val h1) u) /\ Inv (a_accept o') (a_m o') u1.
Proof.
  intros HS. induction fuel as [|fuel IH]; intros nl u h o w u1 h1 h2 o' w' Hi E; cbn [as_step_loop] in E; [discriminate|].
  assert (H := proj2 HS (a_accept o) (a_m o) u (val h) w Hi).
  destruct (as_upd m (a_accept o) u (val h) (a_m o) w) as [[[e|[unew err]] s'] w1]; [discriminate|].
  destruct H as (Hg & Hp & Hf & Ht). cbn [fst] in Ht.
  destruct (compute_s unew err) as [e|sv]; [discriminate|].
  destruct (accepts sv) as [x|].
  - inversion E; subst. rewrite <- Hp. split; [exact Hg|]. split; [reflexivity|exact Ht].
  - destruct (Nat.ltb (MAX_LOOPS ks) (S nl)); [discriminate|].
    destruct (tltb Rops (val (reject_size ks cfg sv h)) (minh cfg)); [discriminate|].
    eapply IH; [|exact E]. exact Hf.
Qed.

(** Every run of the adaptive [evolve] that records each step: the recorded times and vectors are those of a sequence of
    positive steps of the one-step method that does not pass [tf]; a run that returns has reached [tf] and returns the last value. *)
Theorem as_evolve_steps U W (m : asm (T Rops) U W) Phi good Inv (ks : consts (T Rops)) cfg compute_s :
  as_sound1 m Phi good Inv -> 0 < MIN_S ks < 1 /\ 1 <= MAX_S ks -> valid_config cfg ->
  forall fuel u (t0 tf : pynum (T Rops)) hi (o : asobj Rops U W m) w r o' w',
  val t0 < val tf -> match hi with Some h => 0 < val h | None => True end ->
  as_evolve ks cfg compute_s fuel u t0 tf hi true 1 o w = (r, o', w') ->
  exists hs, Forall (fun h => 0 < h) hs /\ Forall good hs /\ val t0 + total hs <= val tf /\
    steps_of (fun h v => fst (Phi h v)) (val t0) u hs (map val (a_t o')) (a_u o') /\
    forall u', r = Ret u' -> u' = grun (fun h v => fst (Phi h v)) hs u /\ val t0 + total hs = val tf.
Proof.
  intros HS Hks Hc fuel u t0 tf hi o w r o' w' Ht Hh H.
  assert (H0 : 0 < h0_of (val t0) (val tf) hi) by (destruct hi; [exact Hh|change (0 < (val tf - val t0) / 100); lra]).
  rewrite as_evolve_unfold in H. apply as_loop_trace in H.
  destruct H as (n & us & os & ws & hin & hacc & hsug & tau & Hu0 & Ho0 & Hw0 & Hh0 & Ht0 &
                     Hch & Hn & Hlt' & Hpr' & Hsf' & Htf' & Ht' & Hu' & Hend).
  destruct (start_times u t0 tf true o) as (S1 & S2 & S3). rewrite S1, S2, ?S3 in *.
  assert (I := chain_invariant Hks Hc hi Ht H0 Ht0 Hh0 Hch Hlt').
  assert (P := chain_progress Hks Hc hi Ht H0 Ht0 Hh0 Hch Hlt').
  assert (Inv0 : Inv (a_accept (os 0%nat)) (a_m (os 0%nat)) (us 0%nat)) by (rewrite Ho0, Hu0; apply (proj1 HS)).
  assert (Step : forall j, (j <= n)%nat -> Inv (a_accept (os j)) (a_m (os j)) (us j) /\ forall i, (i < j)%nat -> good (val (hacc i)) /\ us (S i) = fst (Phi (val (hacc i)) (us i))).
  { induction j as [|j IH]; intros Hj; [split; [exact Inv0|intros; lia]|].
    destruct (IH ltac:(lia)) as [IH1 IH2]. destruct (Hch j ltac:(lia)) as ((o1 & E & Ea & Em) & _).
    unfold as_step in E. destruct (tleb Rops (tofZ Rops 0) (val (hin j))); [|discriminate].
    destruct (as_step_ret ks cfg compute_s HS _ _ _ _ _ _ IH1 E) as (G0 & G1 & G2). rewrite Ea, Em. split; [exact G2|].
    intros i Hi. destruct (Nat.eq_dec i j) as [->|]; [split; [exact G0|exact G1]|apply IH2; lia]. }
  destruct (Step n ltac:(lia)) as [_ Steps]. clear Step.
  set (ha := (fun j => val (hacc j)) : nat -> R).
  assert (Times : forall j, (j < n)%nat -> val (tau (S j)) = val (tau j) + ha j).
  { intros j Hj. destruct (Hch j Hj) as (_ & E & _). rewrite E. reflexivity. }
  assert (TT := trace_total (fun j => val (tau j)) ha Times). assert (TU := trace_list (fun h v => fst (Phi h v)) us ha (fun j H => proj2 (Steps j H))).
  cbn beta in TT. rewrite Ht0 in TT. rewrite Hu0 in TU.
  set (hs := map ha (seq 0 n) : list R) in *. assert (HL : @length R hs = n) by (unfold hs; rewrite map_length, seq_length; reflexivity).
  assert (FA : firstn n hs = hs) by (rewrite <- HL; apply firstn_all).
  exists hs. split; [|split; [|split; [|split; [split|]]]].
  - unfold hs. apply Forall_map, Forall_forall. intros j Hj. apply in_seq in Hj. destruct (P j ltac:(lia)) as [[P1 _] _].
    unfold ha. rewrite (Times j ltac:(lia)) in P1. unfold ha in P1. lra.
  - unfold hs. apply Forall_map, Forall_forall. intros j Hj. apply in_seq in Hj. apply (Steps j). lia.
  - rewrite <- FA, <- TT by lia. apply (I n). lia.
  - rewrite Ht', due_1, HL, map_app, map_map. cbn [app map]. rewrite <- cons_seq. cbn [map]. f_equal; [cbn; unfold total; cbn; lra|].
    apply map_ext_in. intros j Hj. apply in_seq in Hj. apply TT. lia.
  - rewrite Hu', due_1, HL. unfold as_start. cbn [a_u app]. rewrite <- cons_seq. cbn [map]. f_equal.
    apply map_ext_in. intros j Hj. apply in_seq in Hj. apply TU. lia.
  - intros u' ->. destruct Hend as (E1 & E2 & _). apply Rltb_false in E2. rewrite <- FA. split; [rewrite E1; apply TU; lia|].
    rewrite <- TT by lia. destruct (I n ltac:(lia)) as [I1 _]. lra.
Qed.

(** The same for the constant-step [evolve]. *)
Theorem cs_evolve_steps U W (m : csm (T Rops) U W) Phi good Inv : cs_sound1 m Phi good Inv ->
  forall fuel u (t0 tf h : pynum (T Rops)) (o : csobj Rops U W m) w r o' w',
  0 < val h -> val t0 <= val tf ->
  cs_evolve (F := Rops) fuel u t0 tf h true 1 o w = (r, o', w') ->
  exists n, ((0 < n)%nat -> good (val h)) /\ ((0 < n)%nat -> val t0 + INR (n - 1) * val h < val tf) /\ 
    steps_of Phi (val t0) u (repeat (val h) n) (map val (c_t o')) (c_u o') /\
    forall u', r = Ret u' -> u' = grun Phi (repeat (val h) n) u /\ val tf <= val t0 + INR n * val h.
Proof.
  intros HS fuel u t0 tf h o w r o' w' Hh Ht H. rewrite cs_evolve_unfold in H. set (vh := val h : R) in *.
  destruct (tltb Rops (val tf) (val (padd Rops t0 h))).
  { injection H as <- <- <-. exists 0%nat. split; [lia|]. split; [lia|]. split; [split; cbn; [unfold total; cbn; f_equal; lra|reflexivity]|discriminate]. }
  apply cs_loop_trace in H.
  destruct H as (n & us & sts & ws & Hu0 & Hs0 & Hw0 & Hch & Hn & Hlt & Hle & Hpr & Hsf & Htf & Ht' & Hu' & Hend).
  change (c_tc (cs_start u t0 tf true o)) with t0 in *. change (c_tf (cs_start u t0 tf true o)) with tf in *.
  change (c_t (cs_start u t0 tf true o)) with [t0] in *. change (c_u (cs_start u t0 tf true o)) with [u] in *.
  change (c_m (cs_start u t0 tf true o)) with (cs_reset m (c_m o)) in *.
  assert (Step : forall j, (j <= n)%nat -> Inv (sts j) (us j) /\ forall i, (i < j)%nat -> good (val h) /\ us (S i) = Phi (val h) (us i)).
  { induction j as [|j IH]; intros Hj; [split; [rewrite Hs0; apply (proj1 HS)|intros; lia]|].
    destruct (IH ltac:(lia)) as [IH1 IH2]. assert (E := Hch j ltac:(lia)).
    assert (G := proj2 HS (sts j) (us j) (val h) (ws j) IH1). rewrite E in G. destruct G as (G0 & G1 & G2). split; [exact G2|].
    intros i Hi. destruct (Nat.eq_dec i j) as [->|]; [split; [exact G0|exact G1]|apply IH2; lia]. }
  destruct (Step n ltac:(lia)) as [_ Steps]. clear Step.
  assert (TU := trace_list Phi us (fun _ => vh) (fun j H => proj2 (Steps j H))). rewrite Hu0 in TU.
  assert (R : map (fun _ : nat => vh) (seq 0 n) = repeat vh n).
  { clear. induction n as [|n IH]; [reflexivity|]. rewrite seq_S, map_app, IH. cbn. symmetry. apply repeat_cons. }
  rewrite R in TU. exists n.
  assert (FA : firstn n (repeat vh n) = repeat vh n) by (rewrite <- (repeat_length vh n) at 1; apply firstn_all).
  assert (TT : forall j, (j <= n)%nat -> val (time_after Rops t0 h j) = val t0 + total (firstn j (repeat vh n))).
  { intros j Hj. rewrite <- R. assert (G := @trace_total n (fun j => val (time_after Rops t0 h j)) (fun _ => vh)). cbn beta in G.
    rewrite G by (intros; try reflexivity; lia). reflexivity. }
  split; [|split; [|split; [split|]]].
  - intros Hn0. apply (Steps 0%nat). exact Hn0.
  - intros Hn0. assert (X := Hlt (n - 1)%nat ltac:(lia)). apply Rltb_true in X. rewrite time_after_R in X. exact X.
  - rewrite Ht', due_1, repeat_length, map_app, map_map. cbn [app map]. rewrite <- cons_seq. cbn [map]. f_equal; [cbn; unfold total; cbn; lra|].
    apply map_ext_in. intros j Hj. apply in_seq in Hj. apply TT. lia.
  - rewrite Hu', due_1, repeat_length. cbn [app]. rewrite <- cons_seq. cbn [map]. f_equal.
    apply map_ext_in. intros j Hj. apply in_seq in Hj. apply TU. lia.
  - intros u' ->. destruct Hend as (E1 & E2 & _). apply Rltb_false in E2. rewrite time_after_R in E2. split; [|exact E2].
    rewrite E1, (TU n (Nat.le_refl n)), FA. reflexivity.
Qed.
