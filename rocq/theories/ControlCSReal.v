(** * Constant-step evolve: consequences of the trace lemma (any arithmetic, and exact reals) *)

From Coq Require Import ZArith List Bool Lia Reals Lra.
From Verif Require Import Scalars Control ControlCS.
Import ListNotations.

Set Implicit Arguments.

(** ** Memoryless schemes *)

(** A scheme computes the one-step map [Phi] (any caching is unobservable) when some invariant
    linking its internal state to the current vector holds after a reset and is preserved, and
    under it an update returns [Phi h u]. *)
Definition cs_memoryless (A U W : Type) (m : csm A U W) (Phi : A -> U -> U)
           (Inv : cs_st m -> U -> Prop) : Prop :=
  (forall s u, Inv (cs_reset m s) u) /\
  (forall s u h w, Inv s u -> exists s' w',
      cs_upd m u h s w = (inr (Phi h u), s', w') /\ Inv s' (Phi h u)).

(** A scheme whose updates never raise. *)
Definition cs_never_raises (A U W : Type) (m : csm A U W) : Prop :=
  forall u h s w, exists u' s' w', cs_upd m u h s w = (inr u', s', w').

(** The snapshots taken at step numbers 0, f, 2f, ..., not after [n]. *)
Definition snapshots {A} (f n : nat) (v : nat -> A) : list A :=
  map (fun j => v (j * f)%nat) (seq 0 (S (n / f))).

Lemma snapshots_cons A f n (v : nat -> A) :
  snapshots f n v = v 0%nat :: map v (map (fun j => (j * f)%nat) (seq 1 (n / f))).
Proof. unfold snapshots. cbn [seq map Nat.mul]. rewrite map_map. reflexivity. Qed.

Section Generic.
  Variable F : tops.
  Variables U W : Type.
  Variable m : csm (T F) U W.
  Notation PT := (pynum (T F)).

  Definition cs_start (u : U) (t0 tf : PT) (sd : bool) (o : csobj F U W m) : csobj F U W m :=
    if sd then mk_csobj [t0] [u] tf t0 (cs_reset m (c_m o))
    else mk_csobj [] [] tf t0 (cs_reset m (c_m o)).

  Lemma cs_evolve_unfold fuel u t0 tf h sd sf (o : csobj F U W m) w :
    cs_evolve fuel u t0 tf h sd sf o w =
    if tltb F (val tf) (val (padd F t0 h)) then (Exc ValueError, cs_start u t0 tf sd o, w)
    else cs_loop fuel u h sd sf 0 (cs_start u t0 tf sd o) w.
  Proof. unfold cs_evolve, cs_start. destruct sd; reflexivity. Qed.

  (** Snapshots law for every normally returning run (C20). *)
  Lemma cs_evolve_snapshots fuel u t0 tf h (f : nat) (o : csobj F U W m) w u' o' w' :
    (1 <= f)%nat ->
    cs_evolve fuel u t0 tf h true (Z.of_nat f) o w = (Ret u', o', w') ->
    exists n us sts ws,
      us 0%nat = u /\ sts 0%nat = cs_reset m (c_m o) /\ ws 0%nat = w /\
      cs_chain m (val h) n us sts ws /\
      u' = us n /\
      (forall k, (k < n)%nat -> tltb F (val (time_after F t0 h k)) (val tf) = true) /\
      tltb F (val (time_after F t0 h n)) (val tf) = false /\
      c_t o' = snapshots f n (time_after F t0 h) /\
      c_u o' = snapshots f n us.
  Proof.
    intros Hf H. rewrite cs_evolve_unfold in H.
    destruct (tltb F (val tf) (val (padd F t0 h))); [discriminate|].
    apply cs_loop_trace in H.
    destruct H as (n & us & sts & ws & Hu0 & Hs0 & Hw0 & Hch & Hn & Hlt & _ & _ & _ & _ & Ht & Hu & He).
    cbn in Hs0, Hlt, Ht, Hu, He.
    exists n, us, sts, ws. destruct He as (E1 & E2 & _).
    repeat (split; [assumption|]).
    rewrite !snapshots_cons, <- due_multiples, Hu0 by exact Hf. auto.
  Qed.

  Lemma cs_evolve_no_snapshots fuel u t0 tf h sf (o : csobj F U W m) w r o' w' :
    cs_evolve fuel u t0 tf h false sf o w = (r, o', w') -> c_t o' = [] /\ c_u o' = [].
  Proof.
    intros H. rewrite cs_evolve_unfold in H.
    destruct (tltb F (val tf) (val (padd F t0 h))).
    - inversion H; subst. cbn. auto.
    - apply cs_loop_trace in H.
      destruct H as (n & us & sts & ws & _ & _ & _ & _ & _ & _ & _ & _ & _ & _ & Ht & Hu & _).
      rewrite Ht, Hu. cbn. auto.
  Qed.

  (** Argument classes (C19). *)
  Lemma cs_evolve_too_large fuel u t0 tf h sd sf (o : csobj F U W m) w :
    tltb F (val tf) (val (padd F t0 h)) = true ->
    cs_evolve fuel u t0 tf h sd sf o w = (Exc ValueError, cs_start u t0 tf sd o, w).
  Proof. intros E. rewrite cs_evolve_unfold, E. reflexivity. Qed.

  Lemma cs_evolve_nothing_to_do fuel u t0 tf h sd sf (o : csobj F U W m) w :
    tltb F (val tf) (val (padd F t0 h)) = false -> tltb F (val t0) (val tf) = false ->
    cs_evolve fuel u t0 tf h sd sf o w = (Ret u, cs_start u t0 tf sd o, w).
  Proof.
    intros E1 E2. rewrite cs_evolve_unfold, E1.
    destruct fuel; cbn [cs_loop]; unfold cs_start; destruct sd; cbn [c_tc c_tf]; rewrite E2; reflexivity.
  Qed.

  Lemma cs_evolve_negative fuel u t0 tf h sd sf (o : csobj F U W m) w :
    tltb F (val tf) (val (padd F t0 h)) = false -> tltb F (val t0) (val tf) = true ->
    tleb F (tofZ F 0) (val h) = false -> (0 < fuel)%nat ->
    cs_evolve fuel u t0 tf h sd sf o w = (Exc AssertionError, cs_start u t0 tf sd o, w).
  Proof.
    intros E1 E2 E3 Hf. rewrite cs_evolve_unfold, E1.
    destruct fuel; [lia|]. cbn [cs_loop]. unfold cs_step. rewrite E3.
    unfold cs_start; destruct sd; cbn [c_tc c_tf]; rewrite E2; reflexivity.
  Qed.

  Lemma time_after_isnp t0 h k :
    isnp (time_after F t0 h k) = isnp t0 || (match k with O => false | _ => isnp h end).
  Proof.
    induction k as [|k IH]; [cbn; rewrite orb_false_r; reflexivity|].
    cbn [time_after padd isnp]. rewrite IH. destruct k; destruct (isnp t0), (isnp h); reflexivity.
  Qed.

  (** The progress report raises iff the step count is a multiple of 100, the end time is zero
      and all three arguments are plain Python numbers. *)
  Lemma progress_raises_spec t0 tf h k : (0 < k)%nat ->
    progress_raises F (Z.of_nat k) (time_after F t0 h k) tf =
    ((Z.of_nat k mod 100 =? 0)%Z && teqb F (val tf) (tofZ F 0)
     && negb (isnp t0 || isnp h || isnp tf)).
  Proof.
    intros Hk. unfold progress_raises. rewrite time_after_isnp. destruct k; [lia|]. reflexivity.
  Qed.

  (** If adding [h] does not change the time, evolve never returns (C19, C24). *)
  Lemma cs_evolve_stagnates fuel u t0 tf h sd sf (o : csobj F U W m) w :
    cs_never_raises m ->
    tltb F (val t0) (val tf) = true -> tltb F (val tf) (val (padd F t0 h)) = false ->
    tleb F (tofZ F 0) (val h) = true ->
    tadd F (val t0) (val h) = val t0 ->
    teqb F (val tf) (tofZ F 0) = false -> (sd = true -> sf <> 0%Z) ->
    exists o' w', cs_evolve fuel u t0 tf h sd sf o w = (Fuel, o', w').
  Proof.
    intros Hnr E1 E2 E3 E4 E5 E6. rewrite cs_evolve_unfold, E2.
    destruct (cs_loop fuel u h sd sf 0 (cs_start u t0 tf sd o) w) as [[r o'] w'] eqn:H.
    exists o', w'. apply cs_loop_trace in H.
    destruct H as (n & us & sts & ws & _ & _ & _ & _ & _ & _ & _ & _ & _ & _ & _ & _ & He).
    assert (Hstart : c_tc (cs_start u t0 tf sd o) = t0 /\ c_tf (cs_start u t0 tf sd o) = tf)
      by (unfold cs_start; destruct sd; auto).
    destruct Hstart as [S1 S2]. rewrite S1, S2 in He.
    assert (Hv : forall k, val (time_after F t0 h k) = val t0).
    { induction k as [|k IH]; [reflexivity|]. cbn [time_after padd val]. rewrite IH. exact E4. }
    unfold cs_ending in He. destruct r as [u'|e|]; [| |reflexivity].
    - rewrite Hv in He. destruct He as (_ & He & _). congruence.
    - destruct He as (_ & _ & He).
      destruct He as [[_ He]|[[_ (s & He & _)]|[_ (u1 & s1 & He & [Hp|[Hs Hz]])]]].
      + congruence.
      + destruct (Hnr (us n) (val h) (sts n) (ws n)) as (a & b & c & E). congruence.
      + unfold progress_raises in Hp. rewrite E5 in Hp. rewrite andb_false_r in Hp. discriminate.
      + elim (E6 Hs Hz).
  Qed.
End Generic.

(** ** Exact real arithmetic *)
(** Make the real operations visible. *)
Ltac rsimp :=
  change (tofZ Rops) with IZR in *; change (tadd Rops) with Rplus in *;
  change (tsub Rops) with Rminus in *; change (tmul Rops) with Rmult in *;
  change (tdiv Rops) with Rdiv in *.

Section Exact.
  Variables U W : Type.
  Variable m : csm (T Rops) U W.
  Local Open Scope R_scope.
  Notation PT := (pynum (T Rops)).

  Lemma Rltb_true x y : Rltb x y = true <-> x < y.
  Proof. unfold Rltb; destruct (Rlt_dec x y) as [H|H]; split; intros; try assumption; try reflexivity; try discriminate; lra. Qed.
  Lemma Rltb_false x y : Rltb x y = false <-> y <= x.
  Proof. unfold Rltb; destruct (Rlt_dec x y) as [H|H]; split; intros; try reflexivity; try discriminate; lra. Qed.
  Lemma Rleb_true x y : Rleb x y = true <-> x <= y.
  Proof. unfold Rleb; destruct (Rle_dec x y) as [H|H]; split; intros; try assumption; try reflexivity; try discriminate; lra. Qed.
  Lemma Rleb_false x y : Rleb x y = false <-> y < x.
  Proof. unfold Rleb; destruct (Rle_dec x y) as [H|H]; split; intros; try reflexivity; try discriminate; lra. Qed.
  Lemma Reqb_true x y : Reqb_ x y = true <-> x = y.
  Proof. unfold Reqb_; destruct (Req_EM_T x y) as [H|H]; split; intros; try assumption; try reflexivity; try discriminate; tauto. Qed.
  Lemma Reqb_false x y : Reqb_ x y = false <-> x <> y.
  Proof. unfold Reqb_; destruct (Req_EM_T x y) as [H|H]; split; intros; try assumption; try reflexivity; try discriminate; tauto. Qed.

  Lemma time_after_R (t0 h : PT) k : val (time_after Rops t0 h k) = val t0 + INR k * val h.
  Proof.
    induction k as [|k IH]; [cbn; lra|].
    rewrite S_INR. change (val (time_after Rops t0 h k) + val h = val t0 + (INR k + 1) * val h).
    rewrite IH. ring.
  Qed.

  Variable Phi : R -> U -> U.
  Variable Inv : cs_st m -> U -> Prop.

  Lemma chain_iterates h n us sts ws u :
    cs_memoryless m Phi Inv -> us 0%nat = u -> Inv (sts 0%nat) u ->
    cs_chain (F := Rops) m h n us sts ws ->
    forall k, (k <= n)%nat -> us k = Nat.iter k (Phi h) u /\ Inv (sts k) (us k).
  Proof.
    intros [_ HM] Hu Hi Hch. induction k as [|k IH]; intros Hk.
    - split; [exact Hu|rewrite Hu; exact Hi].
    - destruct IH as [I1 I2]; [lia|].
      destruct (HM (sts k) (us k) h (ws k) I2) as (s' & w' & E & I3).
      specialize (Hch k ltac:(lia)). rewrite E in Hch.
      injection Hch as J1 J2 J3. rewrite <- J1, <- J2.
      split; [cbn; rewrite I1; reflexivity|exact I3].
  Qed.

  (** The complete behaviour of a constant-step run in exact arithmetic (C17, C20). *)
  Lemma cs_evolve_exact fuel u (t0 tf h : PT) (f n : nat) (o : csobj Rops U W m) w :
    cs_memoryless m Phi Inv ->
    0 < val h -> val t0 + val h <= val tf ->
    val t0 + INR (n - 1) * val h < val tf <= val t0 + INR n * val h ->
    (val tf <> 0 \/ isnp t0 = true \/ isnp h = true \/ isnp tf = true \/ (n < 100)%nat) ->
    (1 <= f)%nat -> (n <= fuel)%nat ->
    exists o' w',
      cs_evolve (F := Rops) fuel u t0 tf h true (Z.of_nat f) o w
        = (Ret (Nat.iter n (Phi (val h)) u), o', w') /\
      val (c_tc o') = val t0 + INR n * val h /\
      map val (c_t o') = snapshots f n (fun k => val t0 + INR k * val h) /\
      c_u o' = snapshots f n (fun k => Nat.iter k (Phi (val h)) u) /\
      Inv (c_m o') (Nat.iter n (Phi (val h)) u).
  Proof.
    intros HM Hh Hfit Hn Hpr Hf Hfuel.
    rewrite cs_evolve_unfold.
    assert (E0 : tltb Rops (val tf) (val (padd Rops t0 h)) = false)
      by (apply Rltb_false; exact Hfit).
    rewrite E0.
    destruct (cs_loop fuel u h true (Z.of_nat f) 0 (cs_start u t0 tf true o) w) as [[r o'] w'] eqn:H.
    exists o', w'. apply cs_loop_trace in H.
    destruct H as (n' & us & sts & ws & Hu0 & Hs0 & Hw0 & Hch & Hn' & Hlt & Hh' & Hpr' & Hsf &
                   Htf & Ht & Hu & He).
    cbn [cs_start c_tc c_tf c_t c_u c_m] in Hs0, Hlt, Hpr', Htf, Ht, Hu, He.
    assert (Hit := chain_iterates HM Hu0
                     (eq_ind_r (fun s => Inv s u) (proj1 HM (c_m o) u) Hs0) Hch).
    (* the number of completed iterations never exceeds n *)
    assert (Hle : (n' <= n)%nat).
    { destruct (Nat.le_gt_cases n' n) as [|Hgt]; [assumption|exfalso].
      specialize (Hlt n Hgt). apply Rltb_true in Hlt. rewrite time_after_R in Hlt. lra. }
    assert (Hlast : (n' < n)%nat -> val t0 + INR n' * val h < val tf).
    { intros Hlt'. assert (INR n' <= INR (n - 1)) by (apply le_INR; lia).
      assert (INR n' * val h <= INR (n - 1) * val h) by (apply Rmult_le_compat_r; lra). lra. }
    unfold cs_ending in He. destruct r as [u'|e|].
    - destruct He as (E1 & E2 & E3 & E4 & E5).
      apply Rltb_false in E2. rewrite time_after_R in E2.
      assert (n' = n) by (destruct (Nat.lt_ge_cases n' n) as [Hl|]; [specialize (Hlast Hl); lra|lia]).
      subst n'.
      destruct (Hit n (Nat.le_refl n)) as [I1 I2].
      split; [rewrite E1, I1; reflexivity|].
      split; [rewrite E5; apply time_after_R|].
      split; [|split].
      + rewrite Ht, (due_multiples n Hf), map_app, map_map. cbn [map app].
        rewrite snapshots_cons. f_equal; [cbn; lra|].
        apply map_ext. intros a. apply time_after_R.
      + rewrite Hu, (due_multiples n Hf), snapshots_cons. cbn [app]. f_equal.
        rewrite !map_map. apply map_ext_in. intros j Hj. apply in_seq in Hj.
        apply (Hit (j * f)%nat).
        assert (j <= n / f)%nat by lia.
        assert (n / f * f <= n)%nat by (rewrite Nat.mul_comm; apply Nat.mul_div_le; lia). nia.
      + rewrite E3, <- I1. exact I2.
    - exfalso. destruct He as (E1 & E2 & E3).
      apply Rltb_true in E1. rewrite time_after_R in E1.
      assert (Hn'n : (n' < n)%nat).
      { destruct (Nat.lt_ge_cases n' n); [assumption|exfalso].
        assert (n' = n) by lia. subst n'. lra. }
      destruct E3 as [[_ E3]|[[_ (s & E3 & _)]|[_ (u1 & s1 & E3 & [Hp|[_ Hz]])]]].
      + apply Rleb_false in E3. rsimp. lra.
      + destruct (Hit n' (Nat.le_refl n')) as [_ I2].
        destruct (proj2 HM (sts n') (us n') (val h) (ws n') I2) as (s' & w1 & Eu & _).
        rewrite Eu in E3. discriminate.
      + rewrite Z.add_0_l, progress_raises_spec in Hp by lia.
        apply andb_prop in Hp. destruct Hp as [Hp P3]. apply andb_prop in Hp. destruct Hp as [P1 P2].
        apply Reqb_true in P2. apply Z.eqb_eq in P1.
        apply negb_true_iff, orb_false_iff in P3. destruct P3 as [P3 P4].
        apply orb_false_iff in P3. destruct P3 as [P3 P5].
        assert ((S n' < 100)%nat -> False).
        { intros Hs. rewrite Z.mod_small in P1 by lia. lia. }
        destruct Hpr as [Hpr|[Hpr|[Hpr|[Hpr|Hpr]]]]; [exact (Hpr P2)| | | |]; try congruence; lia.
      + lia.
    - exfalso. destruct He as (E1 & E2).
      apply Rltb_true in E2. rewrite time_after_R in E2.
      assert (n' = n) by lia. subst n'. rewrite H in E2. lra.
  Qed.

  (** With end time 0 and at least 100 steps to take, plain Python numbers make the progress
      report divide by zero (C22). *)
  Lemma cs_evolve_tf_zero fuel u (t0 tf h : PT) (f : nat) (o : csobj Rops U W m) w :
    cs_never_raises m ->
    val tf = 0 -> isnp t0 = false -> isnp h = false -> isnp tf = false ->
    0 < val h -> val t0 + INR 99 * val h < 0 -> (1 <= f)%nat -> (100 <= fuel)%nat ->
    exists o' w', cs_evolve (F := Rops) fuel u t0 tf h true (Z.of_nat f) o w
                  = (Exc ZeroDivisionError, o', w').
  Proof.
    intros Hnr Htf N1 N2 N3 Hh Ht0 Hf Hfuel.
    assert (H99 : INR 99 = 99) by (rewrite INR_IZR_INZ; reflexivity).
    rewrite cs_evolve_unfold.
    assert (E0 : tltb Rops (val tf) (val (padd Rops t0 h)) = false)
      by (apply Rltb_false; change (val t0 + val h <= val tf); rewrite Htf; rewrite H99 in Ht0; lra).
    rewrite E0.
    destruct (cs_loop fuel u h true (Z.of_nat f) 0 (cs_start u t0 tf true o) w) as [[r o'] w'] eqn:H.
    exists o', w'. apply cs_loop_trace in H.
    destruct H as (n & us & sts & ws & Hu0 & Hs0 & Hw0 & Hch & Hn' & Hlt & Hh' & Hpr' & Hsf &
                   Htf' & Ht & Hu & He).
    cbn [cs_start c_tc c_tf c_t c_u c_m] in Hpr', He.
    assert (Hn : (n < 100)%nat).
    { destruct (Nat.lt_ge_cases n 100) as [|Hge]; [assumption|exfalso].
      specialize (Hpr' 100%nat ltac:(lia)).
      rewrite Z.add_0_l, progress_raises_spec in Hpr' by lia.
      rewrite N1, N2, N3 in Hpr'. cbn [orb negb] in Hpr'.
      replace (teqb Rops (val tf) (tofZ Rops 0)) with true in Hpr'
        by (symmetry; apply Reqb_true; exact Htf).
      replace (Z.of_nat 100 mod 100 =? 0)%Z with true in Hpr' by reflexivity. discriminate. }
    assert (Hlast : val t0 + INR n * val h < 0).
    { assert (INR n <= INR 99) by (apply le_INR; lia).
      assert (INR n * val h <= INR 99 * val h) by (apply Rmult_le_compat_r; lra). lra. }
    unfold cs_ending in He. destruct r as [u'|e|].
    - destruct He as (_ & E2 & _). apply Rltb_false in E2.
      rewrite time_after_R, Htf in E2. lra.
    - destruct He as (_ & _ & E3).
      destruct E3 as [[_ E3]|[[_ (s & E3 & _)]|[E3 _]]].
      + apply Rleb_false in E3. rsimp. lra.
      + destruct (Hnr (us n) (val h) (sts n) (ws n)) as (a & b & c & E). congruence.
      + subst e. reflexivity.
    - lia.
  Qed.

  (** Zero step size (C19): no amount of fuel suffices. *)
  Lemma cs_evolve_h_zero fuel u (t0 tf h : PT) sd sf (o : csobj Rops U W m) w :
    cs_never_raises m -> val h = 0 -> val t0 < val tf -> val tf <> 0 -> (sd = true -> sf <> 0%Z) ->
    exists o' w', cs_evolve (F := Rops) fuel u t0 tf h sd sf o w = (Fuel, o', w').
  Proof.
    intros Hnr Hh Ht Hz Hs.
    apply cs_evolve_stagnates.
    - exact Hnr.
    - apply Rltb_true; exact Ht.
    - apply Rltb_false. change (val t0 + val h <= val tf). rewrite Hh. lra.
    - apply Rleb_true. rsimp. rewrite Hh. lra.
    - rsimp. rewrite Hh. apply Rplus_0_r.
    - apply Reqb_false. exact Hz.
    - exact Hs.
  Qed.

  Lemma INR_above (x : R) : exists n, x < INR n.
  Proof.
    destruct (archimed x) as [H _]. exists (Z.to_nat (up x)).
    destruct (Z.le_gt_cases 0 (up x)) as [Hz|Hz].
    - rewrite INR_IZR_INZ, Z2Nat.id by exact Hz. lra.
    - apply IZR_lt in Hz. assert (0 <= INR (Z.to_nat (up x))) by apply pos_INR. lra.
  Qed.

  (** The number of steps exists and is unique (so C17's hypothesis can always be met). *)
  Lemma steps_exist (t0 tf h : R) : 0 < h -> t0 + h <= tf ->
    exists n, (1 <= n)%nat /\ t0 + INR (n - 1) * h < tf <= t0 + INR n * h.
  Proof.
    intros Hh Hfit.
    assert (Hx : exists n, tf <= t0 + INR n * h).
    { destruct (INR_above ((tf - t0) / h)) as [n Hn]. exists n.
      apply (Rmult_lt_compat_r h) in Hn; [|exact Hh].
      unfold Rdiv in Hn. rewrite Rmult_assoc, Rinv_l, Rmult_1_r in Hn by lra. lra. }
    destruct Hx as [n Hn]. induction n as [|n IH].
    - change (INR 0) with 0 in Hn; lra.
    - destruct (Rle_lt_dec tf (t0 + INR n * h)) as [Hle|Hlt].
      + apply IH; exact Hle.
      + exists (S n). replace (S n - 1)%nat with n by lia. split; [lia|]. split; lra.
  Qed.
End Exact.
