(** * Runs in which small attempts are accepted

    If every attempt of size at most [hs] from the values of a run is accepted, the control loops do not fail for reasons of
    step size, and the accepted steps do not become small. *)

From Coq Require Import ZArith List Bool Reals Lra Lia Arith.
From Verif Require Import Scalars Control ControlCS ControlCSReal ControlAS ControlASReal SchemePartial ConvRuns.
Import ListNotations.
Local Open Scope R_scope.
Local Open Scope list_scope.

Set Implicit Arguments.

(** The exceptions by which the controller gives up. *)
Definition gives_up (e : exn) : Prop := e = MinimumStepReached \/ e = MaxLoopsExceeded.

Section Accepting.
  Variables U W : Type.
  Variable m : asm (T Rops) U W.
  Variable Phi : R -> U -> U * U.
  Variable good : R -> Prop.
  Variable Inv : bool -> as_st m -> U -> Prop.
  Variable k : consts (T Rops).
  Variable cfg : config (T Rops).
  Variable compute_s : U -> U -> exn + sval (T Rops).
  Hypothesis HM : as_sound1 m Phi good Inv.
  Hypothesis Hk : 0 < MIN_S k < 1 /\ 1 <= MAX_S k.
  Hypothesis Hcfg : valid_config cfg.
  (** Neither the stages nor the step size factor raise the exceptions of the controller. *)
  Hypothesis Hupd : forall acc u h s w e s' w', as_upd m acc u h s w = (inl e, s', w') -> ~ gives_up e.
  Hypothesis Hcs : forall a b e, compute_s a b = inl e -> ~ gives_up e.
  Notation obj := (asobj Rops U W m).
  Notation PT := (pynum (T Rops)).

  (** Attempts of size at most [hs] and [l] from [u] are accepted. *)
  Definition quick (hs l : R) (u : U) : Prop :=
    forall h, 0 < h <= hs -> h <= l -> good h -> exists x, compute_s (fst (Phi h u)) (snd (Phi h u)) = inr (SFin x) /\ 1 <= x.

  Variable hs : R.
  Hypothesis Hhs : 0 < hs.
  (** Factors of a rejection lie between [kap] and [the]. *)
  Let kap : R := Rmin (MIN_S k) (decr_f cfg).
  Let the : R := Rmax (MIN_S k) (decr_f cfg).
  Hypothesis Hmin : minh cfg <= kap * hs.

  Lemma kap_pos : 0 < kap.
  Proof. destruct Hcfg as (_ & _ & _ & _ & _ & Hm). destruct (Rlt_le_dec 0 kap) as [H|H]; [exact H|]. nra. Qed.
  Lemma the_range : kap <= the < 1.
  Proof.
    unfold kap, the. destruct Hcfg as (_ & _ & Hd & _). split.
    - apply Rle_trans with (MIN_S k); [apply Rmin_l|apply Rmax_l].
    - apply Rmax_lub_lt; lra.
  Qed.
  Lemma reject_range s (h : PT) : exists c, val (reject_size k cfg s h) = c * val h /\ kap <= c <= the.
  Proof.
    destruct (reject_size_factor k cfg s h) as (c & E & H). exists c. split; [exact E|]. unfold kap, the.
    destruct s as [x| | |].
    - destruct H as [_ [H1 H2]]. split; [exact H1|]. apply Rle_trans with (decr_f cfg); [exact H2|apply Rmax_r].
    - rewrite H. split; [apply Rmin_l|apply Rmax_l].
    - rewrite H. split; [apply Rmin_l|apply Rmax_l].
    - rewrite H. split; [apply Rmin_l|apply Rmax_l].
  Qed.

  (** One step. *)
  Lemma accept_step u (h : PT) (o : obj) w r o' w' : 0 < val h -> Inv (a_accept o) (a_m o) u -> quick hs (val h) u ->
    the ^ MAX_LOOPS k * val h <= hs ->
    as_step k cfg compute_s u h o w = (r, o', w') ->
    match r with
    | Ret (u1, h1, h2) => Rmin (val h) (kap * hs) <= val h1 /\ (h1 = h \/ kap * hs <= val h1)
    | Exc e => ~ gives_up e
    | Fuel => False
    end.
  Proof.
    intros Hh Hi Hq Hloops H. apply as_step_trace in H.
    destruct H as [(H & _)|(_ & n & hz & sts & ws & H0 & H1 & H2 & Hn & Hr & Hm & Hs & He)].
    { exfalso. assert (X : tleb Rops (tofZ Rops 0) (val h) = true) by (apply Rleb_true; rsimp; lra). rewrite X in H. discriminate. }
    assert (K := kap_pos). assert (TH := the_range).
    assert (Small : forall j acc s wl (h' : PT) s' wl', Inv acc s u -> 0 < val (hz j) <= val h ->
       as_rejected (m := m) k cfg compute_s acc u (hz j) s wl h' s' wl' ->
       hs < val (hz j) /\ Inv false s' u /\ exists c, val h' = c * val (hz j) /\ kap <= c <= the).
    { intros j acc s wl h' s' wl' Hinv Hp (unew & err & sv & E1 & E2 & E3 & E4).
      assert (X := proj2 HM acc s u (val (hz j)) wl Hinv). rewrite E1 in X. destruct X as (X1 & X2 & X3 & _).
      split; [|split; [exact X3|rewrite E4; apply reject_range]].
      apply Rnot_le_lt. intros Hle. destruct (Hq (val (hz j)) (conj (proj1 Hp) Hle) (proj2 Hp) X1) as (x & Ex & Hx).
      rewrite <- X2 in Ex. cbn [fst snd] in Ex. rewrite E2 in Ex. injection Ex as ->. cbn [accepts] in E3.
      replace (tltb Rops x (tofZ Rops 1)) with false in E3 by (symmetry; apply Rltb_false; exact Hx). discriminate. }
    assert (Main : forall j, (j <= n)%nat -> Inv (acc_at (a_accept o) j) (sts j) u /\ 0 < val (hz j) <= the ^ j * val h /\ val (hz j) <= val h /\
                     (j = 0%nat \/ kap * hs <= val (hz j))).
    { induction j as [|j IH]; intros Hj.
      - rewrite H0, H1. cbn [acc_at pow]. split; [exact Hi|]. split; [lra|]. split; [lra|left; reflexivity].
      - destruct (IH ltac:(lia)) as (I1 & I2 & I3 & I4).
        destruct (Small j _ _ _ _ _ _ I1 (conj (proj1 I2) I3) (Hr j ltac:(lia))) as (S1 & S2 & c & S3 & S4).
        rewrite S3. cbn [acc_at]. split; [exact S2|]. split; [split|split].
        + apply Rmult_lt_0_compat; lra.
        + cbn [pow]. rewrite Rmult_assoc. apply Rmult_le_compat; lra.
        + apply Rle_trans with (1 * val (hz j)); [apply Rmult_le_compat_r; lra|lra].
        + right. apply Rmult_le_compat; lra. }
    destruct (Main n (Nat.le_refl n)) as (M1 & M2 & M3 & M4).
    destruct r as [[[u1 h1] h2]|e|]; [| |exact He].
    - destruct He as (E1 & _). rewrite E1. destruct M4 as [->|M4].
      + rewrite H0. split; [apply Rmin_l|left; reflexivity].
      + split; [apply Rle_trans with (kap * hs); [apply Rmin_r|exact M4]|right; exact M4].
    - destruct He as [[E _]|[(unew & err & _ & E & _)|(h' & Hrej & _ & E)]]; [eapply Hupd; exact E|eapply Hcs; exact E|]. intros _.
      destruct (Small n _ _ _ _ _ _ M1 (conj (proj1 M2) M3) Hrej) as (S1 & _ & c & S3 & S4).
      destruct E as [[_ E]|(_ & _ & E)].
      + rewrite Nat.add_0_r in E. subst n. rsimp. lra.
      + apply Rltb_true in E. rsimp. rewrite S3 in E. assert (kap * hs <= c * val (hz n)) by (apply Rmult_le_compat; lra). lra.
  Qed.

  (** A run that records every step. *)
  Variable near : R -> U -> Prop.
  Theorem accept_run fuel u (t0 tf : PT) hi (o : obj) w r o' w' :
    (forall t v, near t v -> t < val tf -> quick hs (val tf - t) v) ->
    val t0 < val tf -> match hi with Some h => 0 < val h | None => True end ->
    the ^ MAX_LOOPS k * (val tf - val t0) <= hs ->
    as_evolve k cfg compute_s fuel u t0 tf hi true 1 o w = (r, o', w') ->
    Forall2 near (map val (a_t o')) (a_u o') ->
    let eta := Rmin (h0_of (val t0) (val tf) hi) (kap * hs) in
    (forall e, r = Exc e -> ~ gives_up e) /\
    (forall j, (S (S j) < length (a_t o'))%nat -> eta <= nth (S j) (map val (a_t o')) 0 - nth j (map val (a_t o')) 0) /\
    (val tf - val t0 < INR fuel * eta -> r <> Fuel).
  Proof.
    intros Hq Ht Hh Hloops H Hnear eta.
    assert (H0 : 0 < h0_of (val t0) (val tf) hi) by (destruct hi; [exact Hh|change (0 < (val tf - val t0) / 100); lra]).
    assert (K := kap_pos). assert (TH := the_range).
    assert (Heta : 0 < eta) by (apply Rmin_glb_lt; [exact H0|apply Rmult_lt_0_compat; assumption]).
    rewrite as_evolve_unfold in H. apply as_loop_trace in H.
    destruct H as (n & us & os & ws & hin & hacc & hsug & tau & Hu0 & Ho0 & Hw0 & Hh0 & Ht0 &
                       Hch & Hn & Hlt' & Hpr' & Hsf' & Htf' & Ht' & Hu' & Hend).
    destruct (start_times u t0 tf true o) as (S1 & S2 & S3). rewrite S1, S2, ?S3 in *.
    assert (I := chain_invariant Hk Hcfg hi Ht H0 Ht0 Hh0 Hch Hlt').
    assert (P := chain_progress Hk Hcfg hi Ht H0 Ht0 Hh0 Hch Hlt').
    (* the recorded values are those of the steps *)
    assert (Et : map val (a_t o') = map (fun j => val (tau j)) (seq 0 (S n))).
    { rewrite Ht', due_1, map_app, map_map. cbn [app map]. rewrite <- cons_seq. cbn [map]. rewrite Ht0. reflexivity. }
    assert (Eu : a_u o' = map us (seq 0 (S n))).
    { rewrite Hu', due_1. unfold as_start. cbn [a_u app]. rewrite <- cons_seq. cbn [map]. rewrite Hu0. reflexivity. }
    assert (Nj : forall j, (j <= n)%nat -> near (val (tau j)) (us j)).
    { rewrite Et, Eu in Hnear. intros j Hj.
      assert (G : forall l, Forall2 near (map (fun j => val (tau j)) l) (map us l) -> forall i, In i l -> near (val (tau i)) (us i)).
      { clear. induction l as [|a l IH]; intros HF i Hi; [destruct Hi|]. cbn [map] in HF. inversion HF; subst. destruct Hi as [<-|Hi]; auto. }
      apply (G _ Hnear). apply in_seq. lia. }
    assert (T0 : forall j, (j <= n)%nat -> val t0 <= val (tau j)).
    { induction j as [|j IH]; intros Hj; [rewrite Ht0; lra|]. destruct (P j ltac:(lia)) as [[P1 _] _]. specialize (IH ltac:(lia)). lra. }
    assert (Hinpos : forall j, (j <= n)%nat -> val (tau j) < val tf -> 0 < val (hin j) <= val tf - val (tau j)).
    { intros j Hj Hl. destruct (I j Hj) as [_ [E|[E1 E2]]]; [lra|]. split; [|exact E2].
      eapply Rlt_le_trans; [|exact E1]. destruct Hcfg as (_ & _ & _ & _ & _ & Hm). apply Rmin_glb_lt; assumption. }
    assert (LQ : forall j, (j <= n)%nat -> val (tau j) < val tf -> quick hs (val (hin j)) (us j) /\ the ^ MAX_LOOPS k * val (hin j) <= hs).
    { intros j Hj Hl. destruct (Hinpos j Hj Hl) as [A1 A2]. split.
      - intros h B1 B2. apply (Hq (val (tau j)) (us j) (Nj j Hj) Hl h B1). rsimp. lra.
      - eapply Rle_trans; [|exact Hloops]. apply Rmult_le_compat_l; [apply pow_le; lra|]. specialize (T0 j Hj). rsimp. lra. }
    assert (Invs : forall j, (j <= n)%nat -> Inv (a_accept (os j)) (a_m (os j)) (us j)).
    { induction j as [|j IH]; intros Hj; [rewrite Ho0, Hu0; apply (proj1 HM)|].
      specialize (IH ltac:(lia)). destruct (Hch j ltac:(lia)) as ((o1 & E & Ea & Em) & _).
      unfold as_step in E. destruct (tleb Rops (tofZ Rops 0) (val (hin j))); [|discriminate].
      destruct (as_step_ret k cfg compute_s HM _ _ _ _ _ _ IH E) as (_ & _ & G2). rewrite Ea, Em. exact G2. }
    assert (Lt : forall j, (j < n)%nat -> val (tau j) < val tf) by (intros j Hj; apply Rltb_true; apply Hlt'; exact Hj).
    assert (Times : forall j, (j < n)%nat -> val (tau (S j)) = val (tau j) + val (hacc j)).
    { intros j Hj. destruct (Hch j Hj) as (_ & E & _). rewrite E. reflexivity. }
    (* proposed sizes *)
    assert (In : forall j, (j <= n)%nat -> val (hin j) = val tf - val (tau j) \/ eta <= val (hin j)).
    { induction j as [|j IH]; intros Hj.
      - rewrite Ht0, Hh0. unfold h_start. rewrite clamp_R.
        match goal with |- context [Rmin (val ?a) _] => set (hh := a) end.
        assert (Ehh : val hh = h0_of (val t0) (val tf) hi) by (unfold hh; destruct hi; reflexivity). rewrite Ehh.
        set (x := h0_of (val t0) (val tf) hi) in *. destruct (Rle_dec x (val tf - val t0)); [|left; apply Rmin_right; lra].
        right. rewrite (Rmin_left x (val tf - val t0)) by lra. apply Rmin_l.
      - assert (Hj' : (j < n)%nat) by lia. specialize (IH ltac:(lia)). destruct (Hch j Hj') as ((o1 & Es & _) & Et' & Eh).
        assert (C := @as_step_contract _ _ _ _ _ _ Hk Hcfg _ _ _ _ _ _ _ _ _ Es). destruct C as (_ & C2 & C3 & C4 & _).
        destruct (LQ j ltac:(lia) (Lt j Hj')) as [Q1 Q2].
        assert (A := accept_step (hin j) (os j) (ws j) (proj1 (Hinpos j ltac:(lia) (Lt j Hj'))) (Invs j ltac:(lia)) Q1 Q2 Es). cbn beta iota in A.
        destruct A as [_ A2]. destruct (Hinpos j ltac:(lia) (Lt j Hj')) as [B1 B2].
        rewrite Eh, clamp_R, (Times j Hj').
        match goal with |- Rmin ?a ?b = _ \/ _ => destruct (Rle_dec a b) as [Hc|Hc]; [|left; apply Rmin_right; rsimp; lra]; rewrite (Rmin_left a b Hc) end.
        destruct A2 as [E|A2].
        + rewrite E in C4, Hc. destruct IH as [IH|IH]; [|right; rsimp; lra]. left. rsimp. lra.
        + right. apply Rle_trans with (kap * hs); [apply Rmin_r|rsimp; lra]. }
    assert (Gap : forall j, (S j < n)%nat -> eta <= val (hacc j)).
    { intros j Hj. destruct (LQ j ltac:(lia) (Lt j ltac:(lia))) as [Q1 Q2]. destruct (Hch j ltac:(lia)) as ((o1 & Es & _) & _).
      assert (A := accept_step (hin j) (os j) (ws j) (proj1 (Hinpos j ltac:(lia) (Lt j ltac:(lia)))) (Invs j ltac:(lia)) Q1 Q2 Es). cbn beta iota in A.
      destruct A as [_ A2]. destruct A2 as [E|A2]; [|apply Rle_trans with (kap * hs); [apply Rmin_r|exact A2]].
      destruct (In j ltac:(lia)) as [E2|E2]; [|rewrite E; exact E2]. exfalso.
      assert (X := Times j ltac:(lia)). rewrite E, E2 in X. assert (Y := Lt (S j) Hj). rsimp. lra. }
    split; [|split].
    - intros e ->. destruct Hend as (E1 & _ & [(o1 & Es)|(-> & _)]).
      + apply Rltb_true in E1. destruct (LQ n (Nat.le_refl n) E1) as [Q1 Q2].
        exact (accept_step (hin n) (os n) (ws n) (proj1 (Hinpos n (Nat.le_refl n) E1)) (Invs n (Nat.le_refl n)) Q1 Q2 Es).
      + intros [X|X]; discriminate.
    - intros j Hj. assert (HL : length (a_t o') = S n).
      { rewrite <- (map_length val), Et, map_length, seq_length. reflexivity. }
      rewrite HL in Hj. rewrite Et.
      set (tv := (fun j => val (tau j)) : nat -> R).
      assert (V : forall i, (i <= n)%nat -> nth i (map tv (seq 0 (S n))) 0 = tv i).
      { intros i Hi. rewrite (nth_indep _ 0 (tv 0%nat)) by (rewrite map_length, seq_length; lia).
        rewrite (map_nth tv (seq 0 (S n)) 0%nat i), seq_nth by lia. reflexivity. }
      change (map (fun j => val (tau j)) (seq 0 (S n))) with (map tv (seq 0 (S n))).
      rewrite !V by lia. unfold tv. rewrite (Times j ltac:(lia)). assert (G := Gap j ltac:(lia)). rsimp. lra.
    - intros Hf ->. destruct Hend as [-> Hend]. apply Rltb_true in Hend.
      assert (G : forall j, (j <= fuel)%nat -> val (tau j) < val tf -> val t0 + INR j * eta <= val (tau j)).
      { induction j as [|j IH]; intros Hj Hl; [rewrite Ht0; cbn; lra|]. rewrite S_INR, (Times j ltac:(lia)).
        specialize (IH ltac:(lia) (Lt j ltac:(lia))). assert (X : eta <= val (hacc j)); [|rsimp; lra].
        destruct (LQ j ltac:(lia) (Lt j ltac:(lia))) as [Q1 Q2]. destruct (Hch j ltac:(lia)) as ((o1 & Es & _) & _).
        assert (A := accept_step (hin j) (os j) (ws j) (proj1 (Hinpos j ltac:(lia) (Lt j ltac:(lia)))) (Invs j ltac:(lia)) Q1 Q2 Es). cbn beta iota in A.
        destruct A as [_ A2]. destruct A2 as [E|A2]; [|apply Rle_trans with (kap * hs); [apply Rmin_r|exact A2]].
        destruct (In j ltac:(lia)) as [E2|E2]; [|rewrite E; exact E2]. exfalso.
        assert (X := Times j ltac:(lia)). rewrite E, E2 in X. rsimp. lra. }
      specialize (G fuel (Nat.le_refl _) Hend). rsimp. lra.
  Qed.
End Accepting.
