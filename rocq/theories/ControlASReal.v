(** * Adaptive stepping in exact real arithmetic *)

From Coq Require Import ZArith List Bool Lia Reals Lra Sorted.
From Verif Require Import Scalars Control ControlCS ControlCSReal ControlAS.
Import ListNotations.

Set Implicit Arguments.
Local Open Scope R_scope.

Notation RT := (pynum (T Rops)).

(** The values of the class constants actually used (rkstiff/solveras.py:255-257). *)
Definition the_consts : consts (T Rops) := mk_consts 50 4 (1/4).

(** What the setters of [SolverConfig] enforce on ordinary numbers (solveras.py:100-169);
    derived from the model of the setters in [Config.v]. *)
Definition valid_config (c : config (T Rops)) : Prop :=
  0 < epsilon c /\ 1 < incr_f c /\ decr_f c < 1 /\ safety_f c <= 1 /\ adapt_cutoff c < 1 /\ 0 < minh c.

Lemma tisnan_R x : tisnan Rops x = false.
Proof. apply negb_false_iff. apply Reqb_true. reflexivity. Qed.

Lemma npmax_R x y : npmax Rops x y = Rmax x y.
Proof.
  unfold npmax. rewrite !tisnan_R. destruct (tltb Rops x y) eqn:E.
  - apply Rltb_true in E. symmetry. apply Rmax_right. lra.
  - apply Rltb_false in E. symmetry. apply Rmax_left. lra.
Qed.

Lemma npmin_R x y : npmin Rops x y = Rmin x y.
Proof.
  unfold npmin. rewrite !tisnan_R. destruct (tltb Rops y x) eqn:E.
  - apply Rltb_true in E. symmetry. apply Rmin_right. lra.
  - apply Rltb_false in E. symmetry. apply Rmin_left. lra.
Qed.

Section Sizes.
  Variable k : consts (T Rops).
  Variable cfg : config (T Rops).

  (** A rejection scales the step by a factor determined by the estimate (C04). *)
  Lemma reject_size_factor s (h : RT) :
    exists c, val (reject_size k cfg s h) = c * val h /\
      match s with
      | SFin x => c = Rmin (Rmax x (MIN_S k)) (decr_f cfg) /\
                  Rmin (MIN_S k) (decr_f cfg) <= c <= decr_f cfg
      | _ => c = MIN_S k
      end.
  Proof.
    destruct s as [x| | |]; try (eexists; split; reflexivity).
    exists (Rmin (Rmax x (MIN_S k)) (decr_f cfg)). split.
    - unfold reject_size. cbn [val]. rewrite npmax_R, npmin_R. reflexivity.
    - split; [reflexivity|]. split; [|apply Rmin_r].
      apply Rle_min_compat_r, Rmax_r.
  Qed.

  Lemma accept_size_factor x (h : RT) : 1 <= x -> 1 <= MAX_S k -> 1 <= incr_f cfg ->
    exists c, val (accept_size k cfg x h) = c * val h /\ 1 <= c <= MAX_S k /\
              c = (if Rlt_dec (incr_f cfg) (Rmin x (MAX_S k)) then Rmin x (MAX_S k) else 1).
  Proof.
    intros Hx Hs Hi. unfold accept_size. rewrite npmin_R.
    destruct (tltb Rops (incr_f cfg) (Rmin x (MAX_S k))) eqn:E.
    - apply Rltb_true in E. exists (Rmin x (MAX_S k)).
      destruct (Rlt_dec (incr_f cfg) (Rmin x (MAX_S k))); [|contradiction].
      split; [reflexivity|]. split; [|reflexivity]. split; [|apply Rmin_r]. lra.
    - apply Rltb_false in E. exists 1.
      destruct (Rlt_dec (incr_f cfg) (Rmin x (MAX_S k))); [lra|].
      split; [lra|]. split; [lra|reflexivity].
  Qed.
End Sizes.

Section Exact.
  Variables U W : Type.
  Variable m : asm (T Rops) U W.
  Variable k : consts (T Rops).
  Variable cfg : config (T Rops).
  Variable compute_s : U -> U -> exn + sval (T Rops).
  Hypothesis Hk : 0 < MIN_S k < 1 /\ 1 <= MAX_S k.
  Hypothesis Hcfg : valid_config cfg.
  Notation obj := (asobj Rops U W m).

  Lemma rejections_decrease acc0 u n hs sts ws :
    as_rejections (m := m) k cfg compute_s acc0 u n hs sts ws ->
    0 <= val (hs 0%nat) ->
    (forall j, (0 < j <= n)%nat -> tltb Rops (val (hs j)) (minh cfg) = false) ->
    forall j, (j <= n)%nat -> 0 <= val (hs j) <= val (hs 0%nat) /\
                       (hs j = hs 0%nat \/ minh cfg <= val (hs j)).
  Proof.
    intros Hr H0 Hm. destruct Hcfg as (_ & _ & Hd & _ & _ & Hmh).
    induction j as [|j IH]; intros Hj; [split; [lra|left; reflexivity]|].
    destruct IH as [[I1 I2] _]; [lia|].
    destruct (Hr j ltac:(lia)) as (unew & err & sv & _ & _ & _ & E).
    assert (Hge : minh cfg <= val (hs (S j))).
    { apply Rltb_false. apply Hm. lia. }
    split; [|right; exact Hge]. split; [lra|].
    rewrite E. destruct (reject_size_factor k cfg sv (hs j)) as (c & Ec & Hc).
    rewrite Ec in *.
    assert (c <= 1).
    { destruct sv; [destruct Hc as [_ Hc]; lra| | |]; rewrite Hc; lra. }
    apply Rle_trans with (1 * val (hs j)); [apply Rmult_le_compat_r; lra|lra].
  Qed.

  (** The contract of a returning step (C03). *)
  Lemma as_step_contract u (h : RT) (o : obj) w u1 h1 h2 o' w' :
    as_step k cfg compute_s u h o w = (Ret (u1, h1, h2), o', w') ->
    0 <= val h /\
    (h1 = h \/ minh cfg <= val h1) /\ 0 <= val h1 <= val h /\
    val h1 <= val h2 <= MAX_S k * val h1 /\ a_accept o' = true /\
    exists acc s wl err x,
      as_upd m acc u (val h1) s wl = (inr (u1, err), a_m o', w') /\
      compute_s u1 err = inr (SFin x) /\ 1 <= x.
  Proof.
    intros H. apply as_step_trace in H.
    destruct H as [(_ & H & _)|(Hh & n & hs & sts & ws & H0 & H1 & H2 & Hn & Hr & Hm & Hs & He)];
      [discriminate|].
    apply Rleb_true in Hh. rsimp.
    destruct He as (E1 & E2 & err & x & E3 & E4 & E5 & E6).
    assert (Hd := rejections_decrease Hr ltac:(rewrite H0; exact Hh) Hm (Nat.le_refl n)).
    rewrite H0 in Hd. rewrite <- E1 in Hd. destruct Hd as [D1 D2].
    apply Rltb_false in E5. rsimp.
    destruct (accept_size_factor k cfg h1 E5 (proj2 Hk)) as (c & Ec & Hc & _).
    { destruct Hcfg as (_ & Hi & _). lra. }
    split; [exact Hh|]. split; [exact D2|]. split; [exact D1|].
    split.
    { rewrite E6, Ec. split.
      - apply Rle_trans with (1 * val h1); [lra|]. apply Rmult_le_compat_r; lra.
      - apply Rmult_le_compat_r; lra. }
    split; [exact E2|]. exists (acc_at (a_accept o) n), (sts n), (ws n), err, x. auto.
  Qed.

  (** ** evolve *)

  Definition eta (h0 : R) : R := Rmin h0 (minh cfg).

  (** Initial step before clamping. *)
  Definition h0_of (t0 tf : R) (hi : option RT) : R :=
    match hi with Some h => val h | None => (tf - t0) / 100 end.

  Lemma clamp_R (tf tc hs : RT) :
    val (clamp (F := Rops) tf tc hs) = Rmin (val hs) (val tf - val tc).
  Proof.
    unfold clamp. destruct (tltb Rops (val tf) (val (padd Rops tc hs))) eqn:E.
    - apply Rltb_true in E. change (val tf < val tc + val hs) in E.
      change (val tf - val tc = Rmin (val hs) (val tf - val tc)).
      symmetry. apply Rmin_right. lra.
    - apply Rltb_false in E. change (val tc + val hs <= val tf) in E.
      symmetry. apply Rmin_left. lra.
  Qed.

  (** Invariant of the accepted steps: the proposed step stays inside the interval, and is
      either the whole remaining interval or not smaller than [eta]. *)
  Lemma chain_invariant (t0 tf : RT) hi n us os ws hin hacc hsug tau :
    val t0 < val tf -> 0 < h0_of (val t0) (val tf) hi ->
    tau 0%nat = t0 -> hin 0%nat = h_start t0 tf hi ->
    as_chain (m := m) k cfg compute_s tf n us os ws hin hacc hsug tau ->
    (forall j, (j < n)%nat -> tltb Rops (val (tau j)) (val tf) = true) ->
    forall j, (j <= n)%nat ->
      val (tau j) <= val tf /\
      (val (hin j) = val tf - val (tau j) \/
       (eta (h0_of (val t0) (val tf) hi) <= val (hin j) <= val tf - val (tau j))).
  Proof.
    intros Ht Hh T0 H0 Hch Hlt. unfold eta.
    destruct Hcfg as (_ & Hi & Hd & _ & _ & Hmh).
    induction j as [|j IH]; intros Hj.
    - rewrite T0, H0. unfold h_start. rewrite clamp_R.
      match goal with |- context [Rmin (val ?a) _] => set (hh := a) end.
      assert (Ehh : val hh = h0_of (val t0) (val tf) hi) by (unfold hh; destruct hi; reflexivity).
      rewrite Ehh. split; [lra|]. set (x := h0_of (val t0) (val tf) hi) in *.
      destruct (Rle_dec x (val tf - val t0)); [|left; apply Rmin_right; lra].
      right. rewrite (Rmin_left x (val tf - val t0)) by lra. split; [apply Rmin_l|lra].
    - destruct IH as [I1 I2]; [lia|].
      destruct (Hch j ltac:(lia)) as ((o1 & Es & _) & Et & Eh).
      assert (L := Hlt j ltac:(lia)). apply Rltb_true in L.
      apply as_step_contract in Es.
      destruct Es as (C1 & C2 & C3 & C4 & _).
      set (x := h0_of (val t0) (val tf) hi) in *.
      assert (Hle : val (hin j) <= val tf - val (tau j)) by (destruct I2; lra).
      assert (ET : val (tau (S j)) = val (tau j) + val (hacc j)) by (rewrite Et; reflexivity).
      split; [lra|].
      rewrite Eh, clamp_R.
      destruct (Rle_dec (val (hsug j)) (val tf - val (tau (S j)))) as [Hc|Hc];
        [|left; apply Rmin_right; lra].
      rewrite (Rmin_left (val (hsug j)) (val tf - val (tau (S j)))) by lra.
      destruct C2 as [C2|C2].
      + (* accepted at first attempt *)
        rewrite C2 in *. destruct I2 as [I2|I2]; [|right; lra].
        left. lra.
      + right. split; [|lra]. apply Rle_trans with (minh cfg); [apply Rmin_r|lra].
  Qed.

  (** Every step that is not the last one advances by at least [eta]. *)
  Lemma chain_progress (t0 tf : RT) hi n us os ws hin hacc hsug tau :
    val t0 < val tf -> 0 < h0_of (val t0) (val tf) hi ->
    tau 0%nat = t0 -> hin 0%nat = h_start t0 tf hi ->
    as_chain (m := m) k cfg compute_s tf n us os ws hin hacc hsug tau ->
    (forall j, (j < n)%nat -> tltb Rops (val (tau j)) (val tf) = true) ->
    forall j, (j < n)%nat -> val (tau j) < val (tau (S j)) <= val tf /\
      (val (tau (S j)) = val tf \/ val (tau j) + eta (h0_of (val t0) (val tf) hi) <= val (tau (S j))).
  Proof.
    intros Ht Hh T0 H0 Hch Hlt j Hj.
    assert (I := chain_invariant hi Ht Hh T0 H0 Hch Hlt).
    destruct (I j ltac:(lia)) as [I1 I2]. destruct (I (S j) ltac:(lia)) as [I3 _].
    assert (L := Hlt j Hj). apply Rltb_true in L.
    destruct (Hch j Hj) as ((o1 & Es & _) & Et & _).
    apply as_step_contract in Es. destruct Es as (C1 & C2 & C3 & _).
    assert (ET : val (tau (S j)) = val (tau j) + val (hacc j)) by (rewrite Et; reflexivity).
    destruct Hcfg as (_ & _ & _ & _ & _ & Hmh).
    assert (He : 0 < eta (h0_of (val t0) (val tf) hi)) by (apply Rmin_pos; assumption).
    assert (He2 : eta (h0_of (val t0) (val tf) hi) <= minh cfg) by apply Rmin_r.
    destruct C2 as [C2|C2].
    - rewrite C2 in *. destruct I2 as [I2|I2]; (split; [split; lra|]); [left|right]; lra.
    - split; [split; lra|]. right; lra.
  Qed.

  (** Telescoping: after [n] steps which did not reach the end, at least [n * eta] elapsed. *)
  Lemma chain_elapsed (t0 tf : RT) hi n us os ws hin hacc hsug tau :
    val t0 < val tf -> 0 < h0_of (val t0) (val tf) hi ->
    tau 0%nat = t0 -> hin 0%nat = h_start t0 tf hi ->
    as_chain (m := m) k cfg compute_s tf n us os ws hin hacc hsug tau ->
    (forall j, (j < n)%nat -> tltb Rops (val (tau j)) (val tf) = true) ->
    val (tau n) = val tf \/ val t0 + INR n * eta (h0_of (val t0) (val tf) hi) <= val (tau n).
  Proof.
    intros Ht Hh T0 H0 Hch Hlt.
    assert (P := chain_progress hi Ht Hh T0 H0 Hch Hlt).
    assert (G : forall j, (j <= n)%nat ->
              val (tau j) = val tf \/ val t0 + INR j * eta (h0_of (val t0) (val tf) hi) <= val (tau j)).
    { induction j as [|j IH]; intros Hj; [right; rewrite T0; change (INR 0) with 0; lra|].
      destruct (P j ltac:(lia)) as [P1 P2]. destruct P2 as [P2|P2]; [left; exact P2|].
      assert (L := Hlt j ltac:(lia)). apply Rltb_true in L.
      destruct IH as [IH|IH]; [lia|lra|]. right. rewrite S_INR. lra. }
    apply G. lia.
  Qed.

  Lemma start_times u (t0 tf : RT) sd (o : obj) :
    a_tc (as_start u t0 tf sd o) = t0 /\ a_tf (as_start u t0 tf sd o) = tf /\
    a_t (as_start u t0 tf sd o) = (if sd then [t0] else []).
  Proof. unfold as_start. destruct sd; auto. Qed.

  (** Termination (C02): with fuel exceeding [(tf - t0) / eta] evolve never runs out. *)
  Lemma as_evolve_terminates fuel u (t0 tf : RT) hi sd sf (o : obj) w r o' w' :
    (val t0 < val tf -> 0 < h0_of (val t0) (val tf) hi) ->
    val tf - val t0 < INR fuel * eta (h0_of (val t0) (val tf) hi) ->
    as_evolve k cfg compute_s fuel u t0 tf hi sd sf o w = (r, o', w') -> r <> Fuel.
  Proof.
    intros Hh Hf H ->. rewrite as_evolve_unfold in H. apply as_loop_trace in H.
    destruct H as (n & us & os & ws & hin & hacc & hsug & tau & Hu0 & Ho0 & Hw0 & Hh0 & Ht0 &
                       Hch & Hn & Hlt' & Hpr' & Hsf' & Htf' & Ht' & Hu' & Hend).
    destruct (start_times u t0 tf sd o) as (S1 & S2 & _). rewrite S1, S2 in *.
    destruct Hend as [-> Hend]. apply Rltb_true in Hend.
    destruct (Rlt_le_dec (val t0) (val tf)) as [Ht|Ht].
    2:{ destruct fuel as [|fuel]; [rewrite Ht0 in Hend; lra|].
        specialize (Hlt' 0%nat ltac:(lia)). apply Rltb_true in Hlt'. rewrite Ht0 in Hlt'. lra. }
    assert (G := chain_elapsed hi Ht (Hh Ht) Ht0 Hh0 Hch Hlt').
    destruct G as [G|G]; [lra|]. lra.
  Qed.

  Lemma enough_fuel (t0 tf : R) e : 0 < e -> exists fuel, tf - t0 < INR fuel * e.
  Proof.
    intros He. destruct (INR_above ((tf - t0) / e)) as [n Hn]. exists n.
    apply (Rmult_lt_compat_r e) in Hn; [|exact He].
    unfold Rdiv in Hn. rewrite Rmult_assoc, Rinv_l, Rmult_1_r in Hn by lra. exact Hn.
  Qed.

  (** Sum of the accepted steps. *)
  Fixpoint sum_steps (hacc : nat -> RT) (n : nat) : R :=
    match n with O => 0 | S n => sum_steps hacc n + val (hacc n) end.

  (** Landing (C01): a returning run ends exactly at [tf]; the times strictly increase. *)
  Lemma as_evolve_lands fuel u (t0 tf : RT) hi sd sf (o : obj) w u' o' w' :
    val t0 < val tf -> 0 < h0_of (val t0) (val tf) hi ->
    as_evolve k cfg compute_s fuel u t0 tf hi sd sf o w = (Ret u', o', w') ->
    exists n us os ws hin hacc hsug tau,
      us 0%nat = u /\ us n = u' /\ tau 0%nat = t0 /\ ws 0%nat = w /\
      a_m (os 0%nat) = as_reset m (a_m o) /\ a_accept (os 0%nat) = false /\
      as_chain k cfg compute_s tf n us os ws hin hacc hsug tau /\
      (1 <= n)%nat /\
      val t0 + sum_steps hacc n = val tf /\ val (tau n) = val tf /\ val (a_tc o') = val tf /\
      (forall j, (j < n)%nat -> val (tau j) < val (tau (S j))) /\
      (forall j, (j < n)%nat -> val (tau j) < val tf) /\
      (forall j, (j < n)%nat -> 0 < val (hacc j)) /\
      a_t o' = (if sd then [t0] else []) ++ map tau (due sd sf 0 n).
  Proof.
    intros Ht Hh H. rewrite as_evolve_unfold in H. apply as_loop_trace in H.
    destruct H as (n & us & os & ws & hin & hacc & hsug & tau & Hu0 & Ho0 & Hw0 & Hh0 & Ht0 &
                       Hch & Hn & Hlt' & Hpr' & Hsf' & Htf' & Ht' & Hu' & Hend).
    destruct (start_times u t0 tf sd o) as (S1 & S2 & S3). rewrite S1, S2, ?S3 in *.
    destruct Hend as (E1 & E2 & E3 & E4 & E5 & E6).
    apply Rltb_false in E2.
    assert (P := chain_progress hi Ht Hh Ht0 Hh0 Hch Hlt').
    destruct (chain_invariant hi Ht Hh Ht0 Hh0 Hch Hlt' (Nat.le_refl n)) as [I1 _].
    assert (Hend : val (tau n) = val tf) by lra.
    exists n, us, os, ws, hin, hacc, hsug, tau.
    split; [assumption|]. split; [symmetry; exact E1|]. split; [assumption|]. split; [assumption|].
    split; [rewrite Ho0; unfold as_start; destruct sd; reflexivity|].
    split; [rewrite Ho0; unfold as_start; destruct sd; reflexivity|].
    split; [exact Hch|].
    split. { destruct n; [rewrite Ht0 in Hend; lra|lia]. }
    split.
    { assert (G : forall j, (j <= n)%nat -> val (tau j) = val t0 + sum_steps hacc j).
      { induction j as [|j IH]; intros Hj; [rewrite Ht0; cbn; lra|].
        destruct (Hch j ltac:(lia)) as (_ & Et & _). rewrite Et.
        change (val (tau j) + val (hacc j) = val t0 + (sum_steps hacc j + val (hacc j))).
        rewrite IH by lia. lra. }
      rewrite <- (G n (Nat.le_refl n)). exact Hend. }
    split; [exact Hend|]. split; [rewrite E6; exact Hend|].
    split; [intros j Hj; apply P; exact Hj|].
    split; [intros j Hj; apply Rltb_true; apply Hlt'; exact Hj|].
    split; [|exact Ht'].
    intros j Hj. destruct (P j Hj) as [P1 _]. destruct (Hch j Hj) as (_ & Et & _).
    rewrite Et in P1. change (val (padd Rops (tau j) (hacc j))) with (val (tau j) + val (hacc j)) in P1. lra.
  Qed.

  (** Recorded times: all in [[t0, tf]] and strictly increasing. *)
  Lemma due_sorted sd sf c n : StronglySorted lt (due sd sf c n) /\ (forall j, In j (due sd sf c n) -> (0 < j <= n)%nat).
  Proof.
    unfold due. destruct sd; [|split; [constructor|intros j []]].
    split.
    - assert (G : forall a b, StronglySorted lt (seq a b)).
      { intros a b; revert a; induction b as [|b IH]; intros a; cbn; constructor; [apply IH|].
        apply Forall_forall. intros x Hx. apply in_seq in Hx. lia. }
      specialize (G 1%nat n).
      induction G as [|a l G IH Hf]; cbn; [constructor|].
      match goal with |- context [if ?b then _ else _] => destruct b end; [|exact IH].
      constructor; [exact IH|]. apply Forall_forall. intros x Hx. apply filter_In in Hx.
      rewrite Forall_forall in Hf. apply Hf. tauto.
    - intros j Hj. apply filter_In in Hj. destruct Hj as [Hj _]. apply in_seq in Hj. lia.
  Qed.

  Lemma as_evolve_times fuel u (t0 tf : RT) hi sf (o : obj) w u' o' w' :
    val t0 < val tf -> 0 < h0_of (val t0) (val tf) hi ->
    as_evolve k cfg compute_s fuel u t0 tf hi true sf o w = (Ret u', o', w') ->
    StronglySorted Rlt (map val (a_t o')) /\
    (forall t, In t (a_t o') -> val t0 <= val t <= val tf) /\
    (exists l, a_t o' = t0 :: l).
  Proof.
    intros Ht Hh H. apply as_evolve_lands in H; [|exact Ht|exact Hh].
    destruct H as (n & us & os & ws & hin & hacc & hsug & tau & _ & _ & T0 & _ & _ & _ & _ & _ & _ & Tn & _ & Hinc & _ & _ & Et).
    assert (Mono : forall i j, (i < j <= n)%nat -> val (tau i) < val (tau j)).
    { intros i j Hij. induction j as [|j IH]; [lia|].
      destruct (Nat.eq_dec i j) as [->|]; [apply Hinc; lia|].
      apply Rlt_trans with (val (tau j)); [apply IH; lia|apply Hinc; lia]. }
    destruct (due_sorted true sf 0 n) as [Ds Db].
    rewrite Et. cbn [app].
    split.
    { cbn [map]. rewrite map_map. constructor.
      - revert Ds Db. generalize (due true sf 0 n). intros l0 Ds Db.
        induction Ds as [|a l Ds IH Hf]; cbn [map]; constructor.
        + apply IH. intros j Hj. apply Db. right; exact Hj.
        + apply Forall_forall. intros x Hx. apply in_map_iff in Hx. destruct Hx as (j & <- & Hj).
          rewrite Forall_forall in Hf. apply Mono.
          specialize (Hf j Hj). destruct (Db j (or_intror Hj)). lia.
      - apply Forall_forall. intros x Hx. apply in_map_iff in Hx. destruct Hx as (j & <- & Hj).
        apply Db in Hj. rewrite <- T0. apply Mono. lia. }
    split; [|eexists; reflexivity].
    intros t [<-|Hi]; [lra|].
    apply in_map_iff in Hi. destruct Hi as (j & <- & Hj). apply Db in Hj.
    split; [rewrite <- T0; left; apply Mono; lia|].
    destruct (Nat.eq_dec j n) as [->|]; [lra|].
    rewrite <- Tn. left. apply Mono. lia.
  Qed.

  (** Exceptions that a step may raise. *)
  Lemma as_step_exceptions u (h : RT) (o : obj) w e o' w' :
    as_step k cfg compute_s u h o w = (Exc e, o', w') ->
    (val h < 0 /\ e = AssertionError) \/
    e = MaxLoopsExceeded \/ e = MinimumStepReached \/
    (exists acc h1 s wl s', as_upd m acc u (val h1) s wl = (inl e, s', w')) \/
    (exists unew err, compute_s unew err = inl e).
  Proof.
    intros H. apply as_step_trace in H.
    destruct H as [(Hh & H & _)|(Hh & n & hs & sts & ws & H0 & H1 & H2 & Hn & Hr & Hm & Hs & He)].
    - left. split; [apply Rleb_false in Hh; exact Hh|]. inversion H; reflexivity.
    - right. cbn in He. destruct He as [[He _]|[(a & b & _ & Hc & _)|(h' & _ & _ & [[E _]|[E _]])]].
      + right; right; left. repeat eexists. exact He.
      + right; right; right. eauto.
      + left; exact E.
      + right; left; exact E.
  Qed.
End Exact.

(** ** Runs that cannot fail *)
Section Returns.
  Variables U W : Type.
  Variable m : asm (T Rops) U W.
  Variable k : consts (T Rops).
  Variable cfg : config (T Rops).
  Variable compute_s : U -> U -> exn + sval (T Rops).
  Hypothesis Hk : 0 < MIN_S k < 1 /\ 1 <= MAX_S k.
  Hypothesis Hcfg : valid_config cfg.
  Notation obj := (asobj Rops U W m).

  (** If updates never raise and every estimate is acceptable, evolve returns. *)
  Lemma as_evolve_returns u (t0 tf : RT) hi sd sf (o : obj) w :
    (forall acc u h s w, exists a s' w', as_upd m acc u h s w = (inr a, s', w')) ->
    (forall a b, exists x, compute_s a b = inr (SFin x) /\ 1 <= x) ->
    val t0 < val tf -> 0 < h0_of (val t0) (val tf) hi -> val tf <> 0 -> (sd = true -> sf <> 0%Z) ->
    exists fuel u' o' w', as_evolve k cfg compute_s fuel u t0 tf hi sd sf o w = (Ret u', o', w').
  Proof.
    intros Hu Hs Ht Hh Hz Hsf.
    assert (He : 0 < eta cfg (h0_of (val t0) (val tf) hi)).
    { destruct Hcfg as (_ & _ & _ & _ & _ & Hmh). apply Rmin_pos; assumption. }
    destruct (enough_fuel (val t0) (val tf) He) as [fuel Hf].
    exists fuel.
    destruct (as_evolve k cfg compute_s fuel u t0 tf hi sd sf o w) as [[r o'] w'] eqn:E.
    assert (Hnf : r <> Fuel) by (eapply as_evolve_terminates; eauto).
    destruct r as [u'|e|]; [eauto| |congruence]. exfalso.
    rewrite as_evolve_unfold in E. apply as_loop_trace in E.
    destruct E as (n & us & os & ws & hin & hacc & hsug & tau & Hu0 & Ho0 & Hw0 & Hh0 & Ht0 &
                       Hch & Hn & Hlt' & Hpr' & Hsf' & Htf' & Ht' & Hu' & Hend).
    destruct (start_times u t0 tf sd o) as (S1 & S2 & S3). rewrite S1, S2 in *.
    destruct (chain_invariant Hk Hcfg hi Ht Hh Ht0 Hh0 Hch Hlt' (Nat.le_refl n)) as [I1 I2].
    destruct Hend as (E1 & _ & E2). apply Rltb_true in E1.
    destruct E2 as [(o1 & E2)|(_ & u1 & h1 & h2 & o1 & _ & [E2|[E2 E3]])].
    - apply as_step_exceptions in E2 as E3.
      assert (Hpos : 0 <= val (hin n)) by (destruct I2; lra).
      unfold as_step in E2.
      replace (tleb Rops (tofZ Rops 0) (val (hin n))) with true in E2
        by (symmetry; apply Rleb_true; exact Hpos).
      cbn [as_step_loop] in E2.
      destruct (Hu (a_accept (os n)) (us n) (val (hin n)) (a_m (os n)) (ws n)) as ([a b] & s' & w1 & Eu).
      rewrite Eu in E2. destruct (Hs a b) as (x & Ex & Hx). rewrite Ex in E2.
      unfold accepts in E2. replace (tltb Rops x (tofZ Rops 1)) with false in E2
        by (symmetry; apply Rltb_false; exact Hx). discriminate.
    - unfold progress_raises in E2.
      replace (teqb Rops (val tf) (tofZ Rops 0)) with false in E2
        by (symmetry; apply Reqb_false; exact Hz).
      rewrite andb_false_r in E2. discriminate.
    - exact (Hsf E2 E3).
  Qed.
End Returns.
