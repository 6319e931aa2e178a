(** * Proofs about the adaptive control layer, for any arithmetic and any scheme *)

From Coq Require Import ZArith List Bool Lia.
From Verif Require Import Scalars Control ControlCS ControlCSReal.
Import ListNotations.

Set Implicit Arguments.

Section Trace.
  Variable F : tops.
  Variables U W : Type.
  Variable m : asm (T F) U W.
  Variable k : consts (T F).
  Variable cfg : config (T F).
  Variable compute_s : U -> U -> exn + sval (T F).
  Notation PT := (pynum (T F)).
  Notation obj := (asobj F U W m).

  (** One attempt from step size [h], which was rejected and led to [h']. *)
  Definition as_rejected (acc : bool) (u : U) (h : PT) (s : as_st m) (w : W)
             (h' : PT) (s' : as_st m) (w' : W) : Prop :=
    exists unew err sv,
      as_upd m acc u (val h) s w = (inr (unew, err), s', w') /\
      compute_s unew err = inr sv /\ accepts sv = None /\ h' = reject_size k cfg sv h.

  (** The flag seen by attempt number [j]: the one left by the previous step for the first
      attempt, [False] after a rejection. *)
  Definition acc_at (acc0 : bool) (j : nat) : bool := match j with 0 => acc0 | _ => false end.

  (** [n] consecutive rejected attempts with sizes [hs 0, hs 1, ...]. *)
  Definition as_rejections (acc0 : bool) (u : U) (n : nat) (hs : nat -> PT)
             (sts : nat -> as_st m) (ws : nat -> W) : Prop :=
    forall j, j < n ->
      as_rejected (acc_at acc0 j) u (hs j) (sts j) (ws j) (hs (S j)) (sts (S j)) (ws (S j)).

  (** How a step ends after [n] rejections from which it went on. *)
  Definition as_step_ending (nl : nat) (acc0 : bool) (u : U) (n : nat) (hs : nat -> PT)
             (sts : nat -> as_st m) (ws : nat -> W)
             (r : out (U * PT * PT)) (o' : obj) (w' : W) : Prop :=
    match r with
    | Ret (unew, h1, h2) =>
        h1 = hs n /\ a_accept o' = true /\
        exists err x,
          as_upd m (acc_at acc0 n) u (val h1) (sts n) (ws n) = (inr (unew, err), a_m o', w') /\
          compute_s unew err = inr (SFin x) /\ tltb F x (tofZ F 1) = false /\
          h2 = accept_size k cfg x h1
    | Exc e =>
        (as_upd m (acc_at acc0 n) u (val (hs n)) (sts n) (ws n) = (inl e, a_m o', w') /\
         a_accept o' = acc_at acc0 n) \/
        (exists unew err,
            as_upd m (acc_at acc0 n) u (val (hs n)) (sts n) (ws n) = (inr (unew, err), a_m o', w') /\
            compute_s unew err = inl e /\ a_accept o' = acc_at acc0 n) \/
        (exists h', as_rejected (acc_at acc0 n) u (hs n) (sts n) (ws n) h' (a_m o') w' /\
                    a_accept o' = false /\
           ((e = MaxLoopsExceeded /\ n + nl = MAX_LOOPS k) \/
            (e = MinimumStepReached /\ n + nl < MAX_LOOPS k /\ tltb F (val h') (minh cfg) = true)))
    | Fuel => False
    end.

  Definition same_store (o o' : obj) : Prop :=
    a_t o' = a_t o /\ a_u o' = a_u o /\ a_tf o' = a_tf o /\ a_tc o' = a_tc o.

  Lemma as_step_loop_trace : forall fuel nl u h (o : obj) w r o' w',
    nl <= MAX_LOOPS k -> fuel + nl = S (S (MAX_LOOPS k)) ->
    as_step_loop k cfg compute_s fuel nl u h o w = (r, o', w') ->
    exists n hs sts ws,
      hs 0 = h /\ sts 0 = a_m o /\ ws 0 = w /\
      n + nl <= MAX_LOOPS k /\
      as_rejections (a_accept o) u n hs sts ws /\
      (forall j, 0 < j <= n -> tltb F (val (hs j)) (minh cfg) = false) /\
      same_store o o' /\
      as_step_ending nl (a_accept o) u n hs sts ws r o' w'.
  Proof.
    induction fuel as [|fuel IH]; intros nl u h o w r o' w' Hnl Hfuel H; [lia|].
    cbn [as_step_loop] in H.
    destruct (as_upd m (a_accept o) u (val h) (a_m o) w) as [[ru s1] w1] eqn:Hupd.
    assert (Base : forall P : nat -> (nat -> PT) -> (nat -> as_st m) -> (nat -> W) -> Prop,
              P 0 (fun _ => h) (fun _ => a_m o) (fun _ => w) -> exists n hs sts ws, P n hs sts ws)
      by (intros P HP; repeat eexists; exact HP).
    destruct ru as [e|[unew err]].
    { inversion H; subst; clear H. apply Base.
      repeat split; try lia; try (intros j Hj; lia).
      cbn. left. split; [exact Hupd|reflexivity]. }
    destruct (compute_s unew err) as [e|sv] eqn:Hcs.
    { inversion H; subst; clear H. apply Base.
      repeat split; try lia; try (intros j Hj; lia).
      cbn. right; left. exists unew, err. split; [exact Hupd|]. split; [exact Hcs|reflexivity]. }
    destruct (accepts sv) as [x|] eqn:Hacc.
    { inversion H; subst; clear H. apply Base.
      repeat split; try lia; try (intros j Hj; lia).
      cbn. exists err, x. split; [exact Hupd|].
      destruct sv as [y| | |]; cbn in Hacc; try discriminate.
      destruct (tltb F y (tofZ F 1)) eqn:Hy; inversion Hacc; subst. auto. }
    assert (Hrej : as_rejected (a_accept o) u h (a_m o) w (reject_size k cfg sv h) s1 w1).
    { exists unew, err, sv. auto. }
    destruct (Nat.ltb_spec (MAX_LOOPS k) (S nl)) as [Hmax|Hmax].
    { inversion H; subst; clear H. apply Base.
      repeat split; try lia; try (intros j Hj; lia).
      cbn. right; right. exists (reject_size k cfg sv h). split; [exact Hrej|].
      split; [reflexivity|]. left. split; [reflexivity|lia]. }
    destruct (tltb F (val (reject_size k cfg sv h)) (minh cfg)) eqn:Hmin.
    { inversion H; subst; clear H. apply Base.
      repeat split; try lia; try (intros j Hj; lia).
      cbn. right; right. exists (reject_size k cfg sv h). split; [exact Hrej|].
      split; [reflexivity|]. right. split; [reflexivity|]. split; [lia|exact Hmin]. }
    apply IH in H; [|lia|lia].
    destruct H as (n & hs & sts & ws & H0 & H1 & H2 & Hn & Hrs & Hms & Hss & He).
    cbn [set_accept set_meth a_accept a_m a_t a_u a_tf a_tc] in H1, Hrs, Hss, He.
    assert (Hacc0 : forall j, acc_at (a_accept o) (S j) = acc_at false j) by (intros [|j]; reflexivity).
    exists (S n), (ncons h hs), (ncons (a_m o) sts), (ncons w ws).
    split; [reflexivity|]. split; [reflexivity|]. split; [reflexivity|]. split; [lia|].
    split.
    { intros j Hj. destruct j as [|j]; cbn [ncons].
      - cbn [acc_at]. rewrite H0, H1, H2. exact Hrej.
      - rewrite Hacc0. apply Hrs. lia. }
    split.
    { intros j Hj. destruct j as [|[|j]]; [lia| |]; cbn [ncons].
      - rewrite H0. exact Hmin.
      - apply Hms. lia. }
    split; [exact Hss|].
    unfold as_step_ending in *. rewrite Hacc0. cbn [ncons].
    replace (S n + nl) with (n + S nl) by lia. exact He.
  Qed.

  Lemma as_step_trace u h (o : obj) w r o' w' :
    as_step k cfg compute_s u h o w = (r, o', w') ->
    (tleb F (tofZ F 0) (val h) = false /\ r = Exc AssertionError /\ o' = o /\ w' = w) \/
    (tleb F (tofZ F 0) (val h) = true /\
     exists n hs sts ws,
      hs 0 = h /\ sts 0 = a_m o /\ ws 0 = w /\
      n <= MAX_LOOPS k /\
      as_rejections (a_accept o) u n hs sts ws /\
      (forall j, 0 < j <= n -> tltb F (val (hs j)) (minh cfg) = false) /\
      same_store o o' /\
      as_step_ending 0 (a_accept o) u n hs sts ws r o' w').
  Proof.
    unfold as_step. destruct (tleb F (tofZ F 0) (val h)); intros H.
    - right. split; [reflexivity|]. apply as_step_loop_trace in H; [|lia|lia].
      destruct H as (n & hs & sts & ws & H0 & H1 & H2 & H3 & H4).
      exists n, hs, sts, ws. rewrite Nat.add_0_r in H3. auto.
    - left. inversion H; auto.
  Qed.

  Lemma as_step_not_fuel u h (o : obj) w o' w' :
    as_step k cfg compute_s u h o w <> (Fuel, o', w').
  Proof.
    intros H. apply as_step_trace in H.
    destruct H as [(_ & H & _)|(_ & n & hs & sts & ws & _ & _ & _ & _ & _ & _ & _ & H)];
      [discriminate|exact H].
  Qed.

  (** A step that returns leaves the recorded data alone. *)
  Lemma as_step_ret_store u h (o : obj) w a o' w' :
    as_step k cfg compute_s u h o w = (Ret a, o', w') ->
    tleb F (tofZ F 0) (val h) = true /\ same_store o o' /\ a_accept o' = true.
  Proof.
    intros H. apply as_step_trace in H.
    destruct H as [(_ & H & _)|(Hh & n & hs & sts & ws & _ & _ & _ & _ & _ & _ & Hs & H)];
      [discriminate|].
    destruct a as [[unew h1] h2]. cbn in H. tauto.
  Qed.

  (** ** evolve *)

  (** Step size for the next attempt after an accepted step (solveras.py:637-640). *)
  Definition clamp (tf tc hs : PT) : PT :=
    if tltb F (val tf) (val (padd F tc hs)) then psub F tf tc else hs.

  (** [n] successive accepted steps: [us], object and world states, sizes passed in, accepted
      and suggested, and times. *)
  Definition as_chain (tf : PT) (n : nat) (us : nat -> U) (os : nat -> obj) (ws : nat -> W)
             (hin hacc hsug tau : nat -> PT) : Prop :=
    forall j, j < n ->
      (exists o1, as_step k cfg compute_s (us j) (hin j) (os j) (ws j)
                    = (Ret (us (S j), hacc j, hsug j), o1, ws (S j)) /\
                  a_accept (os (S j)) = a_accept o1 /\ a_m (os (S j)) = a_m o1) /\
      tau (S j) = padd F (tau j) (hacc j) /\
      hin (S j) = clamp tf (tau (S j)) (hsug j).

  Definition as_ending (fuel : nat) (sd : bool) (sf count : Z) (tf : PT) (n : nat)
             (us : nat -> U) (os : nat -> obj) (ws : nat -> W) (hin tau : nat -> PT)
             (r : out U) (o' : obj) (w' : W) : Prop :=
    match r with
    | Ret u' => u' = us n /\ tltb F (val (tau n)) (val tf) = false /\ w' = ws n /\
                a_accept o' = a_accept (os n) /\ a_m o' = a_m (os n) /\ a_tc o' = tau n
    | Fuel => n = fuel /\ tltb F (val (tau n)) (val tf) = true
    | Exc e =>
        tltb F (val (tau n)) (val tf) = true /\ n < fuel /\
        ((exists o1, as_step k cfg compute_s (us n) (hin n) (os n) (ws n) = (Exc e, o1, w')) \/
         (e = ZeroDivisionError /\ exists u1 h1 h2 o1,
            as_step k cfg compute_s (us n) (hin n) (os n) (ws n) = (Ret (u1, h1, h2), o1, w') /\
            (progress_raises F (count + Z.of_nat (S n)) (padd F (tau n) h1) tf = true \/
             (sd = true /\ sf = 0%Z))))
    end.

  (** [as_step] only looks at the flag and the scheme state. *)
  Lemma as_step_loop_store fuel nl u h (o p : obj) w r o' w' :
    a_accept p = a_accept o -> a_m p = a_m o ->
    as_step_loop k cfg compute_s fuel nl u h o w = (r, o', w') ->
    exists p', as_step_loop k cfg compute_s fuel nl u h p w = (r, p', w') /\
               a_accept p' = a_accept o' /\ a_m p' = a_m o' /\ same_store p p'.
  Proof.
    revert nl h o p w. induction fuel as [|fuel IH]; intros nl h o p w E1 E2 H; cbn [as_step_loop] in *.
    { inversion H; subst. exists p. repeat split; auto. }
    rewrite E1, E2.
    destruct (as_upd m (a_accept o) u (val h) (a_m o) w) as [[[e|[unew err]] s1] w1].
    { inversion H; subst. exists (set_meth p s1). repeat split; auto. }
    destruct (compute_s unew err) as [e|sv].
    { inversion H; subst. exists (set_meth p s1). repeat split; auto. }
    destruct (accepts sv) as [x|].
    { inversion H; subst. eexists; repeat split; auto. }
    destruct (Nat.ltb (MAX_LOOPS k) (S nl)).
    { inversion H; subst. eexists; repeat split; auto. }
    destruct (tltb F (val (reject_size k cfg sv h)) (minh cfg)).
    { inversion H; subst. eexists; repeat split; auto. }
    destruct (IH (S nl) (reject_size k cfg sv h) (set_accept (set_meth o s1) false)
                 (set_accept (set_meth p s1) false) w1 eq_refl eq_refl H) as (p' & P1 & P2 & P3 & P4).
    exists p'. auto.
  Qed.

  Lemma as_step_store u h (o p : obj) w r o' w' :
    a_accept p = a_accept o -> a_m p = a_m o ->
    as_step k cfg compute_s u h o w = (r, o', w') ->
    exists p', as_step k cfg compute_s u h p w = (r, p', w') /\
               a_accept p' = a_accept o' /\ a_m p' = a_m o' /\ same_store p p'.
  Proof.
    unfold as_step. destruct (tleb F (tofZ F 0) (val h)); intros E1 E2 H.
    - eapply as_step_loop_store; eassumption.
    - inversion H; subst. exists p. repeat split; auto.
  Qed.

  Lemma as_loop_trace : forall fuel u h sd sf count (o : obj) w r o' w',
    as_loop k cfg compute_s fuel u h sd sf count o w = (r, o', w') ->
    exists n us os ws hin hacc hsug tau,
      us 0 = u /\ os 0 = o /\ ws 0 = w /\ hin 0 = h /\ tau 0 = a_tc o /\
      as_chain (a_tf o) n us os ws hin hacc hsug tau /\ n <= fuel /\
      (forall j, j < n -> tltb F (val (tau j)) (val (a_tf o)) = true) /\
      (forall j, 0 < j <= n -> progress_raises F (count + Z.of_nat j) (tau j) (a_tf o) = false) /\
      (0 < n -> sd = true -> sf <> 0%Z) /\
      a_tf o' = a_tf o /\
      a_t o' = a_t o ++ map tau (due sd sf count n) /\
      a_u o' = a_u o ++ map us (due sd sf count n) /\
      as_ending fuel sd sf count (a_tf o) n us os ws hin tau r o' w'.
  Proof.
    induction fuel as [|fuel IH]; intros u h sd sf count o w r o' w' H; cbn [as_loop] in H.
    - assert (Base : forall P : nat -> (nat -> U) -> (nat -> obj) -> (nat -> W) -> (nat -> PT) -> (nat -> PT) -> (nat -> PT) -> (nat -> PT) -> Prop,
                P 0 (fun _ => u) (fun _ => o) (fun _ => w) (fun _ => h) (fun _ => h) (fun _ => h)
                    (fun _ => a_tc o) ->
                exists n us os ws hin hacc hsug tau, P n us os ws hin hacc hsug tau)
        by (intros P HP; repeat eexists; exact HP).
      destruct (tltb F (val (a_tc o)) (val (a_tf o))) eqn:Hlt; inversion H; subst; clear H;
        apply Base;
        repeat (split; [first [reflexivity | lia | intros j Hj; lia
                              | unfold due; destruct sd; cbn; rewrite app_nil_r; reflexivity ] |]);
        cbn; repeat split; auto.
    - assert (Base : forall P : nat -> (nat -> U) -> (nat -> obj) -> (nat -> W) -> (nat -> PT) -> (nat -> PT) -> (nat -> PT) -> (nat -> PT) -> Prop,
                P 0 (fun _ => u) (fun _ => o) (fun _ => w) (fun _ => h) (fun _ => h) (fun _ => h)
                    (fun _ => a_tc o) ->
                exists n us os ws hin hacc hsug tau, P n us os ws hin hacc hsug tau)
        by (intros P HP; repeat eexists; exact HP).
      destruct (tltb F (val (a_tc o)) (val (a_tf o))) eqn:Hlt.
      2:{ inversion H; subst; clear H. apply Base.
          repeat (split; [first [reflexivity | lia | intros j Hj; lia
                              | unfold due; destruct sd; cbn; rewrite app_nil_r; reflexivity ] |]).
          cbn. repeat split; auto. }
      destruct (as_step k cfg compute_s u h o w) as [[rs o1] w1] eqn:Hst.
      destruct rs as [[[u1 h1] h2]|e|].
      + assert (Hss := as_step_ret_store _ _ _ _ Hst). destruct Hss as (_ & (S1 & S2 & S3 & S4) & Sa).
        rewrite S3, S4 in H.
        change (a_tf (mk_asobj (a_t o1) (a_u o1) (a_tf o) (padd F (a_tc o) h1) (a_accept o1) (a_m o1)))
          with (a_tf o) in H.
        destruct (progress_raises F (count + 1) (padd F (a_tc o) h1) (a_tf o)) eqn:Hpr.
        { inversion H; subst; clear H. apply Base.
          repeat (split; [first [reflexivity | lia | intros j Hj; lia
                              | unfold due; destruct sd; cbn; rewrite app_nil_r; assumption ] |]).
          cbn. split; [exact Hlt|]. split; [lia|]. right. split; [reflexivity|].
          exists u1, h1, h2, o1. split; [exact Hst|]. left. exact Hpr. }
        destruct (store_now sd sf (count + 1)) as [b|] eqn:Hsn.
        2:{ inversion H; subst; clear H. apply Base.
          repeat (split; [first [reflexivity | lia | intros j Hj; lia
                              | unfold due; destruct sd; cbn; rewrite app_nil_r; assumption ] |]).
          cbn. split; [exact Hlt|]. split; [lia|]. right. split; [reflexivity|].
          exists u1, h1, h2, o1. split; [exact Hst|]. right.
          unfold store_now in Hsn. destruct sd; [|discriminate].
          destruct (Z.eqb_spec sf 0); [auto|discriminate]. }
        assert (Hb : b = sd && ((count + 1) mod sf =? 0)%Z /\ (sd = true -> sf <> 0%Z)).
        { unfold store_now in Hsn. destruct sd; [|inversion Hsn; split; [reflexivity|discriminate]].
          destruct (Z.eqb_spec sf 0); inversion Hsn; auto. }
        destruct Hb as [Hb Hsf].
        match type of H with as_loop _ _ _ _ _ ?hh _ _ _ ?oo _ = _ =>
          set (h' := hh) in *; set (o3 := oo) in * end.
        assert (Htc : a_tc o3 = padd F (a_tc o) h1) by (unfold o3; destruct b; reflexivity).
        assert (Htf : a_tf o3 = a_tf o) by (unfold o3; destruct b; reflexivity).
        assert (Hm : a_m o3 = a_m o1) by (unfold o3; destruct b; reflexivity).
        assert (Ha : a_accept o3 = a_accept o1) by (unfold o3; destruct b; reflexivity).
        assert (Hct : a_t o3 = a_t o ++ (if b then [padd F (a_tc o) h1] else []))
          by (unfold o3; destruct b; cbn; rewrite ?app_nil_r, S1; reflexivity).
        assert (Hcu : a_u o3 = a_u o ++ (if b then [u1] else []))
          by (unfold o3; destruct b; cbn; rewrite ?app_nil_r, S2; reflexivity).
        apply IH in H.
        destruct H as (n & us & os & ws & hin & hacc & hsug & tau & Hu0 & Ho0 & Hw0 & Hh0 & Ht0 &
                       Hch & Hn & Hlt' & Hpr' & Hsf' & Htf' & Ht' & Hu' & Hend).
        exists (S n), (ncons u us), (ncons o os), (ncons w ws), (ncons h hin),
               (ncons h1 hacc), (ncons h2 hsug), (ncons (a_tc o) tau).
        split; [reflexivity|]. split; [reflexivity|]. split; [reflexivity|].
        split; [reflexivity|]. split; [reflexivity|].
        rewrite Htf in *.
        split.
        { intros j Hj. destruct j as [|j]; cbn [ncons].
          - split; [|split].
            + exists o1. rewrite Hu0, Hw0, Ho0. auto.
            + rewrite Ht0. exact Htc.
            + rewrite Hh0, Ht0, Htc. reflexivity.
          - apply Hch. lia. }
        split; [lia|].
        split.
        { intros j Hj. destruct j as [|j]; [exact Hlt|]. cbn [ncons]. apply Hlt'. lia. }
        split.
        { intros j Hj. destruct j as [|[|j]]; [lia| |]; cbn [ncons].
          - rewrite Ht0, Htc. exact Hpr.
          - replace (count + Z.of_nat (S (S j)))%Z with (count + 1 + Z.of_nat (S j))%Z by lia.
            apply Hpr'. lia. }
        split; [intros _; exact Hsf|].
        split; [exact Htf'|].
        split.
        { rewrite Ht', Hct, due_S, map_app, map_map, <- Hb, <- app_assoc. f_equal. f_equal.
          destruct b; [|reflexivity]. cbn [map ncons]. rewrite Ht0, Htc. reflexivity. }
        split.
        { rewrite Hu', Hcu, due_S, map_app, map_map, <- Hb, <- app_assoc. f_equal. f_equal.
          destruct b; cbn [map ncons]; [rewrite Hu0|]; reflexivity. }
        unfold as_ending in *. destruct r as [u'|e|]; cbn [ncons].
        * exact Hend.
        * destruct Hend as (E1 & E2 & E3). split; [exact E1|]. split; [lia|].
          replace (count + Z.of_nat (S (S n)))%Z with (count + 1 + Z.of_nat (S n))%Z by lia.
          exact E3.
        * split; [lia|apply Hend].
      + inversion H; subst; clear H. apply Base.
        assert (Hss : same_store o o').
        { apply as_step_trace in Hst.
          destruct Hst as [(_ & _ & E & _)|(_ & n & hs & sts & ws & _ & _ & _ & _ & _ & _ & Hs & _)];
            [subst; repeat split|exact Hs]. }
        destruct Hss as (S1 & S2 & S3 & S4).
        do 13 (split; [first [reflexivity | assumption | lia | intros j Hj; lia
                              | unfold due; destruct sd; cbn; rewrite app_nil_r; assumption ] |]).
        cbn. split; [exact Hlt|]. split; [lia|]. left. exists o'. exact Hst.
      + exfalso. eapply as_step_not_fuel; exact Hst.
  Qed.

  (** The initial step size (solveras.py:610-618). *)
  Definition h_start (t0 tf : PT) (h_init : option PT) : PT :=
    clamp tf t0 (match h_init with
                 | Some h => h
                 | None => PyN (isnp (psub F tf t0)) (tdiv F (val (psub F tf t0)) (tofZ F 100))
                 end).

  Definition as_start (u : U) (t0 tf : PT) (sd : bool) (o : obj) : obj :=
    if sd then mk_asobj [t0] [u] tf t0 false (as_reset m (a_m o))
    else mk_asobj [] [] tf t0 false (as_reset m (a_m o)).

  Lemma as_evolve_unfold fuel u t0 tf hi sd sf (o : obj) w :
    as_evolve k cfg compute_s fuel u t0 tf hi sd sf o w =
    as_loop k cfg compute_s fuel u (h_start t0 tf hi) sd sf 0 (as_start u t0 tf sd o) w.
  Proof. unfold as_evolve, h_start, as_start, clamp. destruct sd, hi; reflexivity. Qed.

  (** Snapshots law for every normally returning adaptive run (C20). *)
  Lemma as_evolve_snapshots fuel u t0 tf hi (f : nat) (o : obj) w u' o' w' :
    1 <= f ->
    as_evolve k cfg compute_s fuel u t0 tf hi true (Z.of_nat f) o w = (Ret u', o', w') ->
    exists n us os ws hin hacc hsug tau,
      us 0 = u /\ a_m (os 0) = as_reset m (a_m o) /\ a_accept (os 0) = false /\ ws 0 = w /\
      hin 0 = h_start t0 tf hi /\ tau 0 = t0 /\
      as_chain tf n us os ws hin hacc hsug tau /\
      u' = us n /\
      (forall j, j < n -> tltb F (val (tau j)) (val tf) = true) /\
      tltb F (val (tau n)) (val tf) = false /\
      a_t o' = snapshots f n tau /\
      a_u o' = snapshots f n us.
  Proof.
    intros Hf H. rewrite as_evolve_unfold in H. apply as_loop_trace in H.
    destruct H as (n & us & os & ws & hin & hacc & hsug & tau & Hu0 & Ho0 & Hw0 & Hh0 & Ht0 &
                       Hch & Hn & Hlt' & Hpr' & Hsf' & Htf' & Ht' & Hu' & Hend).
    exists n, us, os, ws, hin, hacc, hsug, tau. rewrite Ho0.
    cbn [as_start a_m a_accept a_tc a_tf a_t a_u] in *.
    destruct Hend as (E1 & E2 & _).
    repeat (split; [first [assumption|reflexivity]|]).
    rewrite !snapshots_cons, <- due_multiples by exact Hf. rewrite Hu0, Ht0. auto.
  Qed.

  Lemma as_evolve_no_snapshots fuel u t0 tf hi sf (o : obj) w r o' w' :
    as_evolve k cfg compute_s fuel u t0 tf hi false sf o w = (r, o', w') ->
    a_t o' = [] /\ a_u o' = [].
  Proof.
    intros H. rewrite as_evolve_unfold in H. apply as_loop_trace in H.
    destruct H as (n & us & os & ws & hin & hacc & hsug & tau & _ & _ & _ & _ & _ &
                       _ & _ & _ & _ & _ & _ & Ht' & Hu' & _).
    rewrite Ht', Hu'. cbn. auto.
  Qed.

  (** Nothing to do when [t0 < tf] fails: the input comes back, no step is taken. *)
  Lemma as_evolve_nothing_to_do fuel u t0 tf hi sd sf (o : obj) w :
    tltb F (val t0) (val tf) = false ->
    as_evolve k cfg compute_s fuel u t0 tf hi sd sf o w = (Ret u, as_start u t0 tf sd o, w).
  Proof.
    intros E. rewrite as_evolve_unfold.
    destruct fuel; cbn [as_loop]; unfold as_start; destruct sd; cbn [a_tc a_tf]; rewrite E; reflexivity.
  Qed.
End Trace.

Arguments as_rejected {F U W m} k cfg compute_s acc u h s w h' s' w'.
Arguments as_rejections {F U W m} k cfg compute_s acc0 u n hs sts ws.
Arguments as_step_ending {F U W m} k cfg compute_s nl acc0 u n hs sts ws r o' w'.
Arguments same_store {F U W m} o o'.
Arguments clamp {F} tf tc hs.
Arguments as_chain {F U W m} k cfg compute_s tf n us os ws hin hacc hsug tau.
Arguments as_ending {F U W m} k cfg compute_s fuel sd sf count tf n us os ws hin tau r o' w'.
Arguments h_start {F} t0 tf h_init.
Arguments as_start {F U W m} u t0 tf sd o.

(** ** Counting attempts *)

(** The same scheme with a counter of [_update_stages] calls added to the world. *)
Definition as_counted (A U W : Type) (m : asm A U W) : asm A U (nat * W) :=
  {| as_st := as_st m;
     as_reset := as_reset m;
     as_upd := fun acc u h s cw =>
       let '(r, s', w') := as_upd m acc u h s (snd cw) in (r, s', (S (fst cw), w')) |}.

Section Attempts.
  Variable F : tops.
  Variables U W : Type.
  Variable m : asm (T F) U W.
  Variable k : consts (T F).
  Variable cfg : config (T F).
  Variable compute_s : U -> U -> exn + sval (T F).
  Notation PT := (pynum (T F)).

  Definition counted_obj (o : asobj F U W m) : asobj F U (nat * W) (as_counted m) :=
    mk_asobj (m := as_counted m) (a_t o) (a_u o) (a_tf o) (a_tc o) (a_accept o) (a_m o).

  (** Counting changes nothing else, and a step makes at most [MAX_LOOPS + 1] attempts. *)
  Lemma as_step_loop_counted : forall fuel nl u h (o : asobj F U W m) c w,
    (nl <= MAX_LOOPS k)%nat -> (fuel + nl = S (S (MAX_LOOPS k)))%nat ->
    exists c', (c <= c')%nat /\ (c' + nl <= c + S (MAX_LOOPS k))%nat /\
    let '(r, o', w') := as_step_loop k cfg compute_s fuel nl u h o w in
    as_step_loop k cfg compute_s fuel nl u h (counted_obj o) (c, w) = (r, counted_obj o', (c', w')).
  Proof.
    induction fuel as [|fuel IH]; intros nl u h o c w Hnl Hf; [lia|].
    cbn [as_step_loop]. cbn [as_counted as_upd counted_obj a_accept a_m fst snd].
    destruct (as_upd m (a_accept o) u (val h) (a_m o) w) as [[[e|[a b]] s'] w'].
    { exists (S c). split; [lia|]. split; [lia|]. reflexivity. }
    destruct (compute_s a b) as [e|sv].
    { exists (S c). split; [lia|]. split; [lia|]. reflexivity. }
    destruct (accepts sv).
    { exists (S c). split; [lia|]. split; [lia|]. reflexivity. }
    destruct (Nat.ltb_spec (MAX_LOOPS k) (S nl)).
    { exists (S c). split; [lia|]. split; [lia|]. reflexivity. }
    destruct (tltb F (val (reject_size k cfg sv h)) (minh cfg)).
    { exists (S c). split; [lia|]. split; [lia|]. reflexivity. }
    destruct (IH (S nl) u (reject_size k cfg sv h) (set_accept (set_meth o s') false) (S c) w')
      as (c' & H1 & H2 & H3); [lia|lia|].
    exists c'. split; [lia|]. split; [lia|]. exact H3.
  Qed.

  Lemma as_step_counted u h (o : asobj F U W m) c w :
    exists c', (c <= c' <= c + S (MAX_LOOPS k))%nat /\
    let '(r, o', w') := as_step k cfg compute_s u h o w in
    as_step k cfg compute_s u h (counted_obj o) (c, w) = (r, counted_obj o', (c', w')).
  Proof.
    unfold as_step. destruct (tleb F (tofZ F 0) (val h)).
    - destruct (@as_step_loop_counted (S (S (MAX_LOOPS k))) 0 u h o c w) as (c' & H1 & H2 & H3);
        [lia|lia|].
      exists c'. split; [lia|]. exact H3.
    - exists c. split; [lia|]. reflexivity.
  Qed.
End Attempts.
