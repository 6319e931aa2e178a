(** * Proofs about the constant-step control layer, for any arithmetic and any scheme *)

From Coq Require Import ZArith List Bool Lia Arith.
From Verif Require Import Scalars Control.
Import ListNotations.

Set Implicit Arguments.

(** ** Small specification vocabulary *)

(** Time after [n] additions of [h]. *)
Fixpoint time_after (F : tops) (t0 h : pynum (T F)) (n : nat) : pynum (T F) :=
  match n with 0 => t0 | S n' => padd F (time_after F t0 h n') h end.

Lemma time_after_succ_r (F : tops) (t0 h : pynum (T F)) n :
  time_after F (padd F t0 h) h n = time_after F t0 h (S n).
Proof. induction n as [|n IH]; [reflexivity|]. cbn [time_after] in *. rewrite IH. reflexivity. Qed.

Section Trace.
  Variable F : tops.
  Variables U W : Type.
  Variable m : csm (T F) U W.
  Notation PT := (pynum (T F)).

  (** [us 0 .. us n] are the states produced by [n] successive successful scheme updates of
      size [h]; [sts] and [ws] are the scheme and world states in between. *)
  Definition cs_chain (h : T F) (n : nat) (us : nat -> U) (sts : nat -> cs_st m) (ws : nat -> W) :=
    forall k, k < n ->
      cs_upd m (us k) h (sts k) (ws k) = (inr (us (S k)), sts (S k), ws (S k)).

  Definition ncons {A} (a : A) (f : nat -> A) : nat -> A :=
    fun k => match k with 0 => a | S k' => f k' end.

  (** Indices [k] in [1..n] at which a snapshot is due when counting starts after [count]. *)
  Definition due (sd : bool) (sf count : Z) (n : nat) : list nat :=
    if sd then filter (fun k => ((count + Z.of_nat k) mod sf =? 0)%Z) (seq 1 n) else [].

  Lemma due_S sd sf count n :
    due sd sf count (S n) =
    (if sd && ((count + 1) mod sf =? 0)%Z then [1] else []) ++ map S (due sd sf (count + 1) n).
  Proof.
    unfold due; destruct sd; [|reflexivity].
    cbn [seq filter andb]. change (Z.of_nat 1) with 1%Z.
    assert (E : filter (fun k => ((count + Z.of_nat k) mod sf =? 0)%Z) (seq 2 n)
                = map S (filter (fun k => ((count + 1 + Z.of_nat k) mod sf =? 0)%Z) (seq 1 n))).
    { rewrite <- seq_shift. induction (seq 1 n) as [|a l IH]; [reflexivity|].
      cbn [map filter]. replace (count + Z.of_nat (S a))%Z with (count + 1 + Z.of_nat a)%Z by lia.
      destruct ((count + 1 + Z.of_nat a) mod sf =? 0)%Z; cbn [map]; rewrite IH; reflexivity. }
    rewrite E. destruct ((count + 1) mod sf =? 0)%Z; reflexivity.
  Qed.

  Lemma cs_step_ret u h (o : csobj F U W m) w u' o' w' :
    cs_step u h o w = (Ret u', o', w') ->
    tleb F (tofZ F 0) h = true /\
    exists s', cs_upd m u h (c_m o) w = (inr u', s', w') /\
               o' = mk_csobj (c_t o) (c_u o) (c_tf o) (c_tc o) s'.
  Proof.
    unfold cs_step. destruct (tleb F (tofZ F 0) h) eqn:Hh; [|discriminate].
    destruct (cs_upd m u h (c_m o) w) as [[r s'] w1] eqn:E.
    destruct r as [e|u1]; intros H; inversion H; subst. split; [reflexivity|].
    exists s'; split; reflexivity.
  Qed.

  Lemma cs_step_not_fuel u h (o : csobj F U W m) w o' w' : cs_step u h o w <> (Fuel, o', w').
  Proof.
    unfold cs_step. destruct (tleb F (tofZ F 0) h); [|discriminate].
    destruct (cs_upd m u h (c_m o) w) as [[[e|u1] s'] w1]; discriminate.
  Qed.

  (** Why a run ended after [n] complete iterations. *)
  Definition cs_ending (fuel : nat) (h : PT) (sd : bool) (sf count : Z) (tf : PT)
             (tau : nat -> PT) (n : nat) (us : nat -> U) (sts : nat -> cs_st m) (ws : nat -> W)
             (r : out U) (o' : csobj F U W m) (w' : W) : Prop :=
    match r with
    | Ret u' => u' = us n /\ tltb F (val (tau n)) (val tf) = false /\
                c_m o' = sts n /\ w' = ws n /\ c_tc o' = tau n
    | Fuel => n = fuel /\ tltb F (val (tau n)) (val tf) = true
    | Exc e =>
        tltb F (val (tau n)) (val tf) = true /\ n < fuel /\
        ((* the step was refused *)
         (e = AssertionError /\ tleb F (tofZ F 0) (val h) = false) \/
         (* the scheme (nonlinear function) raised *)
         (tleb F (tofZ F 0) (val h) = true /\ exists s,
            cs_upd m (us n) (val h) (sts n) (ws n) = (inl e, s, w') /\ c_m o' = s) \/
         (* the step succeeded, then [100*tc/tf] or [% store_freq] divided by zero *)
         (e = ZeroDivisionError /\ exists u1 s1,
            cs_upd m (us n) (val h) (sts n) (ws n) = (inr u1, s1, w') /\
            (progress_raises F (count + Z.of_nat (S n)) (tau (S n)) tf = true \/
             (sd = true /\ sf = 0%Z))))
    end.

  Lemma cs_loop_trace : forall fuel u h sd sf count (o : csobj F U W m) w r o' w',
    cs_loop fuel u h sd sf count o w = (r, o', w') ->
    exists n us sts ws,
      us 0 = u /\ sts 0 = c_m o /\ ws 0 = w /\
      cs_chain (val h) n us sts ws /\ n <= fuel /\
      (forall k, k < n -> tltb F (val (time_after F (c_tc o) h k)) (val (c_tf o)) = true) /\
      (0 < n -> tleb F (tofZ F 0) (val h) = true) /\
      (forall k, 0 < k <= n -> progress_raises F (count + Z.of_nat k)
                    (time_after F (c_tc o) h k) (c_tf o) = false) /\
      (0 < n -> sd = true -> sf <> 0%Z) /\
      c_tf o' = c_tf o /\
      c_t o' = c_t o ++ map (time_after F (c_tc o) h) (due sd sf count n) /\
      c_u o' = c_u o ++ map us (due sd sf count n) /\
      cs_ending fuel h sd sf count (c_tf o) (time_after F (c_tc o) h) n us sts ws r o' w'.
  Proof.
    induction fuel as [|fuel IH]; intros u h sd sf count o w r o' w' H; cbn [cs_loop] in H.
    - destruct (tltb F (val (c_tc o)) (val (c_tf o))) eqn:Hlt; inversion H; subst; clear H;
        exists 0, (fun _ => u), (fun _ => c_m o'), (fun _ => w');
        repeat (split; [first [reflexivity | lia | intros k Hk; lia | unfold cs_chain; intros; lia
                              | unfold due; destruct sd; cbn; rewrite app_nil_r; reflexivity ] |]);
        cbn; auto.
    - destruct (tltb F (val (c_tc o)) (val (c_tf o))) eqn:Hlt.
      2:{ inversion H; subst; clear H;
          exists 0, (fun _ => u), (fun _ => c_m o'), (fun _ => w').
          repeat (split; [first [reflexivity | lia | intros k Hk; lia | unfold cs_chain; intros; lia
                              | unfold due; destruct sd; cbn; rewrite app_nil_r; reflexivity ] |]).
          cbn; auto. }
      destruct (cs_step u (val h) o w) as [[rs o1] w1] eqn:Hst.
      destruct rs as [u1|e|].
      + apply cs_step_ret in Hst. destruct Hst as (Hh & s1 & Hupd & Ho1). subst o1.
        cbn [c_tc c_tf c_t c_u c_m] in H.
        destruct (progress_raises F (count + 1) (padd F (c_tc o) h) (c_tf o)) eqn:Hpr.
        { inversion H; subst; clear H.
          exists 0, (fun _ => u), (fun _ => c_m o), (fun _ => w).
          repeat (split; [first [reflexivity | lia | intros k Hk; lia | unfold cs_chain; intros; lia
                              | unfold due; destruct sd; cbn; rewrite app_nil_r; reflexivity ] |]).
          cbn. split; [exact Hlt|]. split; [lia|]. right; right. split; [reflexivity|].
          exists u1, s1. split; [exact Hupd|]. left. exact Hpr. }
        destruct (store_now sd sf (count + 1)) as [b|] eqn:Hsn.
        2:{ inversion H; subst; clear H.
          exists 0, (fun _ => u), (fun _ => c_m o), (fun _ => w).
          repeat (split; [first [reflexivity | lia | intros k Hk; lia | unfold cs_chain; intros; lia
                              | unfold due; destruct sd; cbn; rewrite app_nil_r; reflexivity ] |]).
          cbn. split; [exact Hlt|]. split; [lia|]. right; right. split; [reflexivity|].
          exists u1, s1. split; [exact Hupd|]. right.
          unfold store_now in Hsn. destruct sd; [|discriminate].
          destruct (Z.eqb_spec sf 0); [auto|discriminate]. }
        assert (Hb : b = sd && ((count + 1) mod sf =? 0)%Z /\ (sd = true -> sf <> 0%Z)).
        { unfold store_now in Hsn. destruct sd; [|inversion Hsn; split; [reflexivity|discriminate]].
          destruct (Z.eqb_spec sf 0); inversion Hsn; auto. }
        destruct Hb as [Hb Hsf].
        set (o3 := if b then mk_csobj (c_t o ++ [padd F (c_tc o) h]) (c_u o ++ [u1]) (c_tf o)
                               (padd F (c_tc o) h) s1
                   else mk_csobj (c_t o) (c_u o) (c_tf o) (padd F (c_tc o) h) s1) in *.
        assert (Htc : c_tc o3 = padd F (c_tc o) h) by (unfold o3; destruct b; reflexivity).
        assert (Htf : c_tf o3 = c_tf o) by (unfold o3; destruct b; reflexivity).
        assert (Hm : c_m o3 = s1) by (unfold o3; destruct b; reflexivity).
        assert (Hct : c_t o3 = c_t o ++ (if b then [padd F (c_tc o) h] else []))
          by (unfold o3; destruct b; cbn; rewrite ?app_nil_r; reflexivity).
        assert (Hcu : c_u o3 = c_u o ++ (if b then [u1] else []))
          by (unfold o3; destruct b; cbn; rewrite ?app_nil_r; reflexivity).
        apply IH in H.
        destruct H as (n & us & sts & ws & Hu0 & Hs0 & Hw0 & Hch & Hn & Hlt' & Hh' & Hpr' & Hsf' &
                       Htf' & Ht' & Hu' & Hend).
        assert (Htau : forall k, time_after F (c_tc o3) h k = time_after F (c_tc o) h (S k)).
        { intros k. rewrite Htc. apply time_after_succ_r. }
        exists (S n), (ncons u us), (ncons (c_m o) sts), (ncons w ws).
        split; [reflexivity|]. split; [reflexivity|]. split; [reflexivity|].
        split.
        { intros k Hk. destruct k as [|k]; cbn [ncons].
          - rewrite Hu0, Hs0, Hw0, Hm. exact Hupd.
          - apply Hch. lia. }
        split; [lia|].
        split.
        { intros k Hk. destruct k as [|k]; [exact Hlt|]. rewrite <- Htau, <- Htf. apply Hlt'. lia. }
        split; [intros _; exact Hh|].
        split.
        { intros k Hk. destruct k as [|[|k]]; [lia|exact Hpr|].
          rewrite <- Htau, <- Htf.
          replace (count + Z.of_nat (S (S k)))%Z with (count + 1 + Z.of_nat (S k))%Z by lia.
          apply Hpr'. lia. }
        split; [intros _; exact Hsf|].
        split; [congruence|].
        split.
        { rewrite Ht', Hct, due_S, map_app, map_map, <- Hb, <- app_assoc. f_equal. f_equal.
          - destruct b; reflexivity.
          - apply map_ext. exact Htau. }
        split.
        { rewrite Hu', Hcu, due_S, map_app, map_map, <- Hb, <- app_assoc. f_equal. f_equal.
          destruct b; cbn; [rewrite Hu0|]; reflexivity. }
        unfold cs_ending in *. rewrite Htf in Hend. destruct r as [u'|e|].
        * rewrite <- Htau. cbn [ncons]. exact Hend.
        * destruct Hend as (E1 & E2 & E3). rewrite Htau in E1. split; [exact E1|].
          split; [lia|].
          replace (count + Z.of_nat (S (S n)))%Z with (count + 1 + Z.of_nat (S n))%Z by lia.
          rewrite Htau in E3. cbn [ncons]. exact E3.
        * rewrite <- Htau. split; [lia|apply Hend].
      + inversion H; subst; clear H.
        exists 0, (fun _ => u), (fun _ => c_m o), (fun _ => w).
        assert (Hst' := Hst).
        unfold cs_step in Hst. destruct (tleb F (tofZ F 0) (val h)) eqn:Hh.
        * destruct (cs_upd m u (val h) (c_m o) w) as [[[e1|u1] s1] w1] eqn:Hu; inversion Hst; subst.
          repeat (split; [first [reflexivity | lia | intros k Hk; lia | unfold cs_chain; intros; lia
                              | unfold due; destruct sd; cbn; rewrite app_nil_r; reflexivity ] |]).
          cbn. split; [exact Hlt|]. split; [lia|]. right; left. split; [exact Hh|].
          exists s1. split; [exact Hu|reflexivity].
        * inversion Hst; subst.
          repeat (split; [first [reflexivity | lia | intros k Hk; lia | unfold cs_chain; intros; lia
                              | unfold due; destruct sd; cbn; rewrite app_nil_r; reflexivity ] |]).
          cbn. split; [exact Hlt|]. split; [lia|]. left. split; [reflexivity|exact Hh].
      + exfalso. eapply cs_step_not_fuel; exact Hst.
  Qed.
End Trace.
Arguments cs_chain {F U W} m h n us sts ws.
Arguments cs_ending {F U W m} fuel h sd sf count tf tau n us sts ws r o' w'.

(** ** Snapshots: closed form of the due indices *)
Lemma due_multiples (f n : nat) : 1 <= f ->
  due true (Z.of_nat f) 0 n = map (fun j => j * f) (seq 1 (n / f)).
Proof.
  intros Hf. unfold due.
  induction n as [|n IH].
  - rewrite Nat.div_0_l by lia. reflexivity.
  - replace (seq 1 (S n)) with (seq 1 n ++ [S n]) by (rewrite seq_S; reflexivity).
    rewrite filter_app, IH. cbn [filter].
    replace (0 + Z.of_nat (S n))%Z with (Z.of_nat (S n)) by lia.
    rewrite <- Nat2Z.inj_mod.
    destruct (Z.eqb_spec (Z.of_nat (S n mod f)) 0) as [E|E].
    + assert (E' : S n mod f = 0) by lia.
      assert (D : S n / f = S (n / f)).
      { pose proof (Nat.div_mod (S n) f ltac:(lia)) as H1.
        pose proof (Nat.div_mod n f ltac:(lia)) as H2.
        pose proof (Nat.mod_upper_bound n f ltac:(lia)).
        rewrite E' in H1. apply Nat.le_antisymm.
        - nia.
        - nia. }
      rewrite D, seq_S, map_app. cbn [map]. f_equal. f_equal.
      pose proof (Nat.div_mod (S n) f ltac:(lia)) as H1. rewrite E' in H1. rewrite D in H1. lia.
    + assert (D : S n / f = n / f).
      { pose proof (Nat.div_mod (S n) f ltac:(lia)) as H1.
        pose proof (Nat.div_mod n f ltac:(lia)) as H2.
        pose proof (Nat.mod_upper_bound n f ltac:(lia)).
        pose proof (Nat.mod_upper_bound (S n) f ltac:(lia)).
        assert (S n mod f <> 0) by lia. nia. }
      rewrite D, app_nil_r. reflexivity.
Qed.
