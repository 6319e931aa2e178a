(** * Two methods run side by side

    If the one-step calls of two methods stay related (related states and worlds, pairs of
    related live arrays), then so do whole runs of [step] and [evolve]: same outcome, same times,
    pairwise related snapshots. The methods may use different representations of arrays and
    different worlds. With the second method equal to the first this gives invariants of runs. *)

From Coq Require Import ZArith List Bool Lia.
From Verif Require Import Scalars Control.
Import ListNotations.

Set Implicit Arguments.

(** Outcomes agree; returned values are related. *)
Definition out_rel {X Y} (R : X -> Y -> Prop) (a : out X) (b : out Y) : Prop :=
  match a, b with
  | Ret x, Ret y => R x y
  | Exc e, Exc e' => e = e'
  | Fuel, Fuel => True
  | _, _ => False
  end.

Section ConstantStep.
  Variable F : tops.
  Variables U1 U2 W1 W2 : Type.
  Variable m1 : csm (T F) U1 W1.
  Variable m2 : csm (T F) U2 W2.
  (** States and worlds, and the live pairs of arrays. *)
  Variable R : cs_st m1 -> W1 -> cs_st m2 -> W2 -> list (U1 * U2) -> Prop.

  Definition cs_related : Prop :=
    (forall s1 w1 s2 w2 L, R s1 w1 s2 w2 L -> R (cs_reset m1 s1) w1 (cs_reset m2 s2) w2 L) /\
    forall s1 w1 s2 w2 L u1 u2 h, R s1 w1 s2 w2 L -> In (u1, u2) L ->
      match cs_upd m1 u1 h s1 w1, cs_upd m2 u2 h s2 w2 with
      | (inl e, s1', w1'), (inl e', s2', w2') => e = e' /\ R s1' w1' s2' w2' L
      | (inr v1, s1', w1'), (inr v2, s2', w2') => R s1' w1' s2' w2' ((v1, v2) :: L)
      | _, _ => False
      end.
  Hypothesis HR : cs_related.

  (** Objects: same times, related snapshots. *)
  Record cs_objs (L : list (U1 * U2)) (o1 : csobj F U1 W1 m1) (w1 : W1) (o2 : csobj F U2 W2 m2) (w2 : W2) : Prop := {
    co_R : R (c_m o1) w1 (c_m o2) w2 L;
    co_t : c_t o1 = c_t o2;
    co_tf : c_tf o1 = c_tf o2;
    co_tc : c_tc o1 = c_tc o2;
    co_u : Forall2 (fun a b => In (a, b) L) (c_u o1) (c_u o2) }.

  Lemma Forall2_grow {X Y} (L L' : list (X * Y)) a b : incl L L' ->
    Forall2 (fun x y => In (x, y) L) a b -> Forall2 (fun x y => In (x, y) L') a b.
  Proof. intros I H. induction H; constructor; auto. Qed.
  Lemma Forall2_snoc {X Y} (P : X -> Y -> Prop) a b x y : Forall2 P a b -> P x y -> Forall2 P (a ++ [x]) (b ++ [y]).
  Proof. intros H Hx. apply Forall2_app; [exact H|]. constructor; [exact Hx|constructor]. Qed.

  Theorem cs_step_related L u1 u2 h o1 w1 o2 w2 : cs_objs L o1 w1 o2 w2 -> In (u1, u2) L ->
    let '(r1, o1', w1') := cs_step u1 h o1 w1 in
    let '(r2, o2', w2') := cs_step u2 h o2 w2 in
    exists L', incl L L' /\ cs_objs L' o1' w1' o2' w2' /\ out_rel (fun a b => In (a, b) L') r1 r2.
  Proof.
    intros [O1 O2 O3 O4 O5] Hu. unfold cs_step. destruct (tleb F (tofZ F 0) h).
    - assert (Q := proj2 HR _ _ _ _ _ _ _ h O1 Hu).
      destruct (cs_upd m1 u1 h (c_m o1) w1) as [[[e|v1] s1] w1']; destruct (cs_upd m2 u2 h (c_m o2) w2) as [[[e'|v2] s2] w2'];
        try contradiction.
      + destruct Q as [-> Q]. exists L. split; [apply incl_refl|]. split; [|reflexivity]. constructor; assumption.
      + exists ((v1, v2) :: L). split; [intros x Hx; right; exact Hx|]. split; [|left; reflexivity].
        constructor; try assumption. eapply Forall2_grow; [|exact O5]. intros x Hx; right; exact Hx.
    - exists L. split; [apply incl_refl|]. split; [|reflexivity]. constructor; assumption.
  Qed.

  Lemma cs_loop_related h sd sf : forall fuel count L u1 u2 o1 w1 o2 w2, cs_objs L o1 w1 o2 w2 -> In (u1, u2) L ->
    let '(r1, o1', w1') := cs_loop fuel u1 h sd sf count o1 w1 in
    let '(r2, o2', w2') := cs_loop fuel u2 h sd sf count o2 w2 in
    exists L', incl L L' /\ cs_objs L' o1' w1' o2' w2' /\ out_rel (fun a b => In (a, b) L') r1 r2.
  Proof.
    induction fuel as [|fuel IH]; intros count L u1 u2 o1 w1 o2 w2 O Hu; cbn [cs_loop];
      rewrite (co_tc O), (co_tf O); destruct (tltb F (val (c_tc o2)) (val (c_tf o2))).
    1,2,4: exists L; split; [apply incl_refl|]; split; [exact O|]; (exact I || exact Hu).
    assert (S := cs_step_related _ _ (val h) O Hu).
    destruct (cs_step u1 (val h) o1 w1) as [[r1 p1] x1]. destruct (cs_step u2 (val h) o2 w2) as [[r2 p2] x2].
    destruct S as (L1 & I1 & O1 & R1).
    assert (TR : forall r1 o1' w1' r2 o2' w2',
      (exists L', incl L1 L' /\ cs_objs L' o1' w1' o2' w2' /\ out_rel (fun a b => In (a, b) L') r1 r2) ->
      exists L', incl L L' /\ cs_objs L' o1' w1' o2' w2' /\ out_rel (fun a b => In (a, b) L') r1 r2).
    { intros ? ? ? ? ? ? (L' & I' & Q). exists L'. split; [eapply incl_tran; eauto|exact Q]. }
    destruct r1 as [v1|e|]; destruct r2 as [v2|e'|]; try contradiction; cbn [out_rel] in R1.
    2: subst e'; exists L1; split; [exact I1|]; split; [exact O1|]; reflexivity.
    2: exists L1; split; [exact I1|]; split; [exact O1|]; exact I.
    assert (Otc : forall tc, cs_objs L1 (mk_csobj (c_t p1) (c_u p1) (c_tf p1) tc (c_m p1)) x1
                               (mk_csobj (c_t p2) (c_u p2) (c_tf p2) tc (c_m p2)) x2).
    { intros tc. destruct O1. constructor; cbn [c_t c_u c_tf c_tc c_m]; auto. }
    cbn [c_t c_u c_tf c_tc c_m]. rewrite (co_tc O1), (co_tf O1).
    destruct (progress_raises F (count + 1) (padd F (c_tc p2) h) (c_tf p2)).
    { exists L1. split; [exact I1|]. split; [|reflexivity]. rewrite <- (co_tf O1) at 1. apply Otc. }
    destruct (store_now sd sf (count + 1)) as [[]|].
    - apply (IH (count + 1)%Z L1 v1 v2
        (mk_csobj (c_t p1 ++ [padd F (c_tc p2) h]) (c_u p1 ++ [v1]) (c_tf p2) (padd F (c_tc p2) h) (c_m p1)) x1
        (mk_csobj (c_t p2 ++ [padd F (c_tc p2) h]) (c_u p2 ++ [v2]) (c_tf p2) (padd F (c_tc p2) h) (c_m p2)) x2) in R1.
      + destruct (cs_loop fuel v1 h sd sf (count + 1) _ x1) as [[r1 q1] y1].
        destruct (cs_loop fuel v2 h sd sf (count + 1) _ x2) as [[r2 q2] y2]. apply TR, R1.
      + destruct O1. constructor; cbn [c_t c_u c_tf c_tc c_m]; auto; [congruence|]. apply Forall2_snoc; assumption.
    - apply (IH (count + 1)%Z L1 v1 v2
        (mk_csobj (c_t p1) (c_u p1) (c_tf p2) (padd F (c_tc p2) h) (c_m p1)) x1
        (mk_csobj (c_t p2) (c_u p2) (c_tf p2) (padd F (c_tc p2) h) (c_m p2)) x2) in R1.
      + destruct (cs_loop fuel v1 h sd sf (count + 1) _ x1) as [[r1 q1] y1].
        destruct (cs_loop fuel v2 h sd sf (count + 1) _ x2) as [[r2 q2] y2]. apply TR, R1.
      + rewrite <- (co_tf O1) at 1. apply Otc.
    - exists L1. split; [exact I1|]. split; [|reflexivity]. rewrite <- (co_tf O1) at 1. apply Otc.
  Qed.

  Theorem cs_evolve_related fuel L u1 u2 t0 tf h sd sf o1 w1 o2 w2 : cs_objs L o1 w1 o2 w2 -> In (u1, u2) L ->
    let '(r1, o1', w1') := cs_evolve fuel u1 t0 tf h sd sf o1 w1 in
    let '(r2, o2', w2') := cs_evolve fuel u2 t0 tf h sd sf o2 w2 in
    exists L', incl L L' /\ cs_objs L' o1' w1' o2' w2' /\ out_rel (fun a b => In (a, b) L') r1 r2.
  Proof.
    intros O Hu. unfold cs_evolve.
    assert (O' : cs_objs L
      (if sd then mk_csobj (c_t (cs_reset_obj o1) ++ [t0]) (c_u (cs_reset_obj o1) ++ [u1]) tf t0 (c_m (cs_reset_obj o1))
       else mk_csobj (c_t (cs_reset_obj o1)) (c_u (cs_reset_obj o1)) tf t0 (c_m (cs_reset_obj o1))) w1
      (if sd then mk_csobj (c_t (cs_reset_obj o2) ++ [t0]) (c_u (cs_reset_obj o2) ++ [u2]) tf t0 (c_m (cs_reset_obj o2))
       else mk_csobj (c_t (cs_reset_obj o2)) (c_u (cs_reset_obj o2)) tf t0 (c_m (cs_reset_obj o2))) w2).
    { assert (Q := proj1 HR _ _ _ _ _ (co_R O)).
      destruct sd; constructor; cbn; auto. }
    destruct (tltb F (val tf) (val (padd F t0 h))).
    - exists L. split; [apply incl_refl|]. split; [exact O'|reflexivity].
    - apply cs_loop_related; assumption.
  Qed.

  Theorem cs_reset_related L o1 w1 o2 w2 : cs_objs L o1 w1 o2 w2 -> cs_objs L (cs_reset_obj o1) w1 (cs_reset_obj o2) w2.
  Proof. intros O. constructor; cbn; auto. apply (proj1 HR), (co_R O). Qed.
End ConstantStep.

Section AdaptiveStep.
  Variable F : tops.
  Variables U1 U2 W1 W2 : Type.
  Variable m1 : asm (T F) U1 W1.
  Variable m2 : asm (T F) U2 W2.
  Variable k : consts (T F).
  Variable cfg : config (T F).
  Variable compute1 : U1 -> U1 -> exn + sval (T F).
  Variable compute2 : U2 -> U2 -> exn + sval (T F).
  Variable R : as_st m1 -> W1 -> as_st m2 -> W2 -> list (U1 * U2) -> Prop.

  Definition as_related : Prop :=
    (forall s1 w1 s2 w2 L, R s1 w1 s2 w2 L -> R (as_reset m1 s1) w1 (as_reset m2 s2) w2 L) /\
    forall a s1 w1 s2 w2 L u1 u2 h, R s1 w1 s2 w2 L -> In (u1, u2) L ->
      match as_upd m1 a u1 h s1 w1, as_upd m2 a u2 h s2 w2 with
      | (inl e, s1', w1'), (inl e', s2', w2') => e = e' /\ R s1' w1' s2' w2' L
      | (inr (v1, e1), s1', w1'), (inr (v2, e2), s2', w2') =>
          R s1' w1' s2' w2' ((v1, v2) :: L) /\ compute1 v1 e1 = compute2 v2 e2
      | _, _ => False
      end.
  Hypothesis HR : as_related.

  Record as_objs (L : list (U1 * U2)) (o1 : asobj F U1 W1 m1) (w1 : W1) (o2 : asobj F U2 W2 m2) (w2 : W2) : Prop := {
    ao_R : R (a_m o1) w1 (a_m o2) w2 L;
    ao_t : a_t o1 = a_t o2;
    ao_tf : a_tf o1 = a_tf o2;
    ao_tc : a_tc o1 = a_tc o2;
    ao_acc : a_accept o1 = a_accept o2;
    ao_u : Forall2 (fun a b => In (a, b) L) (a_u o1) (a_u o2) }.

  (** Returned triples: related arrays, same step sizes. *)
  Definition trip (L : list (U1 * U2)) (x : U1 * pynum (T F) * pynum (T F)) (y : U2 * pynum (T F) * pynum (T F)) : Prop :=
    let '(a, h, hs) := x in let '(b, h', hs') := y in In (a, b) L /\ h = h' /\ hs = hs'.

  Lemma as_step_loop_related : forall fuel nl L u1 u2 h o1 w1 o2 w2, as_objs L o1 w1 o2 w2 -> In (u1, u2) L ->
    let '(r1, o1', w1') := as_step_loop k cfg compute1 fuel nl u1 h o1 w1 in
    let '(r2, o2', w2') := as_step_loop k cfg compute2 fuel nl u2 h o2 w2 in
    exists L', incl L L' /\ as_objs L' o1' w1' o2' w2' /\ out_rel (trip L') r1 r2.
  Proof.
    induction fuel as [|fuel IH]; intros nl L u1 u2 h o1 w1 o2 w2 O Hu; cbn [as_step_loop].
    { exists L. split; [apply incl_refl|]. split; [exact O|exact I]. }
    assert (Q := proj2 HR (a_accept o2) _ _ _ _ _ _ _ (val h) (ao_R O) Hu). rewrite (ao_acc O).
    destruct (as_upd m1 (a_accept o2) u1 (val h) (a_m o1) w1) as [[[e|[v1 e1]] s1] x1];
      destruct (as_upd m2 (a_accept o2) u2 (val h) (a_m o2) w2) as [[[e'|[v2 e2]] s2] x2]; try contradiction.
    { destruct Q as [-> Q]. exists L. split; [apply incl_refl|]. split; [|reflexivity].
      destruct O. constructor; cbn [a_t a_u a_tf a_tc a_m a_accept set_meth]; auto. }
    destruct Q as [Q QC]. rewrite QC.
    assert (I1 : incl L ((v1, v2) :: L)) by (intros x Hx; right; exact Hx).
    assert (O1 : forall b, as_objs ((v1, v2) :: L) (set_accept (set_meth o1 s1) b) x1 (set_accept (set_meth o2 s2) b) x2).
    { intros b. destruct O. constructor; cbn [a_t a_u a_tf a_tc a_m a_accept set_meth set_accept]; auto.
      eapply Forall2_grow; [exact I1|assumption]. }
    assert (O1' : as_objs ((v1, v2) :: L) (set_meth o1 s1) x1 (set_meth o2 s2) x2).
    { destruct O. constructor; cbn [a_t a_u a_tf a_tc a_m a_accept set_meth set_accept]; auto.
      eapply Forall2_grow; [exact I1|assumption]. }
    destruct (compute2 v2 e2) as [e|sv].
    { exists ((v1, v2) :: L). split; [exact I1|]. split; [exact O1'|reflexivity]. }
    destruct (accepts sv) as [x|].
    { exists ((v1, v2) :: L). split; [exact I1|]. split; [apply O1|]. cbn [out_rel trip]. split; [left; reflexivity|auto]. }
    destruct (Nat.ltb (MAX_LOOPS k) (S nl)).
    { exists ((v1, v2) :: L). split; [exact I1|]. split; [apply O1|reflexivity]. }
    destruct (tltb F (val (reject_size k cfg sv h)) (minh cfg)).
    { exists ((v1, v2) :: L). split; [exact I1|]. split; [apply O1|reflexivity]. }
    assert (Q2 := IH (S nl) ((v1, v2) :: L) u1 u2 (reject_size k cfg sv h) _ _ _ _ (O1 false) (I1 _ Hu)).
    destruct (as_step_loop k cfg compute1 fuel (S nl) u1 _ _ x1) as [[r1 q1] y1].
    destruct (as_step_loop k cfg compute2 fuel (S nl) u2 _ _ x2) as [[r2 q2] y2].
    destruct Q2 as (L' & I' & Q2). exists L'. split; [eapply incl_tran; eauto|exact Q2].
  Qed.

  Theorem as_step_related L u1 u2 h o1 w1 o2 w2 : as_objs L o1 w1 o2 w2 -> In (u1, u2) L ->
    let '(r1, o1', w1') := as_step k cfg compute1 u1 h o1 w1 in
    let '(r2, o2', w2') := as_step k cfg compute2 u2 h o2 w2 in
    exists L', incl L L' /\ as_objs L' o1' w1' o2' w2' /\ out_rel (trip L') r1 r2.
  Proof.
    intros O Hu. unfold as_step. destruct (tleb F (tofZ F 0) (val h)).
    - apply as_step_loop_related; assumption.
    - exists L. split; [apply incl_refl|]. split; [exact O|reflexivity].
  Qed.

  Lemma as_loop_related sd sf : forall fuel count L u1 u2 h o1 w1 o2 w2, as_objs L o1 w1 o2 w2 -> In (u1, u2) L ->
    let '(r1, o1', w1') := as_loop k cfg compute1 fuel u1 h sd sf count o1 w1 in
    let '(r2, o2', w2') := as_loop k cfg compute2 fuel u2 h sd sf count o2 w2 in
    exists L', incl L L' /\ as_objs L' o1' w1' o2' w2' /\ out_rel (fun a b => In (a, b) L') r1 r2.
  Proof.
    induction fuel as [|fuel IH]; intros count L u1 u2 h o1 w1 o2 w2 O Hu; cbn [as_loop];
      rewrite (ao_tc O), (ao_tf O); destruct (tltb F (val (a_tc o2)) (val (a_tf o2))).
    1,2,4: exists L; split; [apply incl_refl|]; split; [exact O|]; (exact I || exact Hu).
    assert (S := as_step_related _ _ h O Hu).
    destruct (as_step k cfg compute1 u1 h o1 w1) as [[r1 p1] x1]. destruct (as_step k cfg compute2 u2 h o2 w2) as [[r2 p2] x2].
    destruct S as (L1 & I1 & O1 & R1).
    assert (TR : forall r1 o1' w1' r2 o2' w2',
      (exists L', incl L1 L' /\ as_objs L' o1' w1' o2' w2' /\ out_rel (fun a b => In (a, b) L') r1 r2) ->
      exists L', incl L L' /\ as_objs L' o1' w1' o2' w2' /\ out_rel (fun a b => In (a, b) L') r1 r2).
    { intros ? ? ? ? ? ? (L' & I' & Q). exists L'. split; [eapply incl_tran; eauto|exact Q]. }
    destruct r1 as [[[v1 ha] hb]|e|]; destruct r2 as [[[v2 ha'] hb']|e'|]; try contradiction; cbn [out_rel trip] in R1.
    2: subst e'; exists L1; split; [exact I1|]; split; [exact O1|]; reflexivity.
    2: exists L1; split; [exact I1|]; split; [exact O1|]; exact I.
    destruct R1 as (R1 & <- & <-).
    assert (Otc : forall tc, as_objs L1 (mk_asobj (a_t p1) (a_u p1) (a_tf p1) tc (a_accept p1) (a_m p1)) x1
                               (mk_asobj (a_t p2) (a_u p2) (a_tf p2) tc (a_accept p2) (a_m p2)) x2).
    { intros tc. destruct O1. constructor; cbn [a_t a_u a_tf a_tc a_m a_accept]; auto. }
    cbn [a_t a_u a_tf a_tc a_m a_accept]. rewrite (ao_tc O1), (ao_tf O1).
    destruct (progress_raises F (count + 1) (padd F (a_tc p2) ha) (a_tf p2)).
    { exists L1. split; [exact I1|]. split; [|reflexivity]. rewrite <- (ao_tf O1) at 1. apply Otc. }
    set (tc' := padd F (a_tc p2) ha).
    set (h' := if tltb F (val (a_tf p2)) (val (padd F tc' hb)) then psub F (a_tf p2) tc' else hb).
    destruct (store_now sd sf (count + 1)) as [[]|].
    - apply (IH (count + 1)%Z L1 v1 v2 h'
        (mk_asobj (a_t p1 ++ [tc']) (a_u p1 ++ [v1]) (a_tf p2) tc' (a_accept p1) (a_m p1)) x1
        (mk_asobj (a_t p2 ++ [tc']) (a_u p2 ++ [v2]) (a_tf p2) tc' (a_accept p2) (a_m p2)) x2) in R1.
      + destruct (as_loop k cfg compute1 fuel v1 h' sd sf (count + 1) _ x1) as [[r1 q1] y1].
        destruct (as_loop k cfg compute2 fuel v2 h' sd sf (count + 1) _ x2) as [[r2 q2] y2]. apply TR, R1.
      + destruct O1. constructor; cbn [a_t a_u a_tf a_tc a_m a_accept]; auto; [congruence|]. apply Forall2_snoc; assumption.
    - apply (IH (count + 1)%Z L1 v1 v2 h'
        (mk_asobj (a_t p1) (a_u p1) (a_tf p2) tc' (a_accept p1) (a_m p1)) x1
        (mk_asobj (a_t p2) (a_u p2) (a_tf p2) tc' (a_accept p2) (a_m p2)) x2) in R1.
      + destruct (as_loop k cfg compute1 fuel v1 h' sd sf (count + 1) _ x1) as [[r1 q1] y1].
        destruct (as_loop k cfg compute2 fuel v2 h' sd sf (count + 1) _ x2) as [[r2 q2] y2]. apply TR, R1.
      + rewrite <- (ao_tf O1) at 1. apply Otc.
    - exists L1. split; [exact I1|]. split; [|reflexivity]. rewrite <- (ao_tf O1) at 1. apply Otc.
  Qed.

  Theorem as_evolve_related fuel L u1 u2 t0 tf hi sd sf o1 w1 o2 w2 : as_objs L o1 w1 o2 w2 -> In (u1, u2) L ->
    let '(r1, o1', w1') := as_evolve k cfg compute1 fuel u1 t0 tf hi sd sf o1 w1 in
    let '(r2, o2', w2') := as_evolve k cfg compute2 fuel u2 t0 tf hi sd sf o2 w2 in
    exists L', incl L L' /\ as_objs L' o1' w1' o2' w2' /\ out_rel (fun a b => In (a, b) L') r1 r2.
  Proof.
    intros O Hu. unfold as_evolve. apply as_loop_related; [|exact Hu].
    assert (Q := proj1 HR _ _ _ _ _ (ao_R O)). destruct sd; constructor; cbn; auto.
  Qed.

  Theorem as_reset_related L o1 w1 o2 w2 : as_objs L o1 w1 o2 w2 -> as_objs L (as_reset_obj o1) w1 (as_reset_obj o2) w2.
  Proof. intros O. constructor; cbn; auto. apply (proj1 HR), (ao_R O). Qed.
End AdaptiveStep.
