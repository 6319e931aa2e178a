(** * History independence, memoryless schemes, time translation: control layer *)

From Coq Require Import ZArith List Bool Lia Reals Lra.
From Verif Require Import Scalars Control ControlCS ControlCSReal ControlAS ControlASReal.
Import ListNotations.

Set Implicit Arguments.

(** ** Schemes whose reset forgets everything observable *)

(** [R] relates two internal states that cannot be told apart by updates that succeed. *)
Definition cs_forgets (A U W : Type) (m : csm A U W) (R : cs_st m -> cs_st m -> Prop) : Prop :=
  (forall a b, R (cs_reset m a) (cs_reset m b)) /\
  (forall u h a b w, R a b ->
     let '(r1, a', w1) := cs_upd m u h a w in
     let '(r2, b', w2) := cs_upd m u h b w in
     r1 = r2 /\ w1 = w2 /\ (forall v, r1 = inr v -> R a' b')).

Definition as_forgets (A U W : Type) (m : asm A U W) (R : bool -> as_st m -> as_st m -> Prop) : Prop :=
  (forall a b, R false (as_reset m a) (as_reset m b)) /\
  (forall acc u h a b w, R acc a b ->
     let '(r1, a', w1) := as_upd m acc u h a w in
     let '(r2, b', w2) := as_upd m acc u h b w in
     r1 = r2 /\ w1 = w2 /\ (forall v, r1 = inr v -> forall acc', R acc' a' b')).

Section History.
  Variable F : tops.
  Variables U W : Type.
  Notation PT := (pynum (T F)).

  Section CS.
    Variable m : csm (T F) U W.
    Variable R : cs_st m -> cs_st m -> Prop.
    Hypothesis HR : cs_forgets m R.
    Notation obj := (csobj F U W m).

    (** Everything a user can read off the object. *)
    Definition cs_vis (o : obj) := (c_t o, c_u o, c_tf o, c_tc o).

    Lemma cs_loop_sim : forall fuel u h sd sf count (o p : obj) w,
      cs_vis o = cs_vis p -> R (c_m o) (c_m p) ->
      let '(r1, o', w1) := cs_loop fuel u h sd sf count o w in
      let '(r2, p', w2) := cs_loop fuel u h sd sf count p w in
      r1 = r2 /\ w1 = w2 /\ cs_vis o' = cs_vis p'.
    Proof.
      induction fuel as [|fuel IH]; intros u h sd sf count o p w Hv Hr; cbn [cs_loop].
      - injection Hv as V1 V2 V3 V4. rewrite V3, V4.
        destruct (tltb F (val (c_tc p)) (val (c_tf p))); repeat split;
          unfold cs_vis; congruence.
      - injection Hv as V1 V2 V3 V4. rewrite V3, V4.
        destruct (tltb F (val (c_tc p)) (val (c_tf p)));
          [|repeat split; unfold cs_vis; congruence].
        unfold cs_step.
        destruct (tleb F (tofZ F 0) (val h)); [|repeat split; unfold cs_vis; congruence].
        assert (Hu := proj2 HR u (val h) (c_m o) (c_m p) w Hr).
        destruct (cs_upd m u (val h) (c_m o) w) as [[r1 a'] w1].
        destruct (cs_upd m u (val h) (c_m p) w) as [[r2 b'] w2].
        destruct Hu as (<- & <- & Hab).
        destruct r1 as [e|u']; cbn [c_t c_u c_tf c_tc c_m].
        { repeat split; unfold cs_vis; cbn; congruence. }
        rewrite V3, V4, V1, V2.
        destruct (progress_raises F (count + 1) (padd F (c_tc p) h) (c_tf p));
          [repeat split; unfold cs_vis; cbn; congruence|].
        destruct (store_now sd sf (count + 1)) as [[|]|];
          [| |repeat split; unfold cs_vis; cbn; congruence];
          apply IH; try (unfold cs_vis; cbn; congruence); cbn; eapply Hab; reflexivity.
    Qed.

    Theorem cs_evolve_history fuel u t0 tf h sd sf (o p : obj) w :
      let '(r1, o', w1) := cs_evolve fuel u t0 tf h sd sf o w in
      let '(r2, p', w2) := cs_evolve fuel u t0 tf h sd sf p w in
      r1 = r2 /\ w1 = w2 /\ c_t o' = c_t p' /\ c_u o' = c_u p'.
    Proof.
      rewrite !cs_evolve_unfold.
      assert (Hv : cs_vis (cs_start u t0 tf sd o) = cs_vis (cs_start u t0 tf sd p))
        by (unfold cs_start; destruct sd; reflexivity).
      destruct (tltb F (val tf) (val (padd F t0 h))).
      { unfold cs_start; destruct sd; repeat split; reflexivity. }
      assert (Hr : R (c_m (cs_start u t0 tf sd o)) (c_m (cs_start u t0 tf sd p)))
        by (unfold cs_start; destruct sd; apply (proj1 HR)).
      assert (L := cs_loop_sim fuel u h sd sf 0%Z w Hv Hr).
      destruct (cs_loop fuel u h sd sf 0 (cs_start u t0 tf sd o) w) as [[r1 o'] w1].
      destruct (cs_loop fuel u h sd sf 0 (cs_start u t0 tf sd p) w) as [[r2 p'] w2].
      destruct L as (L1 & L2 & L3). injection L3 as J1 J2 J3 J4. auto.
    Qed.
  End CS.

  Section AS.
    Variable m : asm (T F) U W.
    Variable R : bool -> as_st m -> as_st m -> Prop.
    Hypothesis HR : as_forgets m R.
    Variable k : consts (T F).
    Variable cfg : config (T F).
    Variable compute_s : U -> U -> exn + sval (T F).
    Notation obj := (asobj F U W m).

    Definition as_vis (o : obj) := (a_t o, a_u o, a_tf o, a_tc o, a_accept o).

    Lemma as_step_loop_sim : forall fuel nl u h (o p : obj) w,
      as_vis o = as_vis p -> R (a_accept o) (a_m o) (a_m p) ->
      let '(r1, o', w1) := as_step_loop k cfg compute_s fuel nl u h o w in
      let '(r2, p', w2) := as_step_loop k cfg compute_s fuel nl u h p w in
      r1 = r2 /\ w1 = w2 /\ as_vis o' = as_vis p' /\
      (forall v, r1 = Ret v -> R true (a_m o') (a_m p')).
    Proof.
      induction fuel as [|fuel IH]; intros nl u h o p w Hv Hr; cbn [as_step_loop].
      - repeat split; try assumption. discriminate.
      - injection Hv as V1 V2 V3 V4 V5.
        assert (Hu := proj2 HR (a_accept o) u (val h) (a_m o) (a_m p) w Hr).
        rewrite <- V5.
        destruct (as_upd m (a_accept o) u (val h) (a_m o) w) as [[r1 a'] w1].
        destruct (as_upd m (a_accept o) u (val h) (a_m p) w) as [[r2 b'] w2].
        destruct Hu as (<- & <- & Hab).
        destruct r1 as [e|[unew err]].
        { repeat split; try discriminate; unfold as_vis; cbn; congruence. }
        destruct (compute_s unew err) as [e|sv].
        { repeat split; try discriminate; unfold as_vis; cbn; congruence. }
        destruct (accepts sv) as [x|].
        { repeat split; try (unfold as_vis; cbn; congruence).
          intros v Hv; cbn. eapply Hab; reflexivity. }
        destruct (Nat.ltb (MAX_LOOPS k) (S nl)).
        { repeat split; try discriminate; unfold as_vis; cbn; congruence. }
        destruct (tltb F (val (reject_size k cfg sv h)) (minh cfg)).
        { repeat split; try discriminate; unfold as_vis; cbn; congruence. }
        apply IH; [unfold as_vis; cbn; congruence|cbn; eapply Hab; reflexivity].
    Qed.

    Lemma as_step_sim u h (o p : obj) w :
      as_vis o = as_vis p -> R (a_accept o) (a_m o) (a_m p) ->
      let '(r1, o', w1) := as_step k cfg compute_s u h o w in
      let '(r2, p', w2) := as_step k cfg compute_s u h p w in
      r1 = r2 /\ w1 = w2 /\ as_vis o' = as_vis p' /\
      (forall v, r1 = Ret v -> R true (a_m o') (a_m p')).
    Proof.
      intros Hv Hr. unfold as_step. destruct (tleb F (tofZ F 0) (val h)).
      - apply as_step_loop_sim; assumption.
      - repeat split; try assumption; discriminate.
    Qed.

    Lemma as_loop_sim : forall fuel u h sd sf count (o p : obj) w,
      as_vis o = as_vis p -> R (a_accept o) (a_m o) (a_m p) ->
      let '(r1, o', w1) := as_loop k cfg compute_s fuel u h sd sf count o w in
      let '(r2, p', w2) := as_loop k cfg compute_s fuel u h sd sf count p w in
      r1 = r2 /\ w1 = w2 /\ as_vis o' = as_vis p'.
    Proof.
      induction fuel as [|fuel IH]; intros u h sd sf count o p w Hv Hr; cbn [as_loop].
      - assert (Hv' := Hv). injection Hv' as V1 V2 V3 V4 V5. rewrite V3, V4.
        destruct (tltb F (val (a_tc p)) (val (a_tf p))); repeat split; assumption.
      - assert (Hv' := Hv). injection Hv' as V1 V2 V3 V4 V5. rewrite V3, V4.
        destruct (tltb F (val (a_tc p)) (val (a_tf p))); [|repeat split; assumption].
        assert (Hs := as_step_sim u h w Hv Hr).
        destruct (as_step k cfg compute_s u h o w) as [[r1 o1] w1] eqn:Eo.
        destruct (as_step k cfg compute_s u h p w) as [[r2 p1] w2].
        destruct Hs as (<- & <- & Hv1 & Hr1).
        destruct r1 as [[[u' h1] hs]|e|]; [|repeat split; assumption|repeat split; assumption].
        specialize (Hr1 _ eq_refl).
        apply as_step_ret_store in Eo. destruct Eo as (_ & _ & Hacc).
        injection Hv1 as V6 V7 V8 V9 V10. cbn [a_tf]. rewrite V6, V7, V8, V9.
        destruct (progress_raises F (count + 1) (padd F (a_tc p1) h1) (a_tf p1));
          [repeat split; unfold as_vis; cbn; congruence|].
        destruct (store_now sd sf (count + 1)) as [[|]|];
          [| |repeat split; unfold as_vis; cbn; congruence];
          apply IH; try (unfold as_vis; cbn; congruence); cbn [a_accept a_m a_t a_u a_tf a_tc];
          rewrite Hacc; exact Hr1.
    Qed.

    Theorem as_evolve_history fuel u t0 tf hi sd sf (o p : obj) w :
      let '(r1, o', w1) := as_evolve k cfg compute_s fuel u t0 tf hi sd sf o w in
      let '(r2, p', w2) := as_evolve k cfg compute_s fuel u t0 tf hi sd sf p w in
      r1 = r2 /\ w1 = w2 /\ a_t o' = a_t p' /\ a_u o' = a_u p'.
    Proof.
      rewrite !as_evolve_unfold.
      assert (Hv : as_vis (as_start u t0 tf sd o) = as_vis (as_start u t0 tf sd p))
        by (unfold as_start; destruct sd; reflexivity).
      assert (Hr : R (a_accept (as_start u t0 tf sd o)) (a_m (as_start u t0 tf sd o))
                     (a_m (as_start u t0 tf sd p)))
        by (unfold as_start; destruct sd; apply (proj1 HR)).
      assert (L := as_loop_sim fuel u (h_start t0 tf hi) sd sf 0%Z w Hv Hr).
      destruct (as_loop k cfg compute_s fuel u (h_start t0 tf hi) sd sf 0 (as_start u t0 tf sd o) w)
        as [[r1 o'] w1].
      destruct (as_loop k cfg compute_s fuel u (h_start t0 tf hi) sd sf 0 (as_start u t0 tf sd p) w)
        as [[r2 p'] w2].
      destruct L as (L1 & L2 & L3). injection L3 as J1 J2 J3 J4 J5. auto.
    Qed.
  End AS.
End History.

(** ** Memoryless adaptive schemes *)

(** [Phi h u] is the pair (candidate, error vector) of a memoryless one-step method.  [Inv acc s u]
    says: with acceptance flag [acc], internal state [s] is fit for a step starting at [u]. *)
Definition as_memoryless (A U W : Type) (m : asm A U W) (Phi : A -> U -> U * U)
           (Inv : bool -> as_st m -> U -> Prop) : Prop :=
  (forall s u, Inv false (as_reset m s) u) /\
  (forall acc s u h w, Inv acc s u -> exists s' w',
      as_upd m acc u h s w = (inr (Phi h u), s', w') /\
      Inv false s' u /\ Inv true s' (fst (Phi h u))).

Section Memoryless.
  Variable F : tops.
  Variable U : Type.
  Variable k : consts (T F).
  Variable cfg : config (T F).
  Variable compute_s : U -> U -> exn + sval (T F).
  Notation PT := (pynum (T F)).

  (** Specification: adaptive control of a memoryless one-step method; no object, no state.
      [pure_step Phi n u h] makes at most [n] attempts. *)
  Fixpoint pure_step (Phi : T F -> U -> U * U) (n : nat) (u : U) (h : PT) : out (U * PT * PT) :=
    match n with
    | O => Exc MaxLoopsExceeded
    | S n =>
        let '(unew, err) := Phi (val h) u in
        match compute_s unew err with
        | inl e => Exc e
        | inr (SFin x) =>
            if tltb F x (tofZ F 1) then
              let h' := reject_size k cfg (SFin x) h in
              if (n =? 0)%nat then Exc MaxLoopsExceeded
              else if tltb F (val h') (minh cfg) then Exc MinimumStepReached
              else pure_step Phi n u h'
            else Ret (unew, h, accept_size k cfg x h)
        | inr sv =>
            let h' := reject_size k cfg sv h in
            if (n =? 0)%nat then Exc MaxLoopsExceeded
            else if tltb F (val h') (minh cfg) then Exc MinimumStepReached
            else pure_step Phi n u h'
        end
    end.

  Variable W : Type.
  Variable m : asm (T F) U W.
  Variable Phi : T F -> U -> U * U.
  Variable Inv : bool -> as_st m -> U -> Prop.
  Hypothesis HM : as_memoryless m Phi Inv.
  Notation obj := (asobj F U W m).

  Lemma as_step_loop_pure : forall fuel nl u h (o : obj) w,
    (nl <= MAX_LOOPS k)%nat -> (fuel + nl = S (S (MAX_LOOPS k)))%nat ->
    Inv (a_accept o) (a_m o) u ->
    exists o' w',
      as_step_loop k cfg compute_s fuel nl u h o w = (pure_step Phi (S (MAX_LOOPS k) - nl) u h, o', w') /\
      match pure_step Phi (S (MAX_LOOPS k) - nl) u h with
      | Ret (u1, _, _) => a_accept o' = true /\ Inv true (a_m o') u1
      | Exc MaxLoopsExceeded | Exc MinimumStepReached =>
          (forall a b e, compute_s a b <> inl e) -> a_accept o' = false /\ Inv false (a_m o') u
      | _ => True
      end.
  Proof.
    induction fuel as [|fuel IH]; intros nl u h o w Hnl Hfuel Hi; [lia|].
    replace (S (MAX_LOOPS k) - nl)%nat with (S (MAX_LOOPS k - nl)) by lia.
    cbn [as_step_loop pure_step].
    destruct (proj2 HM (a_accept o) (a_m o) u (val h) w Hi) as (s' & w' & E & I1 & I2).
    rewrite E. destruct (Phi (val h) u) as [unew err]. cbn [fst] in I2.
    destruct (compute_s unew err) as [e|sv] eqn:Ec.
    { eexists; eexists; split; [reflexivity|].
      destruct e; try exact I; intros Hn; elim (Hn _ _ _ Ec). }
    assert (Hrej : accepts sv = None ->
      exists o' w'0,
        (let h' := reject_size k cfg sv h in
         let o2 := set_accept (set_meth o s') false in
         let numloops' := S nl in
         if (MAX_LOOPS k <? numloops')%nat then (Exc MaxLoopsExceeded, o2, w')
         else if tltb F (val h') (minh cfg) then (Exc MinimumStepReached, o2, w')
         else as_step_loop k cfg compute_s fuel numloops' u h' o2 w') =
        ((let h' := reject_size k cfg sv h in
          if (MAX_LOOPS k - nl =? 0)%nat then Exc MaxLoopsExceeded
          else if tltb F (val h') (minh cfg) then Exc MinimumStepReached
          else pure_step Phi (MAX_LOOPS k - nl) u h'), o', w'0) /\
        match (let h' := reject_size k cfg sv h in
               if (MAX_LOOPS k - nl =? 0)%nat then Exc MaxLoopsExceeded
               else if tltb F (val h') (minh cfg) then Exc MinimumStepReached
               else pure_step Phi (MAX_LOOPS k - nl) u h') with
        | Ret (u1, _, _) => a_accept o' = true /\ Inv true (a_m o') u1
        | Exc MaxLoopsExceeded | Exc MinimumStepReached =>
            (forall a b e, compute_s a b <> inl e) -> a_accept o' = false /\ Inv false (a_m o') u
        | _ => True
        end).
    { intros _. cbv zeta.
      replace (MAX_LOOPS k <? S nl)%nat with (MAX_LOOPS k - nl =? 0)%nat.
      2:{ destruct (Nat.eqb_spec (MAX_LOOPS k - nl) 0), (Nat.ltb_spec (MAX_LOOPS k) (S nl));
            try reflexivity; lia. }
      destruct (Nat.eqb_spec (MAX_LOOPS k - nl) 0) as [Hz|Hz].
      { eexists; eexists; split; [reflexivity|]. intros _. split; [reflexivity|exact I1]. }
      destruct (tltb F (val (reject_size k cfg sv h)) (minh cfg)).
      { eexists; eexists; split; [reflexivity|]. intros _. split; [reflexivity|exact I1]. }
      destruct (IH (S nl) u (reject_size k cfg sv h) (set_accept (set_meth o s') false) w')
        as (o' & w'' & J1 & J2); [lia|lia|exact I1|].
      replace (S (MAX_LOOPS k) - S nl)%nat with (MAX_LOOPS k - nl)%nat in J1, J2 by lia.
      exists o', w''. split; assumption. }
    destruct sv as [x| | |]; cbn [accepts] in *; try (apply Hrej; reflexivity).
    destruct (tltb F x (tofZ F 1)); [apply Hrej; reflexivity|].
    eexists; eexists; split; [reflexivity|]. split; [reflexivity|exact I2].
  Qed.

  Lemma as_step_pure u h (o : obj) w :
    Inv (a_accept o) (a_m o) u -> tleb F (tofZ F 0) (val h) = true ->
    exists o' w',
      as_step k cfg compute_s u h o w = (pure_step Phi (S (MAX_LOOPS k)) u h, o', w') /\
      match pure_step Phi (S (MAX_LOOPS k)) u h with
      | Ret (u1, _, _) => a_accept o' = true /\ Inv true (a_m o') u1
      | Exc MaxLoopsExceeded | Exc MinimumStepReached =>
          (forall a b e, compute_s a b <> inl e) -> a_accept o' = false /\ Inv false (a_m o') u
      | _ => True
      end.
  Proof.
    intros Hi Hh. unfold as_step. rewrite Hh.
    destruct (@as_step_loop_pure (S (S (MAX_LOOPS k))) 0 u h o w) as (o' & w' & H1 & H2);
      [lia|lia|exact Hi|].
    rewrite Nat.sub_0_r in H1, H2. eauto.
  Qed.

  (** A user's chain of calls: [step(u, h_0)], then [step] on the vector returned with step
      size [h_1], ... Specification side: *)
  Fixpoint pure_chain (u : U) (hs : list PT) : list (out (U * PT * PT)) :=
    match hs with
    | [] => []
    | h :: hs =>
        if tleb F (tofZ F 0) (val h) then
          let r := pure_step Phi (S (MAX_LOOPS k)) u h in
          r :: match r with Ret (u1, _, _) => pure_chain u1 hs | _ => [] end
        else [Exc AssertionError]
    end.

  (** Implementation side: the same chain of calls on a solver object (stopping at the first
      exception). *)
  Fixpoint as_calls (u : U) (hs : list PT) (o : obj) (w : W) : list (out (U * PT * PT)) :=
    match hs with
    | [] => []
    | h :: hs =>
        let '(r, o', w') := as_step k cfg compute_s u h o w in
        r :: match r with Ret (u1, _, _) => as_calls u1 hs o' w' | _ => [] end
    end.

  Lemma as_calls_pure_gen hs : forall u (o : obj) w, Inv (a_accept o) (a_m o) u ->
    as_calls u hs o w = pure_chain u hs.
  Proof.
    induction hs as [|h hs IH]; intros u o w Hi; [reflexivity|]. cbn [as_calls pure_chain].
    destruct (tleb F (tofZ F 0) (val h)) eqn:Hh.
    - destruct (@as_step_pure u h o w Hi Hh) as (o' & w' & H1 & H2). rewrite H1.
      f_equal. destruct (pure_step Phi (S (MAX_LOOPS k)) u h) as [[[u1 h1] h2]|e|]; try reflexivity.
      apply IH. destruct H2 as [-> H2]. exact H2.
    - unfold as_step. rewrite Hh. reflexivity.
  Qed.

  (** After [reset] (or construction) a chain of steps is the chain of the memoryless method. *)
  Theorem as_calls_pure hs u (o : obj) w :
    as_calls u hs (as_reset_obj o) w = pure_chain u hs.
  Proof. apply as_calls_pure_gen. apply (proj1 HM). Qed.

  (** Retrying: after a step gave up (too many rejections, or step too small) a further call on
      the same vector still behaves like the memoryless method, with any step size. *)
  Theorem as_retry_pure u h h' (o : obj) w o' w' e :
    (forall a b e, compute_s a b <> inl e) ->
    Inv (a_accept o) (a_m o) u -> tleb F (tofZ F 0) (val h) = true ->
    as_step k cfg compute_s u h o w = (Exc e, o', w') ->
    tleb F (tofZ F 0) (val h') = true ->
    fst (fst (as_step k cfg compute_s u h' o' w')) = pure_step Phi (S (MAX_LOOPS k)) u h'.
  Proof.
    intros Hn Hi Hh H Hh'.
    destruct (@as_step_pure u h o w Hi Hh) as (o1 & w1 & H1 & H2).
    assert (Hp : pure_step Phi (S (MAX_LOOPS k)) u h = Exc MaxLoopsExceeded \/
                 pure_step Phi (S (MAX_LOOPS k)) u h = Exc MinimumStepReached \/
                 exists v, pure_step Phi (S (MAX_LOOPS k)) u h = Ret v).
    { clear - Hn. generalize (S (MAX_LOOPS k)). intros n. revert h.
      induction n as [|n IH]; intros h; cbn [pure_step]; [auto|].
      destruct (Phi (val h) u) as [a b]. destruct (compute_s a b) as [e|sv] eqn:Ec; [elim (Hn _ _ _ Ec)|].
      destruct sv as [x| | |]; [destruct (tltb F x (tofZ F 1))| | |];
        try (destruct (n =? 0)%nat; [auto|]; destruct (tltb F _ _); [auto|apply IH]).
      right; right; eauto. }
    rewrite H1 in H.
    assert (E1 : pure_step Phi (S (MAX_LOOPS k)) u h = Exc e) by congruence.
    assert (E2 : o1 = o') by congruence. subst o1.
    assert (Hi' : Inv (a_accept o') (a_m o') u).
    { destruct Hp as [Hp|[Hp|[v Hp]]]; rewrite Hp in E1, H2; [| |discriminate E1];
        destruct (H2 Hn) as [-> H2']; exact H2'. }
    destruct (@as_step_pure u h' o' w' Hi' Hh') as (o2 & w2 & H3 & _). rewrite H3. reflexivity.
  Qed.
End Memoryless.

Section MemorylessCS.
  Variable F : tops.
  Variables U W : Type.
  Variable m : csm (T F) U W.
  Variable Phi : T F -> U -> U.
  Variable Inv : cs_st m -> U -> Prop.
  Hypothesis HM : cs_memoryless m Phi Inv.
  Notation PT := (pynum (T F)).
  Notation obj := (csobj F U W m).

  (** A user's chain of constant-step calls with arbitrary step sizes. *)
  Fixpoint cs_calls (u : U) (hs : list PT) (o : obj) (w : W) : list (out U) :=
    match hs with
    | [] => []
    | h :: hs =>
        let '(r, o', w') := cs_step u (val h) o w in
        r :: match r with Ret u1 => cs_calls u1 hs o' w' | _ => [] end
    end.

  Fixpoint cs_pure_chain (u : U) (hs : list PT) : list (out U) :=
    match hs with
    | [] => []
    | h :: hs =>
        if tleb F (tofZ F 0) (val h) then Ret (Phi (val h) u) :: cs_pure_chain (Phi (val h) u) hs
        else [Exc AssertionError]
    end.

  Theorem cs_calls_pure hs u (o : obj) w :
    cs_calls u hs (cs_reset_obj o) w = cs_pure_chain u hs.
  Proof.
    assert (G : forall hs u (o : obj) w, Inv (c_m o) u -> cs_calls u hs o w = cs_pure_chain u hs).
    { clear hs u o w. induction hs as [|h hs IH]; intros u o w Hi; [reflexivity|].
      cbn [cs_calls cs_pure_chain]. unfold cs_step.
      destruct (tleb F (tofZ F 0) (val h)); [|reflexivity].
      destruct (proj2 HM (c_m o) u (val h) w Hi) as (s' & w' & E & I'). rewrite E.
      f_equal. apply IH. exact I'. }
    apply G. apply (proj1 HM).
  Qed.
End MemorylessCS.

(** ** Time translation in exact arithmetic (C22) *)
Section Shift.
  Local Open Scope R_scope.
  Variables U W : Type.
  Variable d : R.
  Notation RT := (pynum (T Rops)).

  Definition shift (t : RT) : RT := PyN (A := T Rops) (isnp t) (val t + d).

  Lemma shift_padd t h : padd Rops (shift t) h = shift (padd Rops t h).
  Proof. unfold shift, padd. cbn [isnp val]. f_equal. rsimp. lra. Qed.

  Lemma shift_psub a b : psub Rops (shift a) (shift b) = psub Rops a b.
  Proof. unfold shift, psub. cbn [isnp val]. f_equal. rsimp. lra. Qed.

  Lemma shift_ltb a b : tltb Rops (val (shift a)) (val (shift b)) = tltb Rops (val a) (val b).
  Proof.
    destruct (tltb Rops (val a) (val b)) eqn:E.
    - apply Rltb_true in E. apply Rltb_true. cbn [shift val]. lra.
    - apply Rltb_false in E. apply Rltb_false. cbn [shift val]. lra.
  Qed.

  Lemma progress_nonzero c (t tf : RT) : val tf <> 0 \/ isnp tf = true -> progress_raises Rops c t tf = false.
  Proof.
    intros H. unfold progress_raises. destruct H as [H|H].
    - replace (teqb Rops (val tf) (tofZ Rops 0)) with false
        by (symmetry; apply Reqb_false; exact H).
      destruct (_ =? 0)%Z, (isnp t), (isnp tf); reflexivity.
    - rewrite H. destruct (_ =? 0)%Z, (isnp t), (teqb Rops _ _); reflexivity.
  Qed.

  Section CS.
    Variable m : csm (T Rops) U W.
    Notation obj := (csobj Rops U W m).
    Definition cs_shift (o : obj) : obj :=
      mk_csobj (map shift (c_t o)) (c_u o) (shift (c_tf o)) (shift (c_tc o)) (c_m o).

    Lemma cs_loop_shift : forall fuel u h sd sf count (o : obj) w,
      (val (c_tf o) <> 0 \/ isnp (c_tf o) = true) -> (val (c_tf o) + d <> 0 \/ isnp (c_tf o) = true) ->
      cs_loop fuel u h sd sf count (cs_shift o) w =
      (let '(r, o', w') := cs_loop fuel u h sd sf count o w in (r, cs_shift o', w')).
    Proof.
      induction fuel as [|fuel IH]; intros u h sd sf count o w H1 H2; cbn [cs_loop];
        change (c_tc (cs_shift o)) with (shift (c_tc o));
        change (c_tf (cs_shift o)) with (shift (c_tf o)); rewrite shift_ltb;
        destruct (tltb Rops (val (c_tc o)) (val (c_tf o))); try reflexivity.
      unfold cs_step. destruct (tleb Rops (tofZ Rops 0) (val h)); [|reflexivity].
      change (c_m (cs_shift o)) with (c_m o).
      destruct (cs_upd m u (val h) (c_m o) w) as [[[e|u'] s'] w']; [reflexivity|].
      cbn [c_t c_u c_tf c_tc c_m].
      change (c_tc (cs_shift o)) with (shift (c_tc o)).
      change (c_tf (cs_shift o)) with (shift (c_tf o)). rewrite shift_padd.
      rewrite !progress_nonzero; [|exact H1|exact H2].
      destruct (store_now sd sf (count + 1)) as [[|]|]; [| |reflexivity].
      - rewrite <- IH; cbn [c_tf]; try assumption. unfold cs_shift. cbn [c_t c_u c_tf c_tc c_m].
        rewrite map_app. reflexivity.
      - rewrite <- IH; cbn [c_tf]; try assumption. reflexivity.
    Qed.

    Theorem cs_evolve_shift fuel u (t0 tf h : RT) sd sf (o : obj) w :
      (val tf <> 0 \/ isnp tf = true) -> (val tf + d <> 0 \/ isnp tf = true) ->
      let '(r1, o1, w1) := cs_evolve fuel u t0 tf h sd sf o w in
      let '(r2, o2, w2) := cs_evolve fuel u (shift t0) (shift tf) h sd sf o w in
      r2 = r1 /\ w2 = w1 /\ c_u o2 = c_u o1 /\ c_t o2 = map shift (c_t o1).
    Proof.
      intros H1 H2. rewrite !cs_evolve_unfold, shift_padd, shift_ltb.
      assert (Es : cs_start u (shift t0) (shift tf) sd o = cs_shift (cs_start u t0 tf sd o))
        by (unfold cs_start; destruct sd; reflexivity).
      rewrite Es. destruct (tltb Rops (val tf) (val (padd Rops t0 h))); [repeat split; reflexivity|].
      rewrite cs_loop_shift; try (unfold cs_start; destruct sd; assumption).
      destruct (cs_loop fuel u h sd sf 0 (cs_start u t0 tf sd o) w) as [[r1 o1] w1].
      repeat split; reflexivity.
    Qed.
  End CS.

  Section AS.
    Variable m : asm (T Rops) U W.
    Variable k : consts (T Rops).
    Variable cfg : config (T Rops).
    Variable compute_s : U -> U -> exn + sval (T Rops).
    Notation obj := (asobj Rops U W m).
    Definition as_shift (o : obj) : obj :=
      mk_asobj (map shift (a_t o)) (a_u o) (shift (a_tf o)) (shift (a_tc o)) (a_accept o) (a_m o).

    Lemma as_step_loop_shift : forall fuel nl u h (o : obj) w,
      as_step_loop k cfg compute_s fuel nl u h (as_shift o) w =
      (let '(r, o', w') := as_step_loop k cfg compute_s fuel nl u h o w in (r, as_shift o', w')).
    Proof.
      induction fuel as [|fuel IH]; intros nl u h o w; cbn [as_step_loop]; [reflexivity|].
      cbn [as_shift a_accept a_m].
      destruct (as_upd m (a_accept o) u (val h) (a_m o) w) as [[[e|[a b]] s'] w']; [reflexivity|].
      destruct (compute_s a b) as [e|sv]; [reflexivity|].
      destruct (accepts sv); [reflexivity|].
      destruct (Nat.ltb (MAX_LOOPS k) (S nl)); [reflexivity|].
      destruct (tltb Rops (val (reject_size k cfg sv h)) (minh cfg)); [reflexivity|].
      rewrite <- IH. reflexivity.
    Qed.

    Lemma as_step_shift u h (o : obj) w :
      as_step k cfg compute_s u h (as_shift o) w =
      (let '(r, o', w') := as_step k cfg compute_s u h o w in (r, as_shift o', w')).
    Proof.
      unfold as_step. destruct (tleb Rops (tofZ Rops 0) (val h)); [apply as_step_loop_shift|reflexivity].
    Qed.

    Lemma as_loop_shift : forall fuel u h sd sf count (o : obj) w,
      (val (a_tf o) <> 0 \/ isnp (a_tf o) = true) -> (val (a_tf o) + d <> 0 \/ isnp (a_tf o) = true) ->
      as_loop k cfg compute_s fuel u h sd sf count (as_shift o) w =
      (let '(r, o', w') := as_loop k cfg compute_s fuel u h sd sf count o w in (r, as_shift o', w')).
    Proof.
      induction fuel as [|fuel IH]; intros u h sd sf count o w H1 H2; cbn [as_loop];
        change (a_tc (as_shift o)) with (shift (a_tc o));
        change (a_tf (as_shift o)) with (shift (a_tf o)); rewrite shift_ltb;
        destruct (tltb Rops (val (a_tc o)) (val (a_tf o))); try reflexivity.
      rewrite as_step_shift.
      destruct (as_step k cfg compute_s u h o w) as [[[[[u' h1] hs]|e|] o1] w1] eqn:Es;
        [|reflexivity|reflexivity].
      apply as_step_ret_store in Es. destruct Es as (_ & (S1 & S2 & S3 & S4) & _).
      change (a_tc (as_shift o1)) with (shift (a_tc o1)).
      change (a_tf (as_shift o1)) with (shift (a_tf o1)).
      cbn [a_tf a_t a_u a_tc a_accept a_m].
      rewrite !shift_padd.
      rewrite !progress_nonzero; try (rewrite S3; assumption); try (rewrite S3; exact H2).
      rewrite shift_ltb, shift_psub.
      destruct (store_now sd sf (count + 1)) as [[|]|]; [| |reflexivity].
      - rewrite <- IH; cbn [a_tf]; rewrite ?S3; try assumption.
        unfold as_shift. cbn [a_t a_u a_tf a_tc a_accept a_m].
        rewrite map_app. reflexivity.
      - rewrite <- IH; cbn [a_tf]; rewrite ?S3; try assumption.
        reflexivity.
    Qed.

    Theorem as_evolve_shift fuel u (t0 tf : RT) hi sd sf (o : obj) w :
      (val tf <> 0 \/ isnp tf = true) -> (val tf + d <> 0 \/ isnp tf = true) ->
      let '(r1, o1, w1) := as_evolve k cfg compute_s fuel u t0 tf hi sd sf o w in
      let '(r2, o2, w2) := as_evolve k cfg compute_s fuel u (shift t0) (shift tf) hi sd sf o w in
      r2 = r1 /\ w2 = w1 /\ a_u o2 = a_u o1 /\ a_t o2 = map shift (a_t o1).
    Proof.
      intros H1 H2. rewrite !as_evolve_unfold.
      assert (Es : as_start u (shift t0) (shift tf) sd o = as_shift (as_start u t0 tf sd o))
        by (unfold as_start; destruct sd; reflexivity).
      assert (Eh : h_start (shift t0) (shift tf) hi = h_start t0 tf hi).
      { unfold h_start, clamp. rewrite shift_psub, shift_padd, shift_ltb. reflexivity. }
      rewrite Es, Eh.
      rewrite as_loop_shift; try (unfold as_start; destruct sd; assumption).
      destruct (as_loop k cfg compute_s fuel u (h_start t0 tf hi) sd sf 0 (as_start u t0 tf sd o) w)
        as [[r1 o1] w1].
      repeat split; reflexivity.
    Qed.
  End AS.
End Shift.
