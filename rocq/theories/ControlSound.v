(** * Schemes that are right whenever they return: retry after a crash

    [as_sound]/[cs_sound] are like [as_memoryless]/[cs_memoryless] but for nonlinear functions
    that may raise: every update either returns the memoryless result or raises and leaves a state
    that is still good for the same vector. *)

From Coq Require Import ZArith List Bool Lia.
From Verif Require Import Scalars Control ControlCS ControlCSReal ControlAS ControlASReal ControlSim.
Import ListNotations.

Set Implicit Arguments.

Definition cs_sound (B U W : Type) (m : csm B U W) (Phi : B -> U -> U) (Inv : cs_st m -> U -> Prop) : Prop :=
  (forall s u, Inv (cs_reset m s) u) /\
  (forall s u h w, Inv s u ->
     match cs_upd m u h s w with
     | (inr x, s', _) => x = Phi h u /\ Inv s' x
     | (inl _, s', _) => Inv s' u
     end).

Definition as_sound (B U W : Type) (m : asm B U W) (Phi : B -> U -> U * U)
           (Inv : bool -> as_st m -> U -> Prop) : Prop :=
  (forall s u, Inv false (as_reset m s) u) /\
  (forall acc s u h w, Inv acc s u ->
     match as_upd m acc u h s w with
     | (inr x, s', _) => x = Phi h u /\ Inv false s' u /\ Inv true s' (fst x)
     | (inl _, s', _) => Inv acc s' u
     end).

Definition as_never_raises (B U W : Type) (m : asm B U W) : Prop :=
  forall acc u h s w e, fst (fst (as_upd m acc u h s w)) <> inl e.

Lemma as_sound_memoryless (B U W : Type) (m : asm B U W) Phi Inv :
  as_sound m Phi Inv -> as_never_raises m -> as_memoryless m Phi Inv.
Proof.
  intros [H1 H2] Hn. split; [exact H1|]. intros acc s u h w Hi.
  specialize (H2 acc s u h w Hi). specialize (Hn acc u h s w).
  destruct (as_upd m acc u h s w) as [[[e|x] s'] w']; [elim (Hn e); reflexivity|].
  destruct H2 as (-> & Ha & Hb). exists s', w'. auto.
Qed.

Lemma cs_sound_memoryless (B U W : Type) (m : csm B U W) Phi Inv :
  cs_sound m Phi Inv -> (forall u h s w e, fst (fst (cs_upd m u h s w)) <> inl e) ->
  cs_memoryless m Phi Inv.
Proof.
  intros [H1 H2] Hn. split; [exact H1|]. intros s u h w Hi.
  specialize (H2 s u h w Hi). specialize (Hn u h s w).
  destruct (cs_upd m u h s w) as [[[e|x] s'] w']; [elim (Hn e); reflexivity|].
  destruct H2 as (-> & Ha). exists s', w'. auto.
Qed.

(** A user works with a solver through a sequence of [step] calls. After an exception the same
    vector is tried again (with any step size), after a success the returned vector is used. *)
Section Retry.
  Variable F : tops.
  Variables U W : Type.
  Notation PT := (pynum (T F)).

  Section CS.
    Variable m : csm (T F) U W.
    Variable Phi : T F -> U -> U.
    Variable Inv : cs_st m -> U -> Prop.
    Hypothesis HS : cs_sound m Phi Inv.
    Notation obj := (csobj F U W m).

    (** Implementation side: outcomes of the calls. *)
    Fixpoint cs_session (u : U) (hs : list (T F)) (o : obj) (w : W) : list (out U) :=
      match hs with
      | [] => []
      | h :: hs =>
          let '(r, o', w') := cs_step u h o w in
          r :: match r with Ret u1 => cs_session u1 hs o' w' | _ => cs_session u hs o' w' end
      end.

    (** What the outcomes have to be: every successful call returns [Phi] of the vector it was
        given. *)
    Fixpoint cs_session_ok (u : U) (hs : list (T F)) (rs : list (out U)) : Prop :=
      match hs, rs with
      | [], [] => True
      | h :: hs, r :: rs =>
          match r with
          | Ret u1 => u1 = Phi h u /\ cs_session_ok u1 hs rs
          | _ => cs_session_ok u hs rs
          end
      | _, _ => False
      end.

    Lemma cs_session_sound hs : forall u (o : obj) w, Inv (c_m o) u ->
      cs_session_ok u hs (cs_session u hs o w).
    Proof.
      induction hs as [|h hs IH]; intros u o w Hi; [exact I|]. cbn [cs_session].
      unfold cs_step. destruct (tleb F (tofZ F 0) h).
      - assert (H := proj2 HS (c_m o) u h w Hi).
        destruct (cs_upd m u h (c_m o) w) as [[[e|x] s'] w']; cbn [cs_session_ok].
        + apply IH. exact H.
        + destruct H as [-> H]. split; [reflexivity|]. apply IH. exact H.
      - cbn [cs_session_ok]. apply IH. exact Hi.
    Qed.
  End CS.

  Section AS.
    Variable m : asm (T F) U W.
    Variable Phi : T F -> U -> U * U.
    Variable Inv : bool -> as_st m -> U -> Prop.
    Hypothesis HS : as_sound m Phi Inv.
    Variable k : consts (T F).
    Variable cfg : config (T F).
    Variable compute_s : U -> U -> exn + sval (T F).
    (** Computing the error measure itself does not raise. *)
    Hypothesis Hcs : forall a b e, compute_s a b <> inl e.
    Notation obj := (asobj F U W m).

    Fixpoint as_session (u : U) (hs : list PT) (o : obj) (w : W) : list (out (U * PT * PT)) :=
      match hs with
      | [] => []
      | h :: hs =>
          let '(r, o', w') := as_step k cfg compute_s u h o w in
          r :: match r with Ret (u1, _, _) => as_session u1 hs o' w' | _ => as_session u hs o' w' end
      end.

    (** Specification of one successful adaptive step of the memoryless method: some number of
        rejected sizes and then an accepted one. *)
    Inductive adaptive_step (u : U) : PT -> U * PT * PT -> Prop :=
    | ad_accept h x unew err :
        Phi (val h) u = (unew, err) -> compute_s unew err = inr (SFin x) ->
        tltb F x (tofZ F 1) = false ->
        adaptive_step u h (unew, h, accept_size k cfg x h)
    | ad_reject h sv unew err r :
        Phi (val h) u = (unew, err) -> compute_s unew err = inr sv -> accepts sv = None ->
        adaptive_step u (reject_size k cfg sv h) r ->
        adaptive_step u h r.

    Fixpoint as_session_ok (u : U) (hs : list PT) (rs : list (out (U * PT * PT))) : Prop :=
      match hs, rs with
      | [], [] => True
      | h :: hs, r :: rs =>
          match r with
          | Ret x => adaptive_step u h x /\ as_session_ok (fst (fst x)) hs rs
          | _ => as_session_ok u hs rs
          end
      | _, _ => False
      end.

    Lemma as_step_loop_sound : forall fuel nl u h (o : obj) w, Inv (a_accept o) (a_m o) u ->
      match as_step_loop k cfg compute_s fuel nl u h o w with
      | (Ret x, o', _) => adaptive_step u h x /\ Inv (a_accept o') (a_m o') (fst (fst x))
      | (_, o', _) => Inv (a_accept o') (a_m o') u
      end.
    Proof.
      induction fuel as [|fuel IH]; intros nl u h o w Hi; cbn [as_step_loop]; [exact Hi|].
      assert (H := proj2 HS (a_accept o) (a_m o) u (val h) w Hi).
      destruct (as_upd m (a_accept o) u (val h) (a_m o) w) as [[[e|[unew err]] s'] w']; [exact H|].
      destruct H as (Hp & Hf & Ht). cbn [fst] in Ht.
      destruct (compute_s unew err) as [e|sv] eqn:Ec; [elim (Hcs Ec)|].
      destruct (accepts sv) as [x|] eqn:Ea.
      - split; [|exact Ht]. unfold accepts in Ea. destruct sv as [y| | |]; try discriminate.
        destruct (tltb F y (tofZ F 1)) eqn:El; [discriminate|].
        assert (y = x) by congruence. subst y.
        eapply ad_accept; [symmetry; exact Hp|exact Ec|exact El].
      - destruct (Nat.ltb (MAX_LOOPS k) (S nl)); [exact Hf|].
        destruct (tltb F (val (reject_size k cfg sv h)) (minh cfg)); [exact Hf|].
        specialize (IH (S nl) u (reject_size k cfg sv h) (set_accept (set_meth o s') false) w' Hf).
        destruct (as_step_loop k cfg compute_s fuel (S nl) u (reject_size k cfg sv h)
                    (set_accept (set_meth o s') false) w') as [[[x|e|] o'] w'']; try exact IH.
        destruct IH as [IH1 IH2]. split; [|exact IH2].
        eapply ad_reject; [symmetry; exact Hp|exact Ec|exact Ea|exact IH1].
    Qed.

    Lemma as_session_sound hs : forall u (o : obj) w, Inv (a_accept o) (a_m o) u ->
      as_session_ok u hs (as_session u hs o w).
    Proof.
      induction hs as [|h hs IH]; intros u o w Hi; [exact I|]. cbn [as_session].
      unfold as_step. destruct (tleb F (tofZ F 0) (val h)).
      - assert (H := @as_step_loop_sound (S (S (MAX_LOOPS k))) 0 u h o w Hi).
        destruct (as_step_loop k cfg compute_s (S (S (MAX_LOOPS k))) 0 u h o w)
          as [[[[[u1 h1] h2]|e|] o'] w']; cbn [as_session_ok].
        + destruct H as [H1 H2]. split; [exact H1|]. apply IH. exact H2.
        + apply IH. exact H.
        + apply IH. exact H.
      - cbn [as_session_ok]. apply IH. exact Hi.
    Qed.
  End AS.
End Retry.
