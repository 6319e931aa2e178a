(** * Invariants of the one-step map hold along whole runs

    If a set of states is closed under the memoryless one-step map of a solver, then every state returned
    or stored by [evolve] lies in it, whatever the outcome of the run (return, exception raised by the
    nonlinear function, step-size failure, exhausted fuel) and whatever the solver did before. *)

From Coq Require Import ZArith List Bool Lia.
From Verif Require Import Scalars Control ControlCS ControlAS ControlSim ControlSound.
Import ListNotations.

Set Implicit Arguments.

Section ConstantStep.
  Variable F : tops.
  Variables U W : Type.
  Variable m : csm (T F) U W.
  Variable Phi : T F -> U -> U.
  Variable Inv : cs_st m -> U -> Prop.
  Variable G : U -> Prop.
  Hypothesis HS : cs_sound m Phi Inv.
  Hypothesis HG : forall h u, G u -> G (Phi h u).
  Notation obj := (csobj F U W m).

  Lemma cs_loop_inv h sd sf : forall fuel count u (o : obj) w r o' w', Inv (c_m o) u -> G u -> Forall G (c_u o) ->
    cs_loop fuel u h sd sf count o w = (r, o', w') -> Forall G (c_u o') /\ forall u', r = Ret u' -> G u'.
  Proof.
    induction fuel as [|fuel IH]; intros count u o w r o' w' HI Hu Ho E; cbn [cs_loop] in E;
      destruct (tltb F (val (c_tc o)) (val (c_tf o))).
    1,2,4: inversion E; subst; split; [exact Ho|]; intros u'; (discriminate || (intros X; inversion X; subst; exact Hu)).
    unfold cs_step in E. destruct (tleb F (tofZ F 0) (val h)).
    2:{ inversion E; subst. split; [exact Ho|discriminate]. }
    assert (S := proj2 HS (c_m o) u (val h) w HI).
    destruct (cs_upd m u (val h) (c_m o) w) as [[[e|x] s'] w1].
    { inversion E; subst. split; [exact Ho|discriminate]. }
    destruct S as [-> HI']. cbn [c_t c_u c_tf c_tc c_m] in E.
    destruct (progress_raises F (count + 1) (padd F (c_tc o) h) (c_tf o)).
    { inversion E; subst. split; [exact Ho|discriminate]. }
    destruct (store_now sd sf (count + 1)) as [[]|].
    - eapply IH; [| | |exact E]; cbn [c_m c_u]; [exact HI'|apply HG, Hu|]. apply Forall_app. split; [exact Ho|]. constructor; [apply HG, Hu|constructor].
    - eapply IH; [| | |exact E]; cbn [c_m c_u]; [exact HI'|apply HG, Hu|exact Ho].
    - inversion E; subst. split; [exact Ho|discriminate].
  Qed.

  Theorem cs_evolve_inv fuel u t0 tf h sd sf (o : obj) w r o' w' : G u ->
    cs_evolve fuel u t0 tf h sd sf o w = (r, o', w') -> Forall G (c_u o') /\ forall u', r = Ret u' -> G u'.
  Proof.
    intros Hu E. unfold cs_evolve in E.
    destruct (tltb F (val tf) (val (padd F t0 h))).
    - inversion E; subst. split; [|discriminate]. destruct sd; repeat constructor. exact Hu.
    - eapply cs_loop_inv; [| | |exact E].
      + destruct sd; apply (proj1 HS).
      + exact Hu.
      + destruct sd; repeat constructor. exact Hu.
  Qed.
End ConstantStep.

Section AdaptiveStep.
  Variable F : tops.
  Variables U W : Type.
  Variable m : asm (T F) U W.
  Variable Phi : T F -> U -> U * U.
  Variable Inv : bool -> as_st m -> U -> Prop.
  Variable G : U -> Prop.
  Hypothesis HS : as_sound m Phi Inv.
  Hypothesis HG : forall h u, G u -> G (fst (Phi h u)).
  Variable k : consts (T F).
  Variable cfg : config (T F).
  Variable compute_s : U -> U -> exn + sval (T F).
  Notation obj := (asobj F U W m).

  Lemma as_step_loop_inv : forall fuel nl u h (o : obj) w r o' w', Inv (a_accept o) (a_m o) u -> G u ->
    as_step_loop k cfg compute_s fuel nl u h o w = (r, o', w') ->
    a_u o' = a_u o /\ a_tf o' = a_tf o /\ a_tc o' = a_tc o /\
    forall u' h1 h2, r = Ret (u', h1, h2) -> G u' /\ Inv (a_accept o') (a_m o') u'.
  Proof.
    induction fuel as [|fuel IH]; intros nl u h o w r o' w' HI Hu E; cbn [as_step_loop] in E.
    { inversion E; subst. repeat split; discriminate. }
    assert (S := proj2 HS (a_accept o) (a_m o) u (val h) w HI).
    destruct (as_upd m (a_accept o) u (val h) (a_m o) w) as [[[e|[x err]] s'] w1].
    { inversion E; subst. repeat split; discriminate. }
    destruct S as (Ex & HF & HT). cbn [fst] in HT.
    destruct (compute_s x err) as [e|sv].
    { inversion E; subst. repeat split; discriminate. }
    destruct (accepts sv) as [y|].
    { inversion E; subst. split; [reflexivity|]. split; [reflexivity|]. split; [reflexivity|]. intros u' h1 h2 Q. inversion Q; subst.
      split; [|exact HT]. change u' with (fst (u', err)). rewrite Ex. apply HG, Hu. }
    destruct (Nat.ltb (MAX_LOOPS k) (Datatypes.S nl)).
    { inversion E; subst. repeat split; discriminate. }
    destruct (tltb F (val (reject_size k cfg sv h)) (minh cfg)).
    { inversion E; subst. repeat split; discriminate. }
    apply (IH _ _ _ (set_accept (set_meth o s') false)) in E; [exact E|exact HF|exact Hu].
  Qed.

  Lemma as_loop_inv sd sf : forall fuel count u h (o : obj) w r o' w', Inv (a_accept o) (a_m o) u -> G u -> Forall G (a_u o) ->
    as_loop k cfg compute_s fuel u h sd sf count o w = (r, o', w') -> Forall G (a_u o') /\ forall u', r = Ret u' -> G u'.
  Proof.
    induction fuel as [|fuel IH]; intros count u h o w r o' w' HI Hu Ho E; cbn [as_loop] in E;
      destruct (tltb F (val (a_tc o)) (val (a_tf o))).
    1,2,4: inversion E; subst; split; [exact Ho|]; intros u'; (discriminate || (intros X; inversion X; subst; exact Hu)).
    unfold as_step in E. destruct (tleb F (tofZ F 0) (val h)).
    2:{ inversion E; subst. split; [exact Ho|discriminate]. }
    destruct (as_step_loop k cfg compute_s (Datatypes.S (Datatypes.S (MAX_LOOPS k))) 0 u h o w) as [[rs o1] w1] eqn:E1.
    destruct (@as_step_loop_inv _ _ _ _ _ _ _ _ _ HI Hu E1) as (U1 & _ & _ & R1).
    destruct rs as [[[u1 h1] h2]|e|].
    2,3: inversion E; subst; split; [rewrite U1; exact Ho|discriminate].
    destruct (R1 _ _ _ eq_refl) as [G1 I1].
    cbn [a_t a_u a_tf a_tc a_m a_accept] in E.
    destruct (progress_raises F (count + 1) (padd F (a_tc o1) h1) (a_tf o1)).
    { inversion E; subst. cbn [a_u]. split; [rewrite U1; exact Ho|discriminate]. }
    destruct (store_now sd sf (count + 1)) as [[]|].
    - eapply IH; [| | |exact E]; cbn [a_m a_u a_accept]; [exact I1|exact G1|]. rewrite U1. apply Forall_app. split; [exact Ho|]. constructor; [exact G1|constructor].
    - eapply IH; [| | |exact E]; cbn [a_m a_u a_accept]; [exact I1|exact G1|rewrite U1; exact Ho].
    - inversion E; subst. cbn [a_u]. split; [rewrite U1; exact Ho|discriminate].
  Qed.

  Theorem as_evolve_inv fuel u t0 tf hi sd sf (o : obj) w r o' w' : G u ->
    as_evolve k cfg compute_s fuel u t0 tf hi sd sf o w = (r, o', w') -> Forall G (a_u o') /\ forall u', r = Ret u' -> G u'.
  Proof.
    intros Hu E. unfold as_evolve in E.
    eapply as_loop_inv; [| | |exact E].
    - destruct sd; apply (proj1 HS).
    - exact Hu.
    - destruct sd; repeat constructor. exact Hu.
  Qed.
End AdaptiveStep.
