(** * Theorems about caches and histories, for all sixteen solver strategies: C10-C16, C64 *)

From Coq Require Import ZArith List Bool Lia Reals Lra FunctionalExtensionality.
From Coquelicot Require Import Complex.
From Verif Require Import Scalars Control ControlCS ControlCSReal ControlAS ControlASReal ControlSim ControlSound
     Arrays SchemeBase SchemeIF SchemeETD4 SchemeETD5 Solvers SchemeFacts SchemeSound SchemeFamily SchemeCoefs
     SchemeCost CInst PropsControl.
Import ListNotations.

(** ** C10: evolve does not depend on what was done with the solver before

    The solver objects [o1], [o2] are arbitrary, so they can be the result of any history; [W] is
    any world (for instance a log of the calls of the nonlinear function). *)
Theorem C10_constant_step_history :
  forall (F : tops) (A : aops F) (W : Type) (p : problem A W) (k : cs_kind)
         fuel u t0 tf h store_data store_freq (o1 o2 : csobj F (vec A) W (cs_model p k)) w,
  let '(r1, o1', w1) := cs_evolve fuel u t0 tf h store_data store_freq o1 w in
  let '(r2, o2', w2) := cs_evolve fuel u t0 tf h store_data store_freq o2 w in
  r1 = r2 /\ w1 = w2 /\ c_t o1' = c_t o2' /\ c_u o1' = c_u o2'.
Proof.
  intros. apply (@cs_evolve_history F (vec A) W (cs_model p k) (cs_rel p k) (cs_model_forgets p k)).
Qed.

Theorem C10_adaptive_history :
  forall (F : tops) (A : aops F) (W : Type) (p : problem A W) (k : as_kind) ks cfg compute_s
         fuel u t0 tf h_init store_data store_freq (o1 o2 : asobj F (vec A) W (as_model p k)) w,
  let '(r1, o1', w1) := as_evolve ks cfg compute_s fuel u t0 tf h_init store_data store_freq o1 w in
  let '(r2, o2', w2) := as_evolve ks cfg compute_s fuel u t0 tf h_init store_data store_freq o2 w in
  r1 = r2 /\ w1 = w2 /\ a_t o1' = a_t o2' /\ a_u o1' = a_u o2'.
Proof.
  intros. apply (@as_evolve_history F (vec A) W (as_model p k) (as_rel p k) (as_model_forgets p k)).
Qed.

(** ** C11: chained steps are the steps of a newly constructed solver

    [cs_Phi p N k h u] / [as_Phi p N k h u] is the result of one step of a newly constructed
    solver of kind [k] with the pure nonlinear function [N]. *)
Theorem C11_constant_step_chain :
  forall (F : tops) (A : aops F) (W : Type) (p : problem A W) (N : vec A -> vec A) (k : cs_kind),
  (forall v w, exists w', p_nl p v w = (inr (N v), w')) ->
  linalg_total p -> cs_eq_ok p k ->
  forall u hs (o : csobj F (vec A) W (cs_model p k)) w,
  cs_calls u hs (cs_reset_obj o) w = cs_pure_chain F (cs_Phi p N k) u hs.
Proof.
  intros F A W p N k HN Ht He u hs o w.
  assert (H1 : forall v w y w', p_nl p v w = (inr y, w') -> y = N v)
    by (intros v w0 y w' E; destruct (HN v w0) as [w1 E1]; congruence).
  assert (H2 : forall v w e, fst (p_nl p v w) <> inl e)
    by (intros v w0 e; destruct (HN v w0) as [w1 E1]; rewrite E1; discriminate).
  apply (@cs_calls_pure F (vec A) W (cs_model p k) _ (cs_inv p N k)).
  apply cs_sound_memoryless; [apply cs_model_sound; assumption|].
  intros. apply cs_model_never_raises; assumption.
Qed.

Theorem C11_adaptive_chain :
  forall (F : tops) (A : aops F) (W : Type) (p : problem A W) (N : vec A -> vec A) (k : as_kind) ks cfg compute_s,
  (forall v w, exists w', p_nl p v w = (inr (N v), w')) ->
  linalg_total p -> as_eq_ok p k ->
  forall u hs (o : asobj F (vec A) W (as_model p k)) w,
  as_calls ks cfg compute_s u hs (as_reset_obj o) w = pure_chain F ks cfg compute_s (as_Phi p N k) u hs.
Proof.
  intros F A W p N k ks cfg cs HN Ht He u hs o w.
  assert (H1 : forall v w y w', p_nl p v w = (inr y, w') -> y = N v)
    by (intros v w0 y w' E; destruct (HN v w0) as [w1 E1]; congruence).
  assert (H2 : forall v w e, fst (p_nl p v w) <> inl e)
    by (intros v w0 e; destruct (HN v w0) as [w1 E1]; rewrite E1; discriminate).
  apply (@as_calls_pure F (vec A) ks cfg cs W (as_model p k) _ (as_inv p N k)).
  apply as_sound_memoryless; [apply as_model_sound; assumption|].
  apply as_model_never_raises; assumption.
Qed.

(** The snapshots of a constant-step run are the iterates of that one-step method. *)
Theorem C11_constant_step_evolve :
  forall (A : aops Rops) (W : Type) (p : problem A W) (N : vec A -> vec A) (k : cs_kind),
  (forall v w, exists w', p_nl p v w = (inr (N v), w')) -> linalg_total p ->
  forall u (t0 tf h : pynum (T Rops)) (o : csobj Rops (vec A) W (cs_model p k)) w,
  (0 < val h)%R -> (val h <= val tf - val t0)%R -> (val tf <> 0)%R ->
  exists n, (0 < n)%nat /\ forall fuel, (n <= fuel)%nat -> exists o' w',
    cs_evolve (F := Rops) fuel u t0 tf h true 1 o w = (Ret (Nat.iter n (cs_Phi p N k (val h)) u), o', w') /\
    c_u o' = map (fun j => Nat.iter j (cs_Phi p N k (val h)) u) (seq 0 (S n)).
Proof.
  intros A W p N k HN Ht u t0 tf h o w Hh Hfit Hz.
  assert (H1 : forall v w y w', p_nl p v w = (inr y, w') -> y = N v)
    by (intros v w0 y w' E; destruct (HN v w0) as [w1 E1]; congruence).
  assert (H2 : forall v w e, fst (p_nl p v w) <> inl e)
    by (intros v w0 e; destruct (HN v w0) as [w1 E1]; rewrite E1; discriminate).
  assert (HM : cs_memoryless (cs_model p k) (cs_Phi p N k) (cs_inv p N k)).
  { apply cs_sound_memoryless; [apply cs_model_sound; try assumption|].
    - intros a b E. apply Reqb_true in E. subst. reflexivity.
    - intros. apply cs_model_never_raises; assumption. }
  destruct (@steps_exist (val t0) (val tf) (val h) Hh) as (n & Hn1 & Hn2); [lra|].
  exists n. split; [lia|]. intros fuel Hf.
  destruct (@cs_evolve_exact _ W (cs_model p k) _ _ fuel u t0 tf h 1 n o w HM Hh) as (o' & w' & E1 & E2 & E3 & E4 & _);
    [lra|exact Hn2|left; exact Hz|lia|exact Hf|].
  exists o', w'. split; [exact E1|].
  unfold snapshots in E4. rewrite Nat.div_1_r in E4. rewrite E4. apply map_ext. intros a.
  rewrite Nat.mul_1_r. reflexivity.
Qed.

(** ** A concrete problem: two modes, L = diag(0, -1), N(v) = v * v entrywise. *)
Definition ex_cfg : etdcfg Rops := mk_etdcfg (F := Rops) (1/100)%R 32 1%R.
Definition ex_L : vec Cops := fun i => RtoC (- INR i).
Definition ex_problem : problem Cops unit :=
  mk_problem (pure_nl (fun (v : vec Cops) i => Cmult (v i) (v i))) 2 ex_L (fun i j => if Nat.eqb i j then ex_L i else RtoC 0)
    ex_cfg (fun m => inr m) (fun m => inr m) (eye Cops) (eye Cops) ex_L.

Example C11_not_vacuous :
  (forall v w, exists w', p_nl ex_problem v w = (inr (fun i => Cmult (v i) (v i)), w')) /\
  linalg_total ex_problem /\ (forall k, cs_eq_ok ex_problem k) /\ (forall k, as_eq_ok ex_problem k).
Proof.
  split; [intros v []; exists tt; reflexivity|].
  split; [split; discriminate|].
  split; intros k a b E; apply Reqb_true in E; subst; reflexivity.
Qed.

(** ** C12: step(u, h) is not a function of (u, h) alone *)

(** L = 0 and N(v) = v: after stepping from 1, a step from 0 does not stay at 0. *)
Definition growth : problem Cops unit :=
  mk_problem (pure_nl (fun v : vec Cops => v)) 1 (fun _ => RtoC 0) (fun _ _ => RtoC 0) ex_cfg
    (fun m => inr m) (fun m => inr m) (eye Cops) (eye Cops) (fun _ => RtoC 0).
(** One IF4 step for [growth] when the first stage is taken to be [y]. *)
Definition grow (h x y : R) : R :=
  let n2 := (x + h * y / 2)%R in
  let n3 := (x + h * n2 / 2)%R in
  let n4 := (x + h * n3)%R in
  (x + h * (y / 6 + n2 / 3 + n3 / 3 + n4 / 6))%R.

Lemma growth_coeffs h c : if4d_coeffs Rops Cops (p_vec growth) h c = (inr tt, mk_if_coefs (const_vec 1) (const_vec 1)).
Proof.
  unfold if4d_coeffs. change (p_vec growth) with (const_vec 0). cvec. do 3 f_equal; rewrite <- exp_0; f_equal; field.
Qed.

Lemma growth_stages hc b h x y :
  if4d_stages Rops Cops unit (p_nl growth) (const_vec x) h
    (mk_sst hc b (mk_if_coefs (const_vec 1) (const_vec 1)) (mk_mem1 (const_vec y))) tt =
  (inr (const_vec (grow h x y)),
   mk_sst hc b (mk_if_coefs (const_vec 1) (const_vec 1)) (mk_mem1 (const_vec (grow h x y))), tt).
Proof.
  unfold if4d_stages, bind, get, upd, ret, call, set_mem.
  cbn [p_nl growth fst snd h_coeff n1_init coefs mem m1_NL1 if_EL if_EL2]. unfold pure_nl. cvec.
  unfold grow. replace (1 * x)%R with x by ring.
  match goal with |- (inr (const_vec ?a), _, _) = (inr (const_vec ?b), _, _) => replace a with b by (field) end.
  reflexivity.
Qed.

Lemma growth_new h x :
  cs_upd (cs_model growth IF4d) (const_vec x) h (cs_new growth IF4d) tt =
  (inr (const_vec (grow h x x)),
   mk_sst (Some h) true (mk_if_coefs (const_vec 1) (const_vec 1)) (mk_mem1 (const_vec (grow h x x))), tt).
Proof.
  cbn [cs_model cs_new]. unfold if4_diag, cs_solver. cbn [cs_upd]. unfold cs_update_stages.
  unfold bind, s_update_coeffs. cbn [same_h h_coeff set_h coefs]. rewrite growth_coeffs.
  unfold if4d_init, set_coefs, get, upd, ret, call, bind, set_mem, set_init.
  cbn [p_nl growth pure_nl n1_init h_coeff coefs mem]. unfold pure_nl.
  apply growth_stages.
Qed.

Lemma growth_next h x y :
  cs_upd (cs_model growth IF4d) (const_vec x) h
    (mk_sst (Some h) true (mk_if_coefs (const_vec 1) (const_vec 1)) (mk_mem1 (const_vec y))) tt =
  (inr (const_vec (grow h x y)),
   mk_sst (Some h) true (mk_if_coefs (const_vec 1) (const_vec 1)) (mk_mem1 (const_vec (grow h x y))), tt).
Proof.
  cbn [cs_model]. unfold if4_diag, cs_solver. cbn [cs_upd]. unfold cs_update_stages.
  unfold bind, s_update_coeffs. cbn [same_h h_coeff].
  replace (teqb Rops h h) with true by (symmetry; apply Reqb_true; reflexivity).
  unfold get, ret. cbn [n1_init]. apply growth_stages.
Qed.

(** Two objects built by the same constructor call; one of them is stepped once before. The same
    [step(u, h)] then returns different vectors. *)
Theorem C12_step_function_refuted :
  let o := cs_new_obj growth IF4d in
  let '(_, o1, w1) := cs_step (F := Rops) (const_vec 1) 1%R o tt in
  fst (fst (cs_step (F := Rops) (const_vec 0) 1%R o1 w1)) <> fst (fst (cs_step (F := Rops) (const_vec 0) 1%R o tt)).
Proof.
  cbn zeta. unfold cs_step. replace (tleb Rops (tofZ Rops 0) 1%R) with true by (symmetry; apply Rleb_true; cbn; lra).
  cbn [cs_new_obj c_m]. rewrite (growth_new 1%R 1%R). cbn [c_m]. rewrite (growth_next 1%R 0%R), (growth_new 1%R 0%R).
  cbn [fst]. intros E. injection E as E. assert (E' := f_equal (fun v : vec Cops => fst (v 0%nat)) E).
  unfold const_vec, RtoC, grow in E'. cbn [fst] in E'. lra.
Qed.

(** What does hold: for ETD35 every step after a successful one depends only on (u, h). *)
Theorem C12_etd35_step_after_success :
  forall (F : tops) (A : aops F) (W : Type) (p : problem A W) (N : vec A -> vec A) (k : as_kind) ks cfg compute_s,
  (k = ETD35d \/ k = ETD35n \/ k = ETD35z) ->
  (forall v w, exists w', p_nl p v w = (inr (N v), w')) ->
  linalg_total p -> as_eq_ok p k ->
  forall u1 h1 u2 h2 (o : asobj F (vec A) W (as_model p k)) w x o1 w1,
  as_inv p N k (a_accept o) (a_m o) u1 ->
  as_step ks cfg compute_s u1 h1 o w = (Ret x, o1, w1) ->
  tleb F (tofZ F 0) (val h2) = true ->
  fst (fst (as_step ks cfg compute_s u2 h2 o1 w1)) = pure_step F ks cfg compute_s (as_Phi p N k) (S (MAX_LOOPS ks)) u2 h2.
Proof.
  intros F A W p N k ks cfg cs Hk HN Ht He u1 h1 u2 h2 o w x o1 w1 Hi Hs Hh.
  assert (H1 : forall v w y w', p_nl p v w = (inr y, w') -> y = N v)
    by (intros v w0 y w' E; destruct (HN v w0) as [wa E1]; congruence).
  assert (H2 : forall v w e, fst (p_nl p v w) <> inl e)
    by (intros v w0 e; destruct (HN v w0) as [wa E1]; rewrite E1; discriminate).
  assert (HM : as_memoryless (as_model p k) (as_Phi p N k) (as_inv p N k)).
  { apply as_sound_memoryless; [apply as_model_sound; assumption|apply as_model_never_raises; assumption]. }
  destruct (tleb F (tofZ F 0) (val h1)) eqn:Hh1.
  2: { unfold as_step in Hs. rewrite Hh1 in Hs. discriminate. }
  destruct (as_step_pure ks cfg cs HM u1 h1 o w Hi Hh1) as (o' & w' & E1 & E2).
  rewrite Hs in E1. remember (pure_step F ks cfg cs (as_Phi p N k) (S (MAX_LOOPS ks)) u1 h1) as q.
  injection E1 as E1 <- <-. destruct q as [[[xu xh] xs]|e|]; try discriminate.
  destruct E2 as [E2 E3].
  assert (Hi2 : as_inv p N k (a_accept o1) (a_m o1) u2).
  { rewrite E2 in *. clear - E3 Hk. destruct Hk as [-> |[-> | ->]]; cbn [as_inv] in *.
    - destruct E3 as (I1 & I2 & I3). split; [exact I1|]. split; [exact I2|discriminate].
    - destruct E3 as (I1 & I2 & I3). split; [exact I1|]. split; [exact I2|discriminate].
    - destruct E3 as (I1 & I2 & I3). split; [exact I1|]. split; [exact I2|]. split; discriminate. }
  destruct (as_step_pure ks cfg cs HM u2 h2 o1 w1 Hi2 Hh) as (o2 & w2 & E4 & _).
  rewrite E4. reflexivity.
Qed.

(** ** C13: a raising nonlinear function does not corrupt the solver

    The nonlinear function may raise on any call (depending on the world); when it returns, it
    returns [N v]. A user keeps calling [step], after an exception with the same vector and any
    step size, after a success with the vector returned: every successful call returns the result
    of a newly constructed solver. *)
Theorem C13_constant_step_crash_safe :
  forall (F : tops) (A : aops F) (W : Type) (p : problem A W) (N : vec A -> vec A) (k : cs_kind),
  (forall v w y w', p_nl p v w = (inr y, w') -> y = N v) ->
  linalg_total p -> cs_eq_ok p k ->
  forall u hs w, cs_session_ok F (cs_Phi p N k) u hs (cs_session u hs (cs_new_obj p k) w).
Proof.
  intros F A W p N k HN Ht He u hs w.
  apply (@cs_session_sound F (vec A) W (cs_model p k) _ (cs_inv p N k)).
  - apply cs_model_sound; assumption.
  - apply cs_new_inv.
Qed.

Theorem C13_adaptive_crash_safe :
  forall (F : tops) (A : aops F) (W : Type) (p : problem A W) (N : vec A -> vec A) (k : as_kind) ks cfg compute_s,
  (forall v w y w', p_nl p v w = (inr y, w') -> y = N v) ->
  linalg_total p -> as_eq_ok p k -> (forall a b e, compute_s a b <> inl e) ->
  forall u hs w, as_session_ok F (as_Phi p N k) ks cfg compute_s u hs
                   (as_session ks cfg compute_s u hs (as_new_obj p k) w).
Proof.
  intros F A W p N k ks cfg cs HN Ht He Hcs u hs w.
  apply (@as_session_sound F (vec A) W (as_model p k) _ (as_inv p N k)).
  - apply as_model_sound; assumption.
  - exact Hcs.
  - apply as_new_inv.
Qed.

(** A nonlinear function that raises on its third call only. *)
Definition flaky : problem Cops nat :=
  with_nl ex_problem (fun v w => (if Nat.eqb w 2 then inl ValueError else inr (fun i => Cmult (v i) (v i)), S w)).
Example C13_not_vacuous :
  (forall v w y w', p_nl flaky v w = (inr y, w') -> y = fun i => Cmult (v i) (v i)) /\
  linalg_total flaky /\
  exists u1 u2, cs_session (F := Rops) (fun _ => RtoC 1) [1%R; 1%R; 1%R] (cs_new_obj flaky IF4d) 0%nat
    = [Exc ValueError; Ret u1; Ret u2].
Proof.
  split. { intros v w y w' E. cbn in E. destruct (Nat.eqb w 2); congruence. }
  split; [split; discriminate|].
  cbn [cs_session]. unfold cs_step.
  replace (tleb Rops (tofZ Rops 0) 1%R) with true by (symmetry; apply Rleb_true; cbn; lra).
  cbn [cs_new_obj c_m cs_new cs_model]. unfold if4_diag, cs_solver.
  cbn [cs_upd]. unfold cs_update_stages, s_update_coeffs, bind, same_h. cbn [h_coeff set_h coefs].
  unfold if4d_coeffs, if4d_init, if4d_stages, get, upd, ret, call, set_coefs, set_mem, set_init.
  do 3 (cbn [n1_init h_coeff coefs mem flaky with_nl p_nl Nat.eqb bind c_m set_h];
    replace (teqb Rops 1%R 1%R) with true by (symmetry; apply Reqb_true; reflexivity)).
  eexists _, _. reflexivity.
Qed.

(** ** C14: a failed coefficient computation is mistaken for a completed one *)

(** For every solver with a matrix operator: if the first step of size [h] fails because the
    coefficients cannot be computed, a second step of the same size does not fail: it goes on
    with whatever is in the coefficient arrays. *)
Theorem C14_failed_coefficients_reused_refuted :
  forall (F : tops) (A : aops F) (W : Type) (p : problem A W),
  (forall v w e, fst (p_nl p v w) <> inl e) ->
  forall h e, teqb F h h = true -> tleb F (tofZ F 0) h = true ->
  (forall k, fst (cs_uc p k h (cs_k0 A k)) = inl e ->
     forall u w,
     let '(r1, o1, w1) := cs_step u h (cs_new_obj p k) w in
     r1 = Exc e /\ exists u2, fst (fst (cs_step u h o1 w1)) = Ret u2) /\
  (forall k, fst (as_uc p k h (as_k0 A k)) = inl e ->
     forall u w,
     let '(r1, s1, w1) := as_upd (as_model p k) false u h (as_new p k) w in
     r1 = inl e /\ exists x, fst (fst (as_upd (as_model p k) false u h s1 w1)) = inr x).
Proof.
  intros F A W p HP h e Hh Hle. split; intros k Hc u w.
  - unfold cs_step at 1. rewrite Hle. cbn [cs_new_obj c_m].
    assert (S0 : same_h F h (cs_hc p k (cs_new p k)) = false) by (destruct k; reflexivity).
    assert (C0 : cs_coefs p k (cs_new p k) = cs_k0 A k) by (destruct k; reflexivity).
    rewrite <- C0 in Hc.
    assert (R := cs_upd_coefs_raise p k u h (cs_new p k) w S0 Hc).
    assert (Q := cs_upd_coefs p k u h (cs_new p k) w). cbn zeta in Q. rewrite S0 in Q.
    destruct (cs_upd (cs_model p k) u h (cs_new p k) w) as [[r s1] w1]. cbn [fst snd] in R, Q. subst r.
    split; [reflexivity|]. unfold cs_step. rewrite Hle. cbn [c_m].
    assert (S1 : same_h F h (cs_hc p k s1) = true) by (rewrite (proj2 Q); exact Hh).
    assert (NR := fun e => @cs_upd_cached F A W p HP k u h s1 w1 e S1).
    destruct (cs_upd (cs_model p k) u h s1 w1) as [[[e2|x] s2] w2]; [elim (NR e2); reflexivity|].
    exists x. reflexivity.
  - assert (S0 : same_h F h (as_hc p k (as_new p k)) = false) by (destruct k; reflexivity).
    assert (C0 : as_coefs p k (as_new p k) = as_k0 A k) by (destruct k; reflexivity).
    rewrite <- C0 in Hc.
    assert (R := as_upd_coefs_raise p k false u h (as_new p k) w S0 Hc).
    assert (Q := as_upd_coefs p k false u h (as_new p k) w). cbn zeta in Q. rewrite S0 in Q.
    destruct (as_upd (as_model p k) false u h (as_new p k) w) as [[r s1] w1]. cbn [fst snd] in R, Q. subst r.
    split; [reflexivity|].
    assert (S1 : same_h F h (as_hc p k s1) = true) by (rewrite (proj2 Q); exact Hh).
    assert (NR := fun e => @as_upd_cached F A W p HP k false u h s1 w1 e S1).
    destruct (as_upd (as_model p k) false u h s1 w1) as [[[e2|x] s2] w2]; [elim (NR e2); reflexivity|].
    exists x. reflexivity.
Qed.
(** Witness: [scipy.linalg.expm] rejects the matrix, N = 0. The first step raises, the second one
    silently returns the zero vector. *)
Definition no_expm : problem Cops unit :=
  mk_problem (pure_nl (fun _ : vec Cops => const_vec 0)) 1 (const_vec 0) (fun _ _ => RtoC 0) ex_cfg
    (fun _ => inl ValueError) (fun m => inr m) (eye Cops) (eye Cops) (const_vec 0).

Theorem C14_witness_refuted :
  let '(r1, o1, w1) := cs_step (F := Rops) (const_vec 1) 1%R (cs_new_obj no_expm IF4n) tt in
  r1 = Exc ValueError /\ fst (fst (cs_step (F := Rops) (const_vec 1) 1%R o1 w1)) = Ret (const_vec 0).
Proof.
  unfold cs_step at 1. replace (tleb Rops (tofZ Rops 0) 1%R) with true by (symmetry; apply Rleb_true; cbn; lra).
  cbn [cs_new_obj c_m cs_model cs_new]. unfold if4_nondiag, cs_solver. cbn [cs_upd].
  unfold cs_update_stages, s_update_coeffs, bind at 1, same_h. cbn [h_coeff set_h coefs].
  unfold if4n_coeffs at 1. cbn [no_expm p_expm]. split; [reflexivity|].
  unfold cs_step. replace (tleb Rops (tofZ Rops 0) 1%R) with true by (symmetry; apply Rleb_true; cbn; lra).
  cbn [c_m cs_upd]. unfold cs_update_stages, s_update_coeffs, same_h, set_coefs.
  unfold if4n_init, if4n_stages, bind, get, upd, ret, call, set_mem, set_init.
  do 2 (cbn [p_nl pure_nl no_expm n1_init h_coeff coefs mem fst z_if if_EL if_EL2 m1_NL1 set_h];
    replace (teqb Rops 1%R 1%R) with true by (symmetry; apply Reqb_true; reflexivity)).
  unfold pure_nl. cbn [fst coefs mem z_if if_EL if_EL2 m1_NL1 h_coeff n1_init].
  f_equal.
  assert (E : forall x, emdot Cops (p_size no_expm) (mzero Cops) (const_vec x) = const_vec 0).
  { intros x. apply functional_extensionality. intros i. unfold const_vec, mzero. csimp. cbn [p_size no_expm csum].
    ceq. ring. }
  cvec. rewrite !E. cvec. f_equal. field.
Qed.

(** ** C15: the coefficients in use always match the step size *)

(** Any sequence of internal operations: resets, and updates with arbitrary vectors, step sizes and
    (for adaptive solvers) flags; exceptions of the nonlinear function may occur anywhere. *)
Inductive cs_op (F : tops) (A : aops F) := CsReset | CsUpdate (u : vec A) (h : T F).
Inductive as_op (F : tops) (A : aops F) := AsReset | AsUpdate (acc : bool) (u : vec A) (h : T F).
Arguments CsReset {F A}.  Arguments CsUpdate {F A}.  Arguments AsReset {F A}.  Arguments AsUpdate {F A}.

Fixpoint cs_run {F} {A : aops F} {W} (m : csm (T F) (vec A) W) (ops : list (cs_op F A)) (s : cs_st m) (w : W) : cs_st m * W :=
  match ops with
  | [] => (s, w)
  | CsReset :: ops => cs_run m ops (cs_reset m s) w
  | CsUpdate u h :: ops => let '(_, s', w') := cs_upd m u h s w in cs_run m ops s' w'
  end.
Fixpoint as_run {F} {A : aops F} {W} (m : asm (T F) (vec A) W) (ops : list (as_op F A)) (s : as_st m) (w : W) : as_st m * W :=
  match ops with
  | [] => (s, w)
  | AsReset :: ops => as_run m ops (as_reset m s) w
  | AsUpdate acc u h :: ops => let '(_, s', w') := as_upd m acc u h s w in as_run m ops s' w'
  end.

(** [kof uc k0 h]: the coefficients a newly constructed solver computes for [h]. In IEEE arithmetic
    the step size used before may be the other zero, hence [teqb]. *)
Theorem C15_constant_step_coefficients :
  forall (F : tops) (A : aops F) (W : Type) (p : problem A W) (k : cs_kind),
  linalg_total p ->
  forall ops w0 u h,
  let '(s, w) := cs_run (cs_model p k) ops (cs_new p k) w0 in
  let '(_, s', _) := cs_upd (cs_model p k) u h s w in
  exists h', (h' = h \/ teqb F h h' = true) /\ cs_coefs p k s' = kof F (cs_uc p k) (cs_k0 A k) h'.
Proof.
  intros F A W p k Ht ops w0 u h.
  assert (HK : forall h c, snd (cs_uc p k h c) = kof F (cs_uc p k) (cs_k0 A k) h).
  { intros h0 c. rewrite (uc_kof F (cs_uc_indep p k) (cs_uc_total k Ht) (cs_k0 A k)). reflexivity. }
  assert (Step : forall s w u h, (forall h', cs_hc p k s = Some h' -> cs_coefs p k s = kof F (cs_uc p k) (cs_k0 A k) h') ->
            let s' := snd (fst (cs_upd (cs_model p k) u h s w)) in
            (forall h', cs_hc p k s' = Some h' -> cs_coefs p k s' = kof F (cs_uc p k) (cs_k0 A k) h') /\
            exists h', (h' = h \/ teqb F h h' = true) /\ cs_coefs p k s' = kof F (cs_uc p k) (cs_k0 A k) h').
  { intros s w u0 h0 Hi. cbn zeta. assert (Q := cs_upd_coefs p k u0 h0 s w). cbn zeta in Q.
    destruct (same_h F h0 (cs_hc p k s)) eqn:E.
    - destruct Q as [Q1 Q2]. rewrite Q1, Q2. split; [exact Hi|].
      unfold same_h in E. destruct (cs_hc p k s) as [h'|] eqn:E'; [|discriminate].
      exists h'. split; [right; exact E|]. apply Hi. reflexivity.
    - destruct Q as [Q1 Q2]. rewrite Q1, Q2, HK. split; [intros h' [= <-]; reflexivity|].
      exists h0. auto. }
  assert (Run : forall ops s w, (forall h', cs_hc p k s = Some h' -> cs_coefs p k s = kof F (cs_uc p k) (cs_k0 A k) h') ->
            let '(s', _) := cs_run (cs_model p k) ops s w in
            forall h', cs_hc p k s' = Some h' -> cs_coefs p k s' = kof F (cs_uc p k) (cs_k0 A k) h').
  { induction ops0 as [|[|v h1] ops0 IH]; intros s w Hi; cbn [cs_run]; [exact Hi| |].
    - apply IH. destruct k; discriminate.
    - destruct (Step s w v h1 Hi) as [S1 _].
      destruct (cs_upd (cs_model p k) v h1 s w) as [[r s1] w1]. apply IH. exact S1. }
  specialize (Run ops (cs_new p k) w0).
  destruct (cs_run (cs_model p k) ops (cs_new p k) w0) as [s w].
  destruct (Step s w u h) as [_ S2]; [apply Run; destruct k; discriminate|].
  destruct (cs_upd (cs_model p k) u h s w) as [[r s1] w1]. exact S2.
Qed.

Theorem C15_adaptive_coefficients :
  forall (F : tops) (A : aops F) (W : Type) (p : problem A W) (k : as_kind),
  linalg_total p ->
  forall ops w0 acc u h,
  let '(s, w) := as_run (as_model p k) ops (as_new p k) w0 in
  let '(_, s', _) := as_upd (as_model p k) acc u h s w in
  exists h', (h' = h \/ teqb F h h' = true) /\ as_coefs p k s' = kof F (as_uc p k) (as_k0 A k) h'.
Proof.
  intros F A W p k Ht ops w0 acc u h.
  assert (HK : forall h c, snd (as_uc p k h c) = kof F (as_uc p k) (as_k0 A k) h).
  { intros h0 c. rewrite (uc_kof F (as_uc_indep p k) (as_uc_total k Ht) (as_k0 A k)). reflexivity. }
  assert (Step : forall s w a u h, (forall h', as_hc p k s = Some h' -> as_coefs p k s = kof F (as_uc p k) (as_k0 A k) h') ->
            let s' := snd (fst (as_upd (as_model p k) a u h s w)) in
            (forall h', as_hc p k s' = Some h' -> as_coefs p k s' = kof F (as_uc p k) (as_k0 A k) h') /\
            exists h', (h' = h \/ teqb F h h' = true) /\ as_coefs p k s' = kof F (as_uc p k) (as_k0 A k) h').
  { intros s w a u0 h0 Hi. cbn zeta. assert (Q := as_upd_coefs p k a u0 h0 s w). cbn zeta in Q.
    destruct (same_h F h0 (as_hc p k s)) eqn:E.
    - destruct Q as [Q1 Q2]. rewrite Q1, Q2. split; [exact Hi|].
      unfold same_h in E. destruct (as_hc p k s) as [h'|] eqn:E'; [|discriminate].
      exists h'. split; [right; exact E|]. apply Hi. reflexivity.
    - destruct Q as [Q1 Q2]. rewrite Q1, Q2, HK. split; [intros h' [= <-]; reflexivity|].
      exists h0. auto. }
  assert (Run : forall ops s w, (forall h', as_hc p k s = Some h' -> as_coefs p k s = kof F (as_uc p k) (as_k0 A k) h') ->
            let '(s', _) := as_run (as_model p k) ops s w in
            forall h', as_hc p k s' = Some h' -> as_coefs p k s' = kof F (as_uc p k) (as_k0 A k) h').
  { induction ops0 as [|[|a v h1] ops0 IH]; intros s w Hi; cbn [as_run]; [exact Hi| |].
    - apply IH. destruct k; discriminate.
    - destruct (Step s w a v h1 Hi) as [S1 _].
      destruct (as_upd (as_model p k) a v h1 s w) as [[r s1] w1]. apply IH. exact S1. }
  specialize (Run ops (as_new p k) w0).
  destruct (as_run (as_model p k) ops (as_new p k) w0) as [s w].
  destruct (Step s w acc u h) as [_ S2]; [apply Run; destruct k; discriminate|].
  destruct (as_upd (as_model p k) acc u h s w) as [[r s1] w1]. exact S2.
Qed.

(** In exact arithmetic the step size is exactly [h]. *)
Corollary C15_exact :
  forall (A : aops Rops) (W : Type) (p : problem A W), linalg_total p ->
  (forall (k : cs_kind) ops w0 u h,
    let '(s, w) := cs_run (cs_model p k) ops (cs_new p k) w0 in
    let '(_, s', _) := cs_upd (cs_model p k) u h s w in
    cs_coefs p k s' = snd (cs_uc p k h (cs_k0 A k))) /\
  (forall (k : as_kind) ops w0 acc u h,
    let '(s, w) := as_run (as_model p k) ops (as_new p k) w0 in
    let '(_, s', _) := as_upd (as_model p k) acc u h s w in
    as_coefs p k s' = snd (as_uc p k h (as_k0 A k))).
Proof.
  intros A W p Ht. split.
  - intros k ops w0 u h. assert (H := C15_constant_step_coefficients Rops A W p k Ht ops w0 u h).
    destruct (cs_run _ _ _ _) as [s w]. destruct (cs_upd _ _ _ _ _) as [[r s'] w'].
    destruct H as (h' & [-> |E] & H); [exact H|]. apply Reqb_true in E. subst h'. exact H.
  - intros k ops w0 acc u h. assert (H := C15_adaptive_coefficients Rops A W p k Ht ops w0 acc u h).
    destruct (as_run _ _ _ _) as [s w]. destruct (as_upd _ _ _ _ _ _) as [[r s'] w'].
    destruct H as (h' & [-> |E] & H); [exact H|]. apply Reqb_true in E. subst h'. exact H.
Qed.

Example C15_not_vacuous : linalg_total ex_problem /\
  exists s w, cs_run (cs_model ex_problem ETD4d)
    [CsUpdate (const_vec 1) (1/1000)%R; CsUpdate (const_vec 2) 5%R; CsReset; CsUpdate (const_vec 3) (1/10)%R]
    (cs_new ex_problem ETD4d) tt = (s, w).
Proof.
  split; [split; discriminate|]. destruct (cs_run _ _ _ _) as [s w]. eauto.
Qed.

(** ** C16: changing [etd_config] *)

(** [etd_config] is read when coefficients are computed, and only then: with the step size of the
    cache a new configuration has no effect. *)
Definition with_cfg {F} {A : aops F} {W} (p : problem A W) (cfg : etdcfg F) : problem A W :=
  mk_problem (p_nl p) (p_size p) (p_vec p) (p_mat p) cfg (p_expm p) (p_inv p) (p_S p) (p_Sinv p) (p_eigs p).

(** A state of the solver with configuration [cfg] is a state of the solver with [cfg']. *)
Definition cs_recfg {F} {A : aops F} {W} (p : problem A W) cfg (k : cs_kind) :
  cs_st (cs_model p k) -> cs_st (cs_model (with_cfg p cfg) k) :=
  match k with
  | IF4d => fun s => s | IF4n => fun s => s | ETD4d => fun s => s | ETD4n => fun s => s
  | ETD5d => fun s => s | ETD5n => fun s => s
  end.
Definition as_recfg {F} {A : aops F} {W} (p : problem A W) cfg (k : as_kind) :
  as_st (as_model p k) -> as_st (as_model (with_cfg p cfg) k) :=
  match k with
  | IF34d => fun s => s | IF34n => fun s => s | IF34z => fun s => s | IF45DPd => fun s => s
  | ETD34d => fun s => s | ETD34n => fun s => s | ETD34z => fun s => s
  | ETD35d => fun s => s | ETD35n => fun s => s | ETD35z => fun s => s
  end.

(** After the coefficients for [h] are in the cache, switching to any other configuration changes
    nothing: not the result, not the state. *)
Lemma update_same_h F K X Y W uc h (g : unit -> M (sst (T F) K X) W Y) s w :
  same_h F h (h_coeff s) = true -> bind (s_update_coeffs F W K X uc h) g s w = g tt s w.
Proof. intros H. unfold bind, s_update_coeffs. rewrite H. reflexivity. Qed.

Theorem C16_config_change_ignored_refuted :
  forall (F : tops) (A : aops F) (W : Type) (p : problem A W) (k : cs_kind) cfg' u h s w,
  same_h F h (cs_hc p k s) = true ->
  let x := cs_upd (cs_model p k) u h s w in
  cs_upd (cs_model (with_cfg p cfg') k) u h (cs_recfg p cfg' k s) w =
  (fst (fst x), cs_recfg p cfg' k (snd (fst x)), snd x).
Proof.
  intros F A W p k cfg' u h s w H. cbn zeta.
  destruct k; cbn [cs_hc cs_recfg cs_model] in *;
    unfold if4_diag, if4_nondiag, etd4_diag, etd4_nondiag, etd5_diag, etd5_nondiag, cs_solver;
    cbn [cs_upd cs_st cs_reset]; unfold cs_update_stages;
    rewrite !update_same_h by exact H;
    match goal with |- ?y = (fst (fst ?x), _, _) => change y with x; destruct x as [[? ?] ?]; reflexivity end.
Qed.

Theorem C16_adaptive_config_change_ignored_refuted :
  forall (F : tops) (A : aops F) (W : Type) (p : problem A W) (k : as_kind) cfg' acc u h s w,
  same_h F h (as_hc p k s) = true ->
  let x := as_upd (as_model p k) acc u h s w in
  as_upd (as_model (with_cfg p cfg') k) acc u h (as_recfg p cfg' k s) w =
  (fst (fst x), as_recfg p cfg' k (snd (fst x)), snd x).
Proof.
  intros F A W p k cfg' acc u h s w H. cbn zeta.
  destruct k; cbn [as_hc as_recfg as_model] in *;
    unfold if34_diag, if34_nondiag, if34_diagonalized, if45dp, etd34_diag, etd34_nondiag, etd34_diagonalized,
      etd35_diag, etd35_nondiag, etd35_diagonalized, as_solver;
    cbn [as_upd as_st as_reset]; unfold as_update_stages, dp_update_stages;
    rewrite !update_same_h by exact H;
    match goal with |- ?y = (fst (fst ?x), _, _) => change y with x; destruct x as [[? ?] ?]; reflexivity end.
Qed.

(** Witness: L = 1, h = 1. With [modecutoff = 1/100] the exact psi-functions are used, with
    [modecutoff = 10], one contour point and radius 1/2 a crude average. A solver built with the
    second configuration has other coefficients than a solver switched to it. *)
Definition cfg_exact : etdcfg Rops := mk_etdcfg (F := Rops) (1/100)%R 1 (1/2)%R.
Definition cfg_crude : etdcfg Rops := mk_etdcfg (F := Rops) 10%R 1 (1/2)%R.
Definition switch_problem : problem Cops unit :=
  mk_problem (pure_nl (fun v : vec Cops => v)) 1 (const_vec 1) (fun _ _ => RtoC 1) cfg_exact
    (fun m => inr m) (fun m => inr m) (eye Cops) (eye Cops) (const_vec 1).
Theorem C16_witness_refuted :
  let '(_, s1, w1) := cs_upd (cs_model switch_problem ETD4d) (const_vec 1) 1%R (cs_new switch_problem ETD4d) tt in
  let switched := snd (fst (cs_upd (cs_model (with_cfg switch_problem cfg_crude) ETD4d) (const_vec 1) 1%R
                              (cs_recfg switch_problem cfg_crude ETD4d s1) w1)) in
  let built := snd (fst (cs_upd (cs_model (with_cfg switch_problem cfg_crude) ETD4d) (const_vec 1) 1%R
                              (cs_new (with_cfg switch_problem cfg_crude) ETD4d) tt)) in
  e4_a21 (coefs switched) 0%nat <> e4_a21 (coefs built) 0%nat.
Proof.
  assert (Q := cs_upd_coefs switch_problem ETD4d (const_vec 1) 1%R (cs_new switch_problem ETD4d) tt).
  cbn zeta in Q.
  destruct (cs_upd (cs_model switch_problem ETD4d) (const_vec 1) 1%R (cs_new switch_problem ETD4d) tt) as [[r1 s1] w1].
  cbn zeta. cbn [fst snd] in Q. destruct Q as [Q1 Q2].
  rewrite C16_config_change_ignored_refuted
    by (rewrite Q2; cbn [same_h]; apply Reqb_true; reflexivity).
  cbn [fst snd cs_recfg].
  assert (P := cs_upd_coefs switch_problem ETD4d (const_vec 1) 1%R s1 w1). cbn zeta in P.
  rewrite Q2 in P.
  match type of P with (if ?b then _ else _) => replace b with true in P by (symmetry; apply Reqb_true; reflexivity) end.
  destruct P as [P _]. change (coefs (snd (fst (cs_upd (cs_model switch_problem ETD4d) (const_vec 1) 1%R s1 w1))))
    with (cs_coefs switch_problem ETD4d (snd (fst (cs_upd (cs_model switch_problem ETD4d) (const_vec 1) 1%R s1 w1)))).
  rewrite P, Q1.
  assert (B := cs_upd_coefs (with_cfg switch_problem cfg_crude) ETD4d (const_vec 1) 1%R
                 (cs_new (with_cfg switch_problem cfg_crude) ETD4d) tt). cbn zeta in B. destruct B as [B _].
  match goal with |- _ <> e4_a21 (coefs ?x) _ =>
    change (coefs x) with (cs_coefs (with_cfg switch_problem cfg_crude) ETD4d x) end.
  rewrite B. clear.
  cbn [cs_uc cs_model cs_new cs_coefs coefs with_cfg switch_problem p_vec p_cfg].
  unfold etd4d_coeffs. cbn [snd e4_a21]. rewrite !mask_cover.
  unfold small_idx. cbn [modecutoff cfg_exact cfg_crude].
  cvec. unfold const_vec at 1 4. cbn [Cops eabs]. rewrite Cmod_R.
  match goal with |- (if ?b then _ else _) <> _ => replace b with false
    by (symmetry; apply Rltb_false; cbn; rewrite Rmult_1_l, Rabs_R1; lra) end.
  match goal with |- _ <> (if ?b then _ else _) => replace b with true
    by (symmetry; apply Rltb_true; cbn; rewrite Rmult_1_l, Rabs_R1; lra) end.
  assert (Nd : node Cops cfg_crude 0 = RtoC (- (1/2))).
  { unfold node, npts. csimp. cbn [cfg_crude contour_radius contour_points]. ceq.
    replace ((0, 2 * PI)%R * RtoC (IZR 1 / IZR 2 + IZR (Z.of_nat 0)) / RtoC (IZR (Z.of_nat 1)))%C with ((0, PI)%R : C).
    2:{ cbn. unfold Cdiv, Cinv, Cmult, RtoC; cbn. apply C_eq; field. }
    unfold Cexp. cbn [fst snd]. rewrite exp_0, cos_PI, sin_PI. unfold Cmult, RtoC; cbn. apply C_eq; field. }
  unfold contour_avg, psi1. cbn [contour_points cfg_crude]. unfold npts. csimp. cbn [contour_points cfg_crude csum Z.of_nat Pos.of_succ_nat].
  rewrite Nd. intros E. apply (f_equal fst) in E. revert E.
  unfold const_vec.
  replace (((1 * 1)%R + (- (1 / 2))%R) / 2%R)%C with (RtoC (1/4))
    by (rewrite <- RtoC_plus, <- RtoC_div by lra; f_equal; lra).
  rewrite !Cexp_R, <- !RtoC_minus, <- !RtoC_div, <- RtoC_plus, <- !RtoC_mult, <- RtoC_div, <- RtoC_mult by lra.
  unfold RtoC. cbn [fst].
  replace (1 * 1 / 2)%R with (1/4 + 1/4)%R by lra. rewrite exp_plus.
  assert (G := exp_ineq1 (1/4)%R ltac:(lra)).
  set (x := exp (1/4)) in *. intros E. assert (E' : ((x - 1) * (x - 1) = 0)%R) by lra. nra.
Qed.


(** What does hold: a new configuration is used from the next coefficient computation on, i.e.
    after a reset (every [evolve] starts with one) or with another step size. *)
Theorem C16_config_used_when_recomputed :
  forall (F : tops) (A : aops F) (W : Type) (p : problem A W) cfg', linalg_total p ->
  (forall (k : cs_kind) u h s w,
     same_h F h (cs_hc p k s) = false ->
     cs_coefs (with_cfg p cfg') k
       (snd (fst (cs_upd (cs_model (with_cfg p cfg') k) u h (cs_recfg p cfg' k s) w))) =
     kof F (cs_uc (with_cfg p cfg') k) (cs_k0 A k) h) /\
  (forall (k : as_kind) acc u h s w,
     same_h F h (as_hc p k s) = false ->
     as_coefs (with_cfg p cfg') k
       (snd (fst (as_upd (as_model (with_cfg p cfg') k) acc u h (as_recfg p cfg' k s) w))) =
     kof F (as_uc (with_cfg p cfg') k) (as_k0 A k) h).
Proof.
  intros F A W p cfg' Ht. assert (Ht' : linalg_total (with_cfg p cfg')) by exact Ht.
  split.
  - intros k u h s w E.
    assert (Q := cs_upd_coefs (with_cfg p cfg') k u h (cs_recfg p cfg' k s) w). cbn zeta in Q.
    replace (cs_hc (with_cfg p cfg') k (cs_recfg p cfg' k s)) with (cs_hc p k s) in Q by (destruct k; reflexivity).
    rewrite E in Q. destruct Q as [Q _]. rewrite Q.
    rewrite (uc_kof F (cs_uc_indep (with_cfg p cfg') k) (cs_uc_total k Ht') (cs_k0 A k)). reflexivity.
  - intros k acc u h s w E.
    assert (Q := as_upd_coefs (with_cfg p cfg') k acc u h (as_recfg p cfg' k s) w). cbn zeta in Q.
    replace (as_hc (with_cfg p cfg') k (as_recfg p cfg' k s)) with (as_hc p k s) in Q by (destruct k; reflexivity).
    rewrite E in Q. destruct Q as [Q _]. rewrite Q.
    rewrite (uc_kof F (as_uc_indep (with_cfg p cfg') k) (as_uc_total k Ht') (as_k0 A k)). reflexivity.
Qed.
Example C16_not_vacuous : linalg_total switch_problem /\
  same_h Rops 1%R (cs_hc switch_problem ETD4d (cs_reset (cs_model switch_problem ETD4d) (cs_new switch_problem ETD4d))) = false.
Proof. split; [split; discriminate|reflexivity]. Qed.

(** ** C64: number of evaluations of the nonlinear function

    The world is the number of evaluations made so far. [store_freq = 1] makes the number of steps
    visible: one snapshot per step and the initial one. *)
Theorem C64_constant_step_cost :
  forall (F : tops) (A : aops F) (p : problem A nat) (k : cs_kind),
  (forall v c, snd (p_nl p v c) = S c) ->
  forall fuel u t0 tf h o c u' o' c',
  cs_evolve fuel u t0 tf h true 1 (o : csobj F (vec A) nat (cs_model p k)) c = (Ret u', o', c') ->
  exists n, length (c_u o') = S n /\ c' = (c + n * cs_evals k + Nat.min n 1)%nat.
Proof.
  intros F A p k HC fuel u t0 tf h o c u' o' c' H.
  rewrite cs_evolve_unfold in H.
  destruct (tltb F (val tf) (val (padd F t0 h))); [discriminate|].
  apply cs_loop_trace in H.
  destruct H as (n & us & sts & ws & Hu0 & Hs0 & Hw0 & Hch & Hn & _ & _ & _ & _ & _ & _ & Hu & Hend).
  destruct (@cs_chain_cost F A p HC k _ _ _ _ _ Hch) as [Hc _].
  destruct Hend as (_ & _ & _ & -> & _).
  exists n. split.
  - rewrite Hu. change 1%Z with (Z.of_nat 1). rewrite due_multiples by lia.
    unfold cs_start. cbn [c_u app length]. rewrite !map_length, seq_length, Nat.div_1_r. reflexivity.
  - rewrite Hc, Hw0, Hs0. replace (cs_inited p k (c_m (cs_start u t0 tf true o))) with false; [lia|].
    destruct k; reflexivity.
Qed.

(** Adaptive runs: [c] counts attempts (calls of [_update_stages]), the second component
    evaluations. A rejected attempt costs as much as an accepted one; the first stage is computed
    once per run (once per step for ETD35). *)
Theorem C64_adaptive_cost :
  forall (F : tops) (A : aops F) (p : problem A nat) (k : as_kind) ks cfg compute_s,
  (forall v c, snd (p_nl p v c) = S c) ->
  forall fuel u t0 tf hi (o : asobj F (vec A) (nat * nat) (as_counted (as_model p k))) w u' o' a' w',
  as_evolve ks cfg compute_s fuel u t0 tf hi true 1 o (0%nat, w) = (Ret u', o', (a', w')) ->
  exists n, length (a_u o') = S n /\ (n <= a')%nat /\
    w' = (w + as_evals k * a' + match n with 0 => 0 | S j => 1 + j * as_evals_first k end)%nat.
Proof.
  intros F A p k ks cfg cs HC fuel u t0 tf hi o w u' o' a' w' H.
  rewrite as_evolve_unfold in H. apply as_loop_trace in H.
  destruct H as (n & us & os & ws & hin & hacc & hsug & tau & Hu0 & Ho0 & Hw0 & _ & _ &
                 Hch & _ & _ & _ & _ & _ & _ & Hu & Hend).
  apply (@as_chain_cost F A p HC) in Hch. destruct Hch as (C1 & C2 & _).
  destruct Hend as (_ & _ & E & _). rewrite <- E, Hw0 in *. cbn [fst snd] in *.
  exists n. split; [|split; [lia|]].
  - rewrite Hu. change 1%Z with (Z.of_nat 1). rewrite due_multiples by lia.
    unfold as_start. cbn [a_u app length]. rewrite !map_length, seq_length, Nat.div_1_r. reflexivity.
  - rewrite C2, Ho0. replace (a' - 0)%nat with a' by lia.
    unfold first_cost. replace (as_inited p k (a_m (as_start u t0 tf true o))) with false by (destruct k; reflexivity).
    replace (a_accept (as_start u t0 tf true o)) with false by reflexivity.
    destruct n; lia.
Qed.

Definition counting : problem Cops nat := with_nl ex_problem (fun v c => (inr (fun i => Cmult (v i) (v i)), S c)).
Definition ones2 : vec Cops -> vec Cops -> exn + sval (T Rops) := fun _ _ => inr (SFin (A := T Rops) 2%R).
Example C64_not_vacuous :
  (forall v c, snd (p_nl counting v c) = S c) /\
  (exists fuel u' o' c', cs_evolve (F := Rops) fuel (const_vec 1) (num 0) (num 1) (num (1/10)) true 1
                           (cs_new_obj counting ETD5d) 0%nat = (Ret u', o', c')) /\
  (exists fuel u' o' w', as_evolve (F := Rops) the_consts toy_cfg ones2 fuel (const_vec 1) (num 0) (num 1)
                           (Some (num (1/20))) true 1 (counted_obj (as_new_obj counting ETD35d)) (0%nat, 0%nat)
                         = (Ret u', o', w')).
Proof.
  assert (Ht : linalg_total counting) by (split; discriminate).
  split; [reflexivity|]. split.
  - destruct (C11_constant_step_evolve Cops nat counting (fun v i => Cmult (v i) (v i)) ETD5d
                (fun v w => ex_intro _ (S w) eq_refl) Ht (const_vec 1) (num 0) (num 1) (num (1/10))
                (cs_new_obj counting ETD5d) 0%nat) as (n & _ & H); [cbn; lra|cbn; lra|cbn; lra|].
    destruct (H n (Nat.le_refl n)) as (o' & w' & E & _). eauto.
  - apply as_evolve_returns; [exact the_consts_ok|exact toy_cfg_valid| | |cbn; lra|cbn; lra|cbn; lra|discriminate].
    + intros acc u h s [c w].
      assert (NR := @as_model_never_raises Rops Cops nat counting).
      specialize (NR ltac:(discriminate) ETD35d Ht acc u h s w).
      cbn [as_counted as_upd snd]. destruct (as_upd (as_model counting ETD35d) acc u h s w) as [[[e|a] s'] w'].
      * elim (NR e). reflexivity.
      * eauto.
    + intros a b. exists 2%R. split; [reflexivity|lra].
Qed.

(** ** Assumptions *)
Print Assumptions C10_constant_step_history.
Print Assumptions C10_adaptive_history.
Print Assumptions C11_constant_step_chain.
Print Assumptions C11_adaptive_chain.
Print Assumptions C11_constant_step_evolve.
Print Assumptions C11_not_vacuous.
Print Assumptions C12_step_function_refuted.
Print Assumptions C12_etd35_step_after_success.
Print Assumptions C13_constant_step_crash_safe.
Print Assumptions C13_adaptive_crash_safe.
Print Assumptions C13_not_vacuous.
Print Assumptions C14_failed_coefficients_reused_refuted.
Print Assumptions C14_witness_refuted.
Print Assumptions C15_constant_step_coefficients.
Print Assumptions C15_adaptive_coefficients.
Print Assumptions C15_exact.
Print Assumptions C15_not_vacuous.
Print Assumptions C16_config_change_ignored_refuted.
Print Assumptions C16_adaptive_config_change_ignored_refuted.
Print Assumptions C16_witness_refuted.
Print Assumptions C16_config_used_when_recomputed.
Print Assumptions C16_not_vacuous.
Print Assumptions C64_constant_step_cost.
Print Assumptions C64_adaptive_cost.
Print Assumptions C64_not_vacuous.
