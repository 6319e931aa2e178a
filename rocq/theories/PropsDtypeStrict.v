(** * C97: nonlinear functions that reject complex arrays

    [dx_rfft] raises [TypeError] for complex arrays (rkstiff/derivatives.py:105-106), so a nonlinear function that uses it on the state
    does too. *)

From Coq Require Import ZArith List Bool Reals Lra Lia.
From Verif Require Import Scalars Control ControlRel ControlCS ControlCSReal ControlAS ControlASReal PropsControl Arrays SchemeBase
     SchemeIF SchemeETD4 SchemeETD5 Solvers SchemeFacts SchemeSound SchemeFamily SchemeForm RelStep PropsPsi PropsTolerance PropsStiffIF PropsDtype PropsDtypeCalls.
Import ListNotations.
Local Open Scope R_scope.

(** ** Spec *)
(** The function that begins with [if np.iscomplexobj(u): raise TypeError] (rkstiff/derivatives.py:105-106). *)
Definition strict {ab W} (nl : vec (Dops ab) -> W -> (exn + vec (Dops ab)) * W) (v : vec (Dops ab)) (w : W) : (exn + vec (Dops ab)) * W :=
  if is_complex (v 0%nat) then (inl TypeError, w) else nl v w.
(** On a real problem the test makes no difference: the same answers (returned arrays, step sizes and exceptions), the same recorded
    times and states, the same final state of the user's function. *)
Definition C97_constant (k : cs_kind) : Prop :=
  forall ab W (p : problem (Dops ab) unit) (nl : vec (Dops ab) -> W -> (exn + vec (Dops ab)) * W), real_data p -> nl_real nl ->
  forall rs w, Forall real_request rs ->
  let '(x, o1, w1) := cs_session rs (cs_new_obj (with_nl (held (cs_etd k) p) (strict nl)) k) w in
  let '(y, o2, w2) := cs_session rs (cs_new_obj (with_nl (held (cs_etd k) p) nl) k) w in
  x = y /\ c_t o1 = c_t o2 /\ c_u o1 = c_u o2 /\ w1 = w2.
Definition C97_adaptive (k : as_kind) : Prop :=
  forall ab W (p : problem (Dops ab) unit) (nl : vec (Dops ab) -> W -> (exn + vec (Dops ab)) * W), real_data p -> nl_real nl ->
  forall ks cfg compute rs w, Forall real_request rs ->
  let '(x, o1, w1) := as_session ks cfg compute rs (as_new_obj (with_nl (held (as_etd k) p) (strict nl)) k) w in
  let '(y, o2, w2) := as_session ks cfg compute rs (as_new_obj (with_nl (held (as_etd k) p) nl) k) w in
  x = y /\ a_t o1 = a_t o2 /\ a_u o1 = a_u o2 /\ w1 = w2.

(** ** Integrating factor strategies *)
Section Strict.
  Variable ab : dtype -> R.
  Variable W : Type.
  Variable p : problem (Dops ab) unit.
  Variable nl : vec (Dops ab) -> W -> (exn + vec (Dops ab)) * W.
  Hypothesis HD : real_data p.
  Hypothesis HN : nl_real nl.
  Notation V := (vec (Dops ab)).
  Let P (a b : V) : Prop := a = b /\ real b.
  Lemma strict_nl a b (w w' : W) : P a b -> w = w' ->
    match fst (strict nl a w), fst (nl b w') with inl e, inl e' => e = e' | inr x, inr y => P x y | _, _ => False end /\
    snd (strict nl a w) = snd (nl b w').
  Proof.
    intros [-> Hb] <-. unfold strict. rewrite (real_not_complex _ (Hb 0%nat)). split; [|reflexivity].
    destruct (nl b w) as [[e|r] v] eqn:E; cbn [fst]; [reflexivity|]. split; [reflexivity|exact (HN _ _ _ _ Hb E)].
  Qed.
  Lemma same_ans (x y : list (answer V (T Rops))) : Forall2 (rel_ans P) x y -> x = y.
  Proof.
    induction 1 as [|a b x y H _ IH]; [reflexivity|]. f_equal; [|exact IH].
    destruct a as [[u l]|e|], b as [[v l']|e'|]; cbn in H; try contradiction; [|subst; reflexivity|reflexivity].
    destruct H as [[-> _] ->]. reflexivity.
  Qed.
  Lemma same_states (x y : list V) : Forall2 P x y -> x = y.
  Proof. induction 1 as [|a b x y [-> _] _ IH]; [reflexivity|]. rewrite IH. reflexivity. Qed.

  Lemma cs_strict k rs w : cs_etd k = false -> Forall real_request rs ->
    let '(x, o1, w1) := cs_session rs (cs_new_obj (with_nl p (strict nl)) k) w in
    let '(y, o2, w2) := cs_session rs (cs_new_obj (with_nl p nl) k) w in
    x = y /\ c_t o1 = c_t o2 /\ c_u o1 = c_u o2 /\ w1 = w2.
  Proof.
    intros Hk Hr.
    assert (G : let '(x, o1, w1) := cs_session rs (cs_new_obj (with_nl p (strict nl)) k) w in
      let '(y, o2, w2) := cs_session rs (cs_new_obj (with_nl p nl) k) w in
      Forall2 (rel_ans P) x y /\ c_t o1 = c_t o2 /\ Forall2 P (c_u o1) (c_u o2) /\ w1 = w2).
    { apply (@cs_session_relate Rops _ _ _ _ P eq _ _ (@cs_R Rops (Dops ab) _ _ eq p (strict nl) nl P real real2 k)).
      - apply cs_runs_related; [apply P_closed|apply P_coeffs|apply P_dot|apply strict_nl|apply cs_ok_uc; assumption].
      - intros s1 v1 s2 v2 L H. apply H.
      - intros s1 v1 s2 v2 L H. apply H.
      - intros s1 v1 s2 v2 L a b (H1 & H2 & H3) Hab. split; [exact H1|]. split; [exact H2|]. apply all_P_cons; assumption.
      - apply diag_req. exact Hr.
      - exists []. split; cbn [cs_new_obj c_m c_t c_tf c_tc c_u]; try reflexivity; [|constructor].
        split; [|split; [reflexivity|intros a b []]].
        apply cs_new_related; [apply P_closed| |]; repeat intro; discriminate. }
    destruct (cs_session rs (cs_new_obj (with_nl p (strict nl)) k) w) as [[x o1] w1], (cs_session rs (cs_new_obj (with_nl p nl) k) w) as [[y o2] w2].
    destruct G as (G1 & G2 & G3 & G4). exact (conj (same_ans _ _ G1) (conj G2 (conj (same_states _ _ G3) G4))).
  Qed.
  Lemma as_strict k ks cfg compute rs w : as_etd k = false -> Forall real_request rs ->
    let '(x, o1, w1) := as_session ks cfg compute rs (as_new_obj (with_nl p (strict nl)) k) w in
    let '(y, o2, w2) := as_session ks cfg compute rs (as_new_obj (with_nl p nl) k) w in
    x = y /\ a_t o1 = a_t o2 /\ a_u o1 = a_u o2 /\ w1 = w2.
  Proof.
    intros Hk Hr.
    assert (G : let '(x, o1, w1) := as_session ks cfg compute rs (as_new_obj (with_nl p (strict nl)) k) w in
      let '(y, o2, w2) := as_session ks cfg compute rs (as_new_obj (with_nl p nl) k) w in
      Forall2 (rel_ans P) x y /\ a_t o1 = a_t o2 /\ Forall2 P (a_u o1) (a_u o2) /\ w1 = w2).
    { assert (HD' := HD). destruct HD' as (D1 & D2 & D3 & D4 & D5 & D6).
      apply (@as_session_relate Rops _ _ _ _ P eq _ _ ks cfg compute compute (@as_R Rops (Dops ab) _ _ eq p (strict nl) nl P P real real2 real k)).
      - apply as_runs_related; [apply P_closed|apply P_closed|apply P_coeffs|apply P_coeffs|apply P_dot|
          intros a b H; apply P_dot; assumption|intros a b H; apply P_dot; assumption|apply strict_nl| |apply as_ok_uc; assumption].
        intros a b e f [-> _] H. destruct k; destruct H as [-> _]; reflexivity.
      - intros s1 v1 s2 v2 L H. apply H.
      - intros s1 v1 s2 v2 L H. apply H.
      - intros s1 v1 s2 v2 L a b (H1 & H2 & H3) Hab. split; [exact H1|]. split; [exact H2|]. apply all_P_cons; assumption.
      - apply diag_req. exact Hr.
      - exists []. split; cbn [as_new_obj a_m a_t a_tf a_tc a_u]; try reflexivity; [|constructor].
        split; [|split; [reflexivity|intros a b []]].
        apply as_new_related; [apply P_closed|apply P_closed| | |]; repeat intro; discriminate. }
    destruct (as_session ks cfg compute rs (as_new_obj (with_nl p (strict nl)) k) w) as [[x o1] w1], (as_session ks cfg compute rs (as_new_obj (with_nl p nl) k) w) as [[y o2] w2].
    destruct G as (G1 & G2 & G3 & G4). exact (conj (same_ans _ _ G1) (conj G2 (conj (same_states _ _ G3) G4))).
  Qed.
End Strict.
Theorem C97_if_constant k : cs_etd k = false -> C97_constant k.
Proof. intros Hk ab W p nl HD HN rs w Hr. rewrite Hk. exact (cs_strict ab W p nl HD HN k rs w Hk Hr). Qed.
Theorem C97_if_adaptive k : as_etd k = false -> C97_adaptive k.
Proof. intros Hk ab W p nl HD HN ks cfg compute rs w Hr. rewrite Hk. exact (as_strict ab W p nl HD HN k ks cfg compute rs w Hk Hr). Qed.

(** ** ETD strategies *)
Definition user_nl {ab} (D : dtype -> dtype) (v : vec (Dops ab)) (w : unit) : (exn + vec (Dops ab)) * unit := (inr (lift D v), w).
Lemma cs_first_raises ab n cfg D dL dE dS dT d k h : cs_etd k = true -> (0 < contour_points cfg)%nat -> is_real d ->
  let p := with_nl (dt_problem ab true n cfg D dL dE dS dT) (strict (user_nl D)) in
  fst (fst (cs_upd (cs_model p k) (arr d) h (cs_new p k) tt)) = inl TypeError.
Proof.
  intros Hk HC Hd p.
  destruct k; try discriminate; cbn [cs_model cs_new];
    unfold etd4_diag, etd4_nondiag, etd5_diag, etd5_nondiag, cs_solver; cbn [cs_upd]; unfold cs_update_stages, s_update_coeffs, bind;
    cbn [same_h h_coeff set_h coefs n1_init mem].
  - rewrite etd4d_cplx. destruct d; [reflexivity|reflexivity|contradiction].
  - rewrite (etd4n_cplx ab cfg h _ HC). destruct d; [reflexivity|reflexivity|contradiction].
  - rewrite etd5d_cplx. destruct d; [reflexivity|reflexivity|contradiction].
  - rewrite (etd5n_cplx ab cfg h _ HC). destruct d; [reflexivity|reflexivity|contradiction].
Qed.
Lemma as_first_raises ab n cfg D dL dE dS dT d k h : as_etd k = true -> (0 < contour_points cfg)%nat -> is_real d ->
  let p := with_nl (dt_problem ab true n cfg D dL dE dS dT) (strict (user_nl D)) in
  fst (fst (as_upd (as_model p k) false (arr d) h (as_new p k) tt)) = inl TypeError.
Proof.
  intros Hk HC Hd p.
  destruct k; try discriminate; cbn [as_model as_new];
    unfold etd34_diag, etd34_nondiag, etd34_diagonalized, etd35_diag, etd35_nondiag, etd35_diagonalized, as_solver; cbn [as_upd];
    unfold as_update_stages, s_update_coeffs, bind; cbn [same_h h_coeff set_h coefs n1_init mem].
  - unfold etd34d_coeffs. rewrite etd34_cplx by reflexivity. destruct d; [reflexivity|reflexivity|contradiction].
  - rewrite (etd4n_cplx ab cfg h _ HC). destruct d; [reflexivity|reflexivity|contradiction].
  - unfold etd34z_coeffs. rewrite etd34_cplx by reflexivity. destruct d; [| |contradiction]; destruct dS; reflexivity.
  - unfold etd35d_coeffs. rewrite etd35_cplx by reflexivity. destruct d; [reflexivity|reflexivity|contradiction].
  - rewrite (etd5n_cplx ab cfg h _ HC). destruct d; [reflexivity|reflexivity|contradiction].
  - unfold etd35z_coeffs. rewrite etd35_cplx by reflexivity. destruct d; [| |contradiction]; destruct dS; reflexivity.
Qed.
(** Every first step of an ETD solver from a real state raises the [TypeError] of such a function, whatever the operator. *)
Theorem C97_etd_constant_raises ab n cfg D dL dE dS dT d k h : cs_etd k = true -> (0 < contour_points cfg)%nat -> is_real d -> 0 <= h ->
  fst (fst (cs_step (F := Rops) (arr d) h (cs_new_obj (with_nl (dt_problem ab true n cfg D dL dE dS dT) (strict (user_nl D))) k) tt)) = Exc TypeError.
Proof.
  intros Hk HC Hd Hh. assert (E := cs_first_raises ab n cfg D dL dE dS dT d k h Hk HC Hd). cbv zeta in E. unfold cs_step.
  assert (LE : tleb Rops (tofZ Rops 0) h = true) by (apply Rleb_true; cbn; lra). rewrite LE. cbn [c_m cs_new_obj].
  destruct (cs_upd _ _ _ _ _) as [[r s'] w'] in E |- *. cbn [fst] in E |- *. rewrite E. reflexivity.
Qed.
Theorem C97_etd_adaptive_raises ab n cfg D dL dE dS dT d k ks acfg compute (h : pynum (T Rops)) : as_etd k = true -> (0 < contour_points cfg)%nat -> is_real d -> 0 <= val h ->
  fst (fst (as_step ks acfg compute (arr d) h (as_new_obj (with_nl (dt_problem ab true n cfg D dL dE dS dT) (strict (user_nl D))) k) tt)) = Exc TypeError.
Proof.
  intros Hk HC Hd Hh. assert (E := as_first_raises ab n cfg D dL dE dS dT d k (val h) Hk HC Hd). cbv zeta in E. unfold as_step.
  assert (LE : tleb Rops (tofZ Rops 0) (val h) = true) by (apply Rleb_true; exact Hh). rewrite LE. cbn [as_step_loop a_accept a_m as_new_obj].
  destruct (as_upd _ _ _ _ _ _) as [[r s'] w'] in E |- *. cbn [fst] in E |- *. rewrite E. reflexivity.
Qed.
(** So does every [evolve] of a new instance over a nonempty interval. *)
Theorem C97_etd_constant_evolve_raises ab n cfg D dL dE dS dT d k fuel (t0 tf h : pynum (T Rops)) sd sf :
  cs_etd k = true -> (0 < contour_points cfg)%nat -> is_real d -> 0 <= val h -> val t0 < val tf -> val t0 + val h <= val tf ->
  fst (fst (cs_evolve (S fuel) (arr d) t0 tf h sd sf (cs_new_obj (with_nl (dt_problem ab true n cfg D dL dE dS dT) (strict (user_nl D))) k) tt)) = Exc TypeError.
Proof.
  intros Hk HC Hd Hh Ht Hf. assert (E := cs_first_raises ab n cfg D dL dE dS dT d k (val h) Hk HC Hd). cbv zeta in E. unfold cs_evolve.
  set (p := with_nl _ _) in *.
  assert (N : cs_reset (cs_model p k) (cs_new p k) = cs_new p k) by (destruct k; reflexivity).
  assert (V : tltb Rops (val tf) (val (padd Rops t0 h)) = false) by (apply Rltb_false; change (val t0 + val h <= val tf); exact Hf). rewrite V.
  assert (L : tltb Rops (val t0) (val tf) = true) by (apply Rltb_true; exact Ht).
  assert (LE : tleb Rops (tofZ Rops 0) (val h) = true) by (apply Rleb_true; exact Hh).
  destruct sd; cbn [cs_loop cs_reset_obj cs_new_obj c_t c_u c_tc c_tf c_m]; rewrite L; unfold cs_step; rewrite LE; cbn [c_m]; rewrite N;
    destruct (cs_upd _ _ _ _ _) as [[r s'] w'] in E |- *; cbn [fst] in E |- *; rewrite E; reflexivity.
Qed.
Theorem C97_etd_adaptive_evolve_raises ab n cfg D dL dE dS dT d k ks acfg compute fuel (t0 tf : pynum (T Rops)) hi sd sf :
  as_etd k = true -> (0 < contour_points cfg)%nat -> is_real d -> match hi with Some h => 0 <= val h | None => True end -> val t0 < val tf ->
  fst (fst (as_evolve ks acfg compute (S fuel) (arr d) t0 tf hi sd sf
    (as_new_obj (with_nl (dt_problem ab true n cfg D dL dE dS dT) (strict (user_nl D))) k) tt)) = Exc TypeError.
Proof.
  intros Hk HC Hd Hh Ht. rewrite as_evolve_unfold. set (h := h_start (F := Rops) t0 tf hi).
  assert (E := as_first_raises ab n cfg D dL dE dS dT d k (val h) Hk HC Hd). cbv zeta in E.
  set (p := with_nl _ _) in *.
  assert (N : as_reset (as_model p k) (as_new p k) = as_new p k) by (destruct k; reflexivity).
  assert (L : tltb Rops (val t0) (val tf) = true) by (apply Rltb_true; exact Ht).
  assert (LE : tleb Rops (tofZ Rops 0) (val h) = true).
  { apply Rleb_true. unfold h, h_start, clamp. destruct (tltb Rops (val tf) _); [|destruct hi; [exact Hh|]]; change (0 <= val tf - val t0) || change (0 <= (val tf - val t0) / 100); lra. }
  unfold as_start. destruct sd; cbn [as_loop as_new_obj a_t a_u a_tc a_tf a_m]; rewrite L; unfold as_step; rewrite LE; cbn [as_step_loop a_accept a_m]; rewrite N;
    destruct (as_upd _ _ _ _ _ _) as [[r s'] w'] in E |- *; cbn [fst] in E |- *; rewrite E; reflexivity.
Qed.
Lemma user_nl_real ab : nl_real (@user_nl ab (fun d => d)).
Proof. intros v w r w' Hv E. apply (f_equal (fun x => match x with (inr y, _) => y | _ => r end)) in E. rewrite <- E. intros i. exact (Hv 0%nat). Qed.
Theorem C97_etd_constant_refuted k : cs_etd k = true -> ~ C97_constant k.
Proof.
  intros Hk H. set (ab := fun _ : dtype => 1). assert (R01 : 0 <= 1) by lra.
  assert (Hr : Forall (@real_request ab _) [Step (H := pynum (T Rops)) (arr F64) (PyN (A := T Rops) false 1)]).
  { constructor; [|constructor]. constructor; [|constructor]. intros i. apply real_F64. }
  specialize (H ab unit (real_problem ab) (user_nl (fun d => d)) (real_problem_real ab) (user_nl_real ab) _ tt Hr).
  rewrite Hk in H. cbn [cs_session cs_serve val] in H.
  assert (S := C97_etd_constant_raises ab 1 default_etdcfg (fun d => d) F64 F64 F64 F64 F64 k 1 Hk default_points real_F64 R01).
  change (dt_problem ab true 1 default_etdcfg (fun d => d) F64 F64 F64 F64) with (held true (real_problem ab)) in S.
  destruct (cs_step _ _ _ _) as [[r o1] w1] in H, S. cbn [fst] in S. subst r.
  unfold cs_step in H. assert (LE : tleb Rops (tofZ Rops 0) 1 = true) by (apply Rleb_true; cbn; lra). rewrite LE in H. cbn [c_m cs_new_obj] in H.
  set (p := with_nl (held true (real_problem ab)) (user_nl (fun d => d))) in H.
  assert (NR : forall e, fst (fst (cs_upd (cs_model p k) (arr F64) 1 (cs_new p k) tt)) <> inl e).
  { intros e. apply cs_model_never_raises; [intros; discriminate|split; discriminate]. }
  destruct (cs_upd _ _ _ _ _) as [[[e|r] s'] w'] in H, NR; [exact (NR e eq_refl)|]. destruct H as [H _]. discriminate.
Qed.
Theorem C97_etd_adaptive_refuted k : as_etd k = true -> ~ C97_adaptive k.
Proof.
  intros Hk H. set (ab := fun _ : dtype => 1). assert (R01 : 0 <= val (PyN (A := T Rops) false 1)) by (cbn; lra).
  assert (Hr : Forall (@real_request ab _) [Step (H := option (pynum (T Rops))) (arr F64) (PyN (A := T Rops) false 1)]).
  { constructor; [|constructor]. constructor; [|constructor]. intros i. apply real_F64. }
  specialize (H ab unit (real_problem ab) (user_nl (fun d => d)) (real_problem_real ab) (user_nl_real ab) the_consts default_config (keep _) _ tt Hr).
  rewrite Hk in H. cbn [as_session as_serve] in H.
  assert (S := C97_etd_adaptive_raises ab 1 default_etdcfg (fun d => d) F64 F64 F64 F64 F64 k the_consts default_config (keep _) _ Hk default_points real_F64 R01).
  change (dt_problem ab true 1 default_etdcfg (fun d => d) F64 F64 F64 F64) with (held true (real_problem ab)) in S.
  destruct (as_step _ _ _ _ _ _ _) as [[r o1] w1] in H, S. cbn [fst] in S. subst r.
  unfold as_step in H. assert (LE : tleb Rops (tofZ Rops 0) (val (PyN (A := T Rops) false 1)) = true) by (apply Rleb_true; exact R01). rewrite LE in H.
  assert (LT : tltb Rops 1 (tofZ Rops 1) = false) by (apply Rltb_false; cbn; lra).
  cbn [as_step_loop a_accept a_m as_new_obj] in H. cbn [val] in H.
  set (p := with_nl (held true (real_problem ab)) (user_nl (fun d => d))) in H.
  assert (NR : forall e, fst (fst (as_upd (as_model p k) false (arr F64) 1 (as_new p k) tt)) <> inl e).
  { intros e. apply as_model_never_raises; [intros; discriminate|split; discriminate]. }
  destruct (as_upd _ _ _ _ _ _) as [[[e|[v e]] s'] w'] in H, NR; [exact (NR e eq_refl)|]. unfold keep in H. cbn [accepts] in H. rewrite LT in H.
  destruct H as [H _]. discriminate.
Qed.

(** A float64 problem: with ETD34 the first step raises, with IF34 it returns. *)
Example C97_not_vacuous ab h : 0 <= h ->
  let st etd k := let p := with_nl (held etd (real_problem ab)) (strict (user_nl (fun d => d))) in
    fst (fst (as_upd (as_model p k) false (arr F64) h (as_new p k) tt)) in
  st true ETD34d = inl TypeError /\ match st false IF34d with inr (v, _) => v = arr F64 | _ => False end.
Proof.
  intros Hh st. split; [|reflexivity].
  exact (as_first_raises ab 1 default_etdcfg (fun d => d) F64 F64 F64 F64 F64 ETD34d h eq_refl default_points real_F64).
Qed.

Print Assumptions C97_if_constant.
Print Assumptions C97_if_adaptive.
Print Assumptions C97_etd_constant_raises.
Print Assumptions C97_etd_adaptive_raises.
Print Assumptions C97_etd_constant_refuted.
Print Assumptions C97_etd_adaptive_refuted.
Print Assumptions C97_etd_constant_evolve_raises.
Print Assumptions C97_etd_adaptive_evolve_raises.
