(** * C96: the dtypes [nl_func] is called with

    A nonlinear function of the user that records the arrays it is given; sessions of any calls of [step], [evolve] and [reset] on one
    solver object. The function may have a state and may raise. *)

From Coq Require Import ZArith List Bool Reals Lra Lia.
From Verif Require Import Scalars Control ControlRel ControlCS ControlCSReal ControlAS ControlASReal PropsControl Arrays SchemeBase
     SchemeIF SchemeETD4 SchemeETD5 Solvers SchemeFacts SchemeSound SchemeFamily SchemeForm RelStep PropsPsi PropsTolerance PropsStiffIF PropsDtype.
Import ListNotations.
Local Open Scope R_scope.

(** ** Spec *)
(** Arrays without complex entries. *)
Definition real {ab} (v : vec (Dops ab)) : Prop := forall i, is_real (v i).
Definition real2 {ab} (m : mat (Dops ab)) : Prop := forall i j, is_real (m i j).
(** The function with a list of the arrays it was called with. *)
Definition watched {ab W} (nl : vec (Dops ab) -> W -> (exn + vec (Dops ab)) * W) (v : vec (Dops ab)) (w : W * list (vec (Dops ab)))
  : (exn + vec (Dops ab)) * (W * list (vec (Dops ab))) :=
  let '(r, w') := nl v (fst w) in (r, (w', snd w ++ [v])).
(** On real arrays it returns real arrays or raises. *)
Definition nl_real {ab W} (nl : vec (Dops ab) -> W -> (exn + vec (Dops ab)) * W) : Prop :=
  forall v w r w', real v -> nl v w = (inr r, w') -> real r.
(** Real operator (1-D or matrix) and eigen-decomposition; [expm] of a real matrix returns a real matrix. [expm] is not allowed to
    raise here: the strategies create their coefficient and stage arrays as complex128 zeros (e.g. rkstiff/if34.py:76-79, 220-223),
    float64 in this instance of the model; they are overwritten before they are read unless [expm] raises in [update_coeffs]. *)
Definition real_data {ab} (p : problem (Dops ab) unit) : Prop :=
  real (p_vec p) /\ real2 (p_mat p) /\ real (p_eigs p) /\ real2 (p_S p) /\ real2 (p_Sinv p) /\
  forall m, real2 m -> exists m', p_expm p m = inr m' /\ real2 m'.
(** The operator as the strategy holds it (see [dt_problem]): ETD strategies convert it to complex128
    (rkstiff/etd4.py:76,222, etd34.py:63,336, etd5.py:89,329, etd35.py:124,568). *)
Definition held {ab} (etd : bool) (p : problem (Dops ab) unit) : problem (Dops ab) unit :=
  if etd then mk_problem (A := Dops ab) (p_nl p) (p_size p) (arr C128) (arr2 C128) (p_cfg p) (p_expm p) (p_inv p) (p_S p) (p_Sinv p) (arr C128) else p.
Definition real_request {ab H} (r : request (vec (Dops ab)) (T Rops) H) : Prop := Forall real (arrays_of r).
Definition real_answer {ab} (x : answer (vec (Dops ab)) (T Rops)) : Prop := match x with Ret (v, _) => real v | _ => True end.

(** On a real problem, asked with real arrays, the solver calls [nl_func] with real arrays only, and answers and records real arrays. *)
Definition C96_constant (k : cs_kind) : Prop :=
  forall ab W (p : problem (Dops ab) unit) (nl : vec (Dops ab) -> W -> (exn + vec (Dops ab)) * W), real_data p -> nl_real nl ->
  forall rs w0 x o w1 calls, Forall real_request rs ->
  cs_session rs (cs_new_obj (with_nl (held (cs_etd k) p) (watched nl)) k) (w0, []) = (x, o, (w1, calls)) ->
  Forall real calls /\ Forall real_answer x /\ Forall real (c_u o).
Definition C96_adaptive (k : as_kind) : Prop :=
  forall ab W (p : problem (Dops ab) unit) (nl : vec (Dops ab) -> W -> (exn + vec (Dops ab)) * W), real_data p -> nl_real nl ->
  forall ks cfg compute rs w0 x o w1 calls, Forall real_request rs ->
  as_session ks cfg compute rs (as_new_obj (with_nl (held (as_etd k) p) (watched nl)) k) (w0, []) = (x, o, (w1, calls)) ->
  Forall real calls /\ Forall real_answer x /\ Forall real (a_u o).

(** ** Integrating factor strategies *)
Lemma real_promote a b : is_real a -> is_real b -> is_real (promote a b).
Proof. unfold is_real. destruct a, b; cbn; congruence. Qed.
Lemma real_F64 : is_real F64.
Proof. discriminate. Qed.
Local Ltac rl := repeat first [assumption|apply real_F64|apply real_promote|match goal with H : real _ |- is_real (_ _) => apply H | H : real2 _ |- is_real (_ _ _) => apply H end].

Section Calls.
  Variable ab : dtype -> R.
  Variable W : Type.
  Variable p : problem (Dops ab) unit.
  Variable nl : vec (Dops ab) -> W -> (exn + vec (Dops ab)) * W.
  Hypothesis HD : real_data p.
  Hypothesis HN : nl_real nl.
  Notation V := (vec (Dops ab)).
  Let P (a b : V) : Prop := a = b /\ real b.
  Let RW (w w' : W * list V) : Prop := w = w' /\ Forall real (snd w').
  Lemma P_closed : closed (A := Dops ab) P.
  Proof.
    split; unfold P.
    - split; [reflexivity|]. intros i. apply real_F64.
    - intros a b c d [-> Hb] [-> Hd]. split; [reflexivity|]. intros i. apply real_promote; [apply Hb|apply Hd].
    - intros a b c d [-> Hb] [-> Hd]. split; [reflexivity|]. intros i. apply real_promote; [apply Hb|apply Hd].
    - intros a b [-> Hb]. split; [reflexivity|]. exact Hb.
    - intros h a b [-> Hb]. split; [reflexivity|]. intros i. apply real_promote; [apply real_F64|apply Hb].
    - intros h a b [-> Hb]. split; [reflexivity|]. intros i. apply real_promote; [apply real_F64|]. apply real_promote; [apply Hb|apply real_F64].
  Qed.
  Lemma P_coeffs : coeffs (A := Dops ab) P real.
  Proof.
    split; unfold P.
    - intros c a b Hc [-> Hb]. split; [reflexivity|]. intros i. apply real_promote; [apply Hc|apply Hb].
    - intros h c Hc i. apply real_promote; [apply real_F64|apply Hc].
  Qed.
  Lemma P_dot c a b : real2 c -> P a b -> P (emdot (Dops ab) (p_size p) c a) (emdot (Dops ab) (p_size p) c b).
  Proof. intros Hc [-> Hb]. split; [reflexivity|]. intros i. apply real_promote; [apply Hc|apply Hb]. Qed.
  Lemma P_nl a b w w' : P a b -> RW w w' ->
    match fst (watched nl a w), fst (watched nl b w') with inl e, inl e' => e = e' | inr x, inr y => P x y | _, _ => False end /\
    RW (snd (watched nl a w)) (snd (watched nl b w')).
  Proof.
    intros [-> Hb] [-> Hw]. unfold watched. destruct (nl b (fst w')) as [[e|r] v] eqn:E; cbn [fst snd].
    - split; [reflexivity|]. split; [reflexivity|]. cbn [snd]. apply Forall_app. split; [exact Hw|]. constructor; [exact Hb|constructor].
    - split; [split; [reflexivity|exact (HN _ _ _ _ Hb E)]|]. split; [reflexivity|]. cbn [snd]. apply Forall_app. split; [exact Hw|]. constructor; [exact Hb|constructor].
  Qed.
  Lemma exp_real (z : V) : real z -> real (vexp z).
  Proof. intros H i. apply real_promote; [apply real_F64|apply H]. Qed.
  Lemma expm_ok h c : ok_if real2 c -> ok_if real2 (snd (if4n_coeffs Rops (Dops ab) (p_expm p) (p_mat p) h c)).
  Proof.
    destruct HD as (D1 & D2 & D3 & D4 & D5 & D6). intros Hc. unfold if4n_coeffs. cbv zeta.
    destruct (D6 (mscal h (p_mat p))) as (m & E1 & G1); [intros i j; rl|]. rewrite E1.
    destruct (D6 (mdivz (mscal h (p_mat p)) 2)) as (m2 & E2 & G2); [intros i j; rl|]. rewrite E2. split; [exact G1|exact G2].
  Qed.
  Lemma cs_ok_uc k : cs_etd k = false -> forall h c, cs_ok real real2 k c -> cs_ok real real2 k (snd (cs_uc p k h c)).
  Proof.
    destruct HD as (D1 & D2 & D3 & D4 & D5 & D6). intros Hk h c Hc. destruct k; try discriminate; cbn [cs_ok cs_uc] in *.
    - split; cbn [if_EL if_EL2 snd]; intros i; rl.
    - apply expm_ok; assumption.
  Qed.
  Lemma as_ok_uc k : as_etd k = false -> forall h c, as_ok real real2 real k c -> as_ok real real2 real k (snd (as_uc p k h c)).
  Proof.
    destruct HD as (D1 & D2 & D3 & D4 & D5 & D6). intros Hk h c Hc. destruct k; try discriminate; cbn [as_ok as_uc] in *.
    - split; cbn [if_EL if_EL2 snd]; intros i; rl.
    - apply expm_ok; assumption.
    - split; cbn [if_EL if_EL2 snd]; intros i; rl.
    - unfold ok_dp. repeat constructor; intros i; rl.
  Qed.

  Lemma diag_req {H} rs : Forall (@real_request ab H) rs -> Forall2 (rel_req P) rs rs.
  Proof.
    induction 1 as [|r rs Hr _ IH]; constructor; [|exact IH]. destruct r; cbn; auto; inversion_clear Hr; repeat split; assumption.
  Qed.
  Lemma diag_ans x : Forall2 (rel_ans P) x x -> Forall (@real_answer ab) x.
  Proof.
    induction x as [|a x IH]; intros H; [constructor|]. inversion_clear H. constructor; [|apply IH; assumption].
    destruct a as [[v l]|e|]; cbn in *; [|exact I|exact I]. apply H0.
  Qed.
  Lemma diag_states (l : list V) : Forall2 P l l -> Forall real l.
  Proof. induction l as [|a l IH]; intros H; [constructor|]. inversion_clear H. constructor; [apply H0|apply IH; assumption]. Qed.

  Lemma cs_real k rs w0 x o w1 calls : cs_etd k = false -> Forall real_request rs ->
    cs_session rs (cs_new_obj (with_nl p (watched nl)) k) (w0, []) = (x, o, (w1, calls)) ->
    Forall real calls /\ Forall real_answer x /\ Forall real (c_u o).
  Proof.
    intros Hk Hr E.
    assert (G : let '(x, o1, w1) := cs_session rs (cs_new_obj (with_nl p (watched nl)) k) (w0, []) in
      let '(y, o2, w2) := cs_session rs (cs_new_obj (with_nl p (watched nl)) k) (w0, []) in
      Forall2 (rel_ans P) x y /\ c_t o1 = c_t o2 /\ Forall2 P (c_u o1) (c_u o2) /\ RW w1 w2).
    { apply (@cs_session_relate Rops _ _ _ _ P RW _ _ (@cs_R Rops (Dops ab) _ _ RW p (watched nl) (watched nl) P real real2 k)).
      - apply cs_runs_related; [apply P_closed|apply P_coeffs|apply P_dot|apply P_nl|apply cs_ok_uc; exact Hk].
      - intros s1 v1 s2 v2 L H. apply H.
      - intros s1 v1 s2 v2 L H. apply H.
      - intros s1 v1 s2 v2 L a b (H1 & H2 & H3) Hab. split; [exact H1|]. split; [exact H2|]. apply all_P_cons; assumption.
      - apply diag_req. exact Hr.
      - exists []. split; cbn [cs_new_obj c_m c_t c_tf c_tc c_u]; try reflexivity; [|constructor].
        split; [|split; [split; [reflexivity|constructor]|intros a b []]].
        apply cs_new_related; [apply P_closed| |]; repeat intro; discriminate. }
    rewrite E in G. destruct G as (G1 & _ & G2 & _ & G3). split; [exact G3|]. split; [apply diag_ans; exact G1|apply diag_states; exact G2].
  Qed.
  Lemma as_real k ks cfg compute rs w0 x o w1 calls : as_etd k = false -> Forall real_request rs ->
    as_session ks cfg compute rs (as_new_obj (with_nl p (watched nl)) k) (w0, []) = (x, o, (w1, calls)) ->
    Forall real calls /\ Forall real_answer x /\ Forall real (a_u o).
  Proof.
    intros Hk Hr E.
    assert (G : let '(x, o1, w1) := as_session ks cfg compute rs (as_new_obj (with_nl p (watched nl)) k) (w0, []) in
      let '(y, o2, w2) := as_session ks cfg compute rs (as_new_obj (with_nl p (watched nl)) k) (w0, []) in
      Forall2 (rel_ans P) x y /\ a_t o1 = a_t o2 /\ Forall2 P (a_u o1) (a_u o2) /\ RW w1 w2).
    { destruct HD as (D1 & D2 & D3 & D4 & D5 & D6).
      apply (@as_session_relate Rops _ _ _ _ P RW _ _ ks cfg compute compute (@as_R Rops (Dops ab) _ _ RW p (watched nl) (watched nl) P P real real2 real k)).
      - apply as_runs_related; [apply P_closed|apply P_closed|apply P_coeffs|apply P_coeffs|apply P_dot|
          intros a b H; apply P_dot; assumption|intros a b H; apply P_dot; assumption|apply P_nl| |apply as_ok_uc; exact Hk].
        intros a b e f [-> _] H. destruct k; destruct H as [-> _]; reflexivity.
      - intros s1 v1 s2 v2 L H. apply H.
      - intros s1 v1 s2 v2 L H. apply H.
      - intros s1 v1 s2 v2 L a b (H1 & H2 & H3) Hab. split; [exact H1|]. split; [exact H2|]. apply all_P_cons; assumption.
      - apply diag_req. exact Hr.
      - exists []. split; cbn [as_new_obj a_m a_t a_tf a_tc a_u]; try reflexivity; [|constructor].
        split; [|split; [split; [reflexivity|constructor]|intros a b []]].
        apply as_new_related; [apply P_closed|apply P_closed| | |]; repeat intro; discriminate. }
    rewrite E in G. destruct G as (G1 & _ & G2 & _ & G3). split; [exact G3|]. split; [apply diag_ans; exact G1|apply diag_states; exact G2].
  Qed.
End Calls.

Theorem C96_if_constant k : cs_etd k = false -> C96_constant k.
Proof. intros Hk ab W p nl HD HN rs w0 x o w1 calls Hr E. revert o E. rewrite Hk. intros o E. exact (cs_real ab W p nl HD HN k rs w0 x o w1 calls Hk Hr E). Qed.
Theorem C96_if_adaptive k : as_etd k = false -> C96_adaptive k.
Proof. intros Hk ab W p nl HD HN ks cfg compute rs w0 x o w1 calls Hr E. revert o E. rewrite Hk. intros o E. exact (as_real ab W p nl HD HN k ks cfg compute rs w0 x o w1 calls Hk Hr E). Qed.

(** ** ETD strategies *)
(** A real problem: [u' = L u + u] with float64 operator and state; [nl_func] returns its argument. *)
Definition same_nl {ab} (v : vec (Dops ab)) (w : unit) : (exn + vec (Dops ab)) * unit := (inr v, w).
Definition real_problem ab : problem (Dops ab) unit := dt_problem ab false 1 default_etdcfg (fun d => d) F64 F64 F64 F64.
Lemma real_problem_real ab : real_data (real_problem ab).
Proof.
  repeat split; try (repeat intro; discriminate). intros m Hm. eexists. split; [reflexivity|]. intros i j. apply real_promote; [apply real_F64|apply Hm].
Qed.
Lemma same_nl_real ab : nl_real (@same_nl ab).
Proof. intros v w r w' Hv E. injection E as <- _. exact Hv. Qed.

Lemma default_points : (0 < contour_points default_etdcfg)%nat.
Proof. cbn. lia. Qed.
Definition second_call {ab} (w : unit * list (vec (Dops ab))) (d : dtype) : Prop := nth_error (snd w) 1 = Some (arr d).
Definition returns {X} (r : exn + X) : Prop := match r with inr _ => True | inl _ => False end.
(** The first step calls [nl_func] with the state and then with a complex array. *)
Lemma cs_first_calls ab k h : cs_etd k = true -> let p := with_nl (held true (real_problem ab)) (watched same_nl) in
  second_call (snd (cs_upd (cs_model p k) (arr F64) h (cs_new p k) (tt, []))) C128 /\ returns (fst (fst (cs_upd (cs_model p k) (arr F64) h (cs_new p k) (tt, [])))).
Proof.
  intros Hk p. assert (HC := default_points).
  destruct k; try discriminate; cbn [cs_model cs_new];
    unfold etd4_diag, etd4_nondiag, etd5_diag, etd5_nondiag, cs_solver; cbn [cs_upd]; unfold cs_update_stages, s_update_coeffs, bind;
    cbn [same_h h_coeff set_h coefs n1_init mem].
  - rewrite etd4d_cplx. split; [reflexivity|exact I].
  - rewrite (etd4n_cplx ab default_etdcfg h _ HC). split; [reflexivity|exact I].
  - rewrite etd5d_cplx. split; [reflexivity|exact I].
  - rewrite (etd5n_cplx ab default_etdcfg h _ HC). split; [reflexivity|exact I].
Qed.
Lemma as_first_calls ab k h : as_etd k = true -> let p := with_nl (held true (real_problem ab)) (watched same_nl) in
  second_call (snd (as_upd (as_model p k) false (arr F64) h (as_new p k) (tt, []))) C128 /\ returns (fst (fst (as_upd (as_model p k) false (arr F64) h (as_new p k) (tt, [])))).
Proof.
  intros Hk p. assert (HC := default_points).
  destruct k; try discriminate; cbn [as_model as_new];
    unfold etd34_diag, etd34_nondiag, etd34_diagonalized, etd35_diag, etd35_nondiag, etd35_diagonalized, as_solver; cbn [as_upd];
    unfold as_update_stages, s_update_coeffs, bind; cbn [same_h h_coeff set_h coefs n1_init mem].
  - unfold etd34d_coeffs. rewrite etd34_cplx by reflexivity. split; [reflexivity|exact I].
  - rewrite (etd4n_cplx ab default_etdcfg h _ HC). split; [reflexivity|exact I].
  - unfold etd34z_coeffs. rewrite etd34_cplx by reflexivity. split; [reflexivity|exact I].
  - unfold etd35d_coeffs. rewrite etd35_cplx by reflexivity. split; [reflexivity|exact I].
  - rewrite (etd5n_cplx ab default_etdcfg h _ HC). split; [reflexivity|exact I].
  - unfold etd35z_coeffs. rewrite etd35_cplx by reflexivity. split; [reflexivity|exact I].
Qed.
Lemma complex_not_real ab t (l : list (vec (Dops ab))) : second_call (t, l) C128 -> ~ Forall real l.
Proof. intros E H. apply nth_error_In in E. rewrite Forall_forall in H. exact (H _ E 0%nat eq_refl). Qed.

Theorem C96_etd_constant_refuted k : cs_etd k = true -> ~ C96_constant k.
Proof.
  intros Hk H. set (ab := fun _ : dtype => 1).
  specialize (H ab unit (real_problem ab) same_nl (real_problem_real ab) (same_nl_real ab) [Step (arr F64) (PyN (A := T Rops) false 1)] tt).
  revert H. rewrite Hk. intros H. destruct (cs_first_calls ab k 1 Hk) as [E1 E2].
  cbn [cs_session cs_serve] in H. unfold cs_step in H. cbn [c_m cs_new_obj val] in H.
  destruct (cs_upd _ _ _ _ _) as [[[e|r] s'] [[] l]] in H, E1, E2; [contradiction|].
  assert (LE : tleb Rops (tofZ Rops 0) 1 = true) by (apply Rleb_true; cbn; lra). rewrite LE in H.
  refine (complex_not_real ab _ _ E1 (proj1 (H _ _ _ _ _ eq_refl))). constructor; [|constructor]. constructor; [|constructor]. intros i. apply real_F64.
Qed.
Theorem C96_etd_adaptive_refuted k : as_etd k = true -> ~ C96_adaptive k.
Proof.
  intros Hk H. set (ab := fun _ : dtype => 1).
  specialize (H ab unit (real_problem ab) same_nl (real_problem_real ab) (same_nl_real ab) the_consts default_config (keep _) [Step (arr F64) (PyN (A := T Rops) false 1)] tt).
  revert H. rewrite Hk. intros H. destruct (as_first_calls ab k 1 Hk) as [E1 E2].
  assert (LE : tleb Rops (tofZ Rops 0) (val (PyN (A := T Rops) false 1)) = true) by (apply Rleb_true; cbn; lra).
  assert (LT : tltb Rops 1 (tofZ Rops 1) = false) by (apply Rltb_false; cbn; lra).
  cbn [as_session as_serve] in H. unfold as_step in H. rewrite LE in H. cbn [as_step_loop a_accept a_m as_new_obj] in H. cbn [val] in H.
  destruct (as_upd _ _ _ _ _ _) as [[[e|[v e]] s'] [[] l]] in H, E1, E2; [contradiction|]. unfold keep in H. cbn [accepts] in H. rewrite LT in H.
  refine (complex_not_real ab _ _ E1 (proj1 (H _ _ _ _ _ eq_refl))). constructor; [|constructor]. constructor; [|constructor]. intros i. apply real_F64.
Qed.

(** A session on a real problem with IF34: the calls of [nl_func] in an actual step, all float64. *)
Example C96_not_vacuous ab h : let p := with_nl (held false (real_problem ab)) (watched same_nl) in
  second_call (snd (as_upd (as_model p IF34d) false (arr F64) h (as_new p IF34d) (tt, []))) F64.
Proof. reflexivity. Qed.

Print Assumptions C96_if_constant.
Print Assumptions C96_if_adaptive.
Print Assumptions C96_etd_constant_refuted.
Print Assumptions C96_etd_adaptive_refuted.
