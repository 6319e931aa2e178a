(** * Number of evaluations of the nonlinear function *)

From Coq Require Import ZArith List Bool Lia.
From Verif Require Import Scalars Control ControlCS ControlCSReal ControlAS ControlSim Arrays SchemeBase
     SchemeIF SchemeETD4 SchemeETD5 Solvers.
Import ListNotations.

Set Implicit Arguments.

(** Evaluations per attempt, and additional evaluations at the start of a step that follows an
    accepted one (ETD35 evaluates its first stage again, the others re-use the last one). *)
Definition cs_evals (k : cs_kind) : nat :=
  match k with IF4d | IF4n | ETD4d | ETD4n => 4 | ETD5d | ETD5n => 6 end.
Definition as_evals (k : as_kind) : nat :=
  match k with
  | IF34d | IF34n | IF34z | ETD34d | ETD34n | ETD34z => 4
  | IF45DPd => 6
  | ETD35d | ETD35n | ETD35z => 5
  end.
Definition as_evals_first (k : as_kind) : nat :=
  match k with ETD35d | ETD35n | ETD35z => 1 | _ => 0 end.

Section Cost.
  Variable F : tops.
  Variable A : aops F.
  Variable p : problem A nat.
  (** The world counts the evaluations (which may raise). *)
  Hypothesis HC : forall v c, snd (p_nl p v c) = S c.

  Definition cs_inited (k : cs_kind) : cs_st (cs_model p k) -> bool :=
    match k with
    | IF4d => n1_init | IF4n => n1_init | ETD4d => n1_init | ETD4n => n1_init
    | ETD5d => n1_init | ETD5n => n1_init
    end.
  Definition as_inited (k : as_kind) : as_st (as_model p k) -> bool :=
    match k with
    | IF34d => n1_init | IF34n => n1_init | IF34z => n1_init | IF45DPd => n1_init
    | ETD34d => n1_init | ETD34n => n1_init | ETD34z => n1_init
    | ETD35d => n1_init | ETD35n => n1_init | ETD35z => n1_init
    end.

  Ltac unf :=
    unfold cs_model, as_model, if4_diag, if4_nondiag, etd4_diag, etd4_nondiag, etd5_diag, etd5_nondiag,
      if34_diag, if34_nondiag, if34_diagonalized, if45dp, etd34_diag, etd34_nondiag, etd34_diagonalized,
      etd35_diag, etd35_nondiag, etd35_diagonalized, cs_solver, as_solver in *;
    cbn [cs_st cs_reset cs_upd as_st as_reset as_upd] in *;
    unfold cs_update_stages, as_update_stages, dp_update_stages,
      if4d_stages, if4n_stages, if34d_stages, if34n_stages, if34z_stages, etd4d_stages, etd4n_stages,
      etd34d_stages, etd34n_stages, etd34z_stages, etd5d_stages, etd5n_stages, etd35d_stages,
      etd35n_stages, etd35z_stages in *;
    unfold
      if4d_init, if4n_init, if34d_init, if34n_init, if34z_init, etd4d_init, etd4n_init, etd34d_init,
      etd34n_init, etd34z_init, etd5d_init, etd5n_init, etd35d_init, etd35n_init, etd35z_init in *;
    unfold bind, get, upd, ret, call, set_init, set_mem in *.
  Ltac norm := cbn [fst snd h_coeff n1_init coefs mem same_h m1_NL1 m2_NL1 m2_NLn m3_NL1 m3_NLn m3_v
                    m4_NL1 m4_v] in *.

  (** [_update_coeffs] makes no evaluation and leaves the flag alone. *)
  Lemma update_coeffs_cost K X uc h (s : sst (T F) K X) (c : nat) :
    exists r s', s_update_coeffs F nat K X uc h s c = (r, s', c) /\ n1_init s' = n1_init s.
  Proof.
    unfold s_update_coeffs. destruct (same_h F h (h_coeff s)); [eauto|].
    destruct (uc h (coefs (set_h (Some h) s))) as [r c']. eexists _, _. split; reflexivity.
  Qed.

  Ltac step_nl :=
    match goal with
    | H : context [p_nl p ?v ?c] |- _ =>
        let E := fresh "E" in
        assert (E := HC v c);
        destruct (p_nl p v c) as [[?e|?y] ?c']; norm; [discriminate|]
    end.

  Ltac cost_tac :=
    match goal with
    | H : context [s_update_coeffs ?a1 ?a2 ?a3 ?a4 ?uc ?hh ?ss ?ww] |- _ =>
        let r := fresh "r" in let s1 := fresh "s1" in let E1 := fresh "E1" in let E2 := fresh "E2" in
        destruct (update_coeffs_cost uc hh ss ww) as (r & s1 & E1 & E2); rewrite E1 in H;
        destruct r as [?ex|[]]; norm; [discriminate|]; rewrite E2 in H; clear E1;
        destruct (n1_init ss); norm; repeat step_nl;
        injection H as _ <- <-; norm; (split; [|first [reflexivity|assumption]])
    end.

  Lemma cs_upd_cost k u h s c x s' c' :
    cs_upd (cs_model p k) u h s c = (inr x, s', c') ->
    c' = c + cs_evals k + (if cs_inited k s then 0 else 1) /\ cs_inited k s' = true.
  Proof. destruct k; intros H; unf; cbn [cs_inited cs_evals] in *; cost_tac; lia. Qed.

  Lemma as_upd_cost k acc u h s c x s' c' :
    as_upd (as_model p k) acc u h s c = (inr x, s', c') ->
    c' = c + as_evals k + (if as_inited k s then 0 else 1) + (if acc then as_evals_first k else 0) /\
    as_inited k s' = true.
  Proof.
    destruct k, acc; intros H; unf; cbn [as_inited as_evals as_evals_first] in *; cost_tac; lia.
  Qed.
End Cost.

Section CostRuns.
  Variable F : tops.
  Variable A : aops F.
  Variable p : problem A nat.
  Hypothesis HC : forall v c, snd (p_nl p v c) = S c.

  (** Constant steps: a chain of [n] updates. *)
  Lemma cs_chain_cost k h n us sts ws :
    cs_chain (cs_model p k) h n us sts ws ->
    ws n = ws 0 + n * cs_evals k + (if cs_inited p k (sts 0) then 0 else Nat.min n 1) /\
    (0 < n -> cs_inited p k (sts n) = true).
  Proof.
    intros Hc. induction n as [|n IH].
    - split; [destruct (cs_inited p k (sts 0)); cbn; lia|lia].
    - destruct IH as [I1 I2]; [intros j Hj; apply Hc; lia|].
      destruct (@cs_upd_cost F A p HC k _ _ _ _ _ _ _ (Hc n (Nat.lt_succ_diag_r n))) as [H1 H2].
      split; [|intros _; exact H2]. rewrite H1, I1.
      destruct n as [|n].
      + destruct (cs_inited p k (sts 0)); cbn; lia.
      + rewrite I2 by lia. destruct (cs_inited p k (sts 0)); cbn; lia.
  Qed.

  (** Adaptive steps, with a counter for the attempts next to the counter for evaluations. *)
  Variable k : as_kind.
  Variable ks : consts (T F).
  Variable cfg : config (T F).
  Variable compute_s : vec A -> vec A -> exn + sval (T F).
  Notation mc := (as_counted (as_model p k)).
  Notation obj := (asobj F (vec A) (nat * nat) mc).

  Definition first_cost (acc : bool) (s : as_st (as_model p k)) : nat :=
    (if as_inited p k s then 0 else 1) + (if acc then as_evals_first k else 0).

  Lemma as_step_loop_cost : forall fuel nl u h (o : obj) c w x o' c' w',
    as_step_loop ks cfg compute_s fuel nl u h o (c, w) = (Ret x, o', (c', w')) ->
    w' = w + as_evals k * (c' - c) + first_cost (a_accept o) (a_m o) /\ c < c' /\
    a_accept o' = true /\ as_inited p k (a_m o') = true.
  Proof.
    induction fuel as [|fuel IH]; intros nl u h o c w x o' c' w' H; cbn [as_step_loop] in H; [discriminate|].
    cbn [as_counted as_upd fst snd] in H.
    destruct (as_upd (as_model p k) (a_accept o) u (val h) (a_m o) w) as [[[e|[a b]] s1] w1] eqn:E; [discriminate|].
    apply (@as_upd_cost F A p HC) in E. destruct E as [E1 E2].
    destruct (compute_s a b) as [e|sv]; [discriminate|].
    destruct (accepts sv) as [y|].
    - injection H as _ Ho Hc Hw. subst o' c' w'. cbn [set_accept set_meth a_accept a_m].
      unfold first_cost. replace (S c - c) with 1 by lia. repeat split; try assumption; lia.
    - destruct (Nat.ltb (MAX_LOOPS ks) (S nl)); [discriminate|].
      destruct (tltb F (val (reject_size ks cfg sv h)) (minh cfg)); [discriminate|].
      apply IH in H. destruct H as (H1 & H2 & H3 & H4).
      split; [|split; [lia|split; assumption]].
      cbn [set_accept set_meth a_accept a_m] in H1. unfold first_cost in *. rewrite E2 in H1.
      rewrite H1, E1. replace (c' - c) with (S (c' - S c)) by lia. lia.
  Qed.

  Lemma as_step_cost u h (o : obj) c w x o' c' w' :
    as_step ks cfg compute_s u h o (c, w) = (Ret x, o', (c', w')) ->
    w' = w + as_evals k * (c' - c) + first_cost (a_accept o) (a_m o) /\ c < c' /\
    a_accept o' = true /\ as_inited p k (a_m o') = true.
  Proof.
    unfold as_step. destruct (tleb F (tofZ F 0) (val h)); [|discriminate]. apply as_step_loop_cost.
  Qed.

  Lemma as_chain_cost tf n us (os : nat -> obj) ws hin hacc hsug tau :
    as_chain ks cfg compute_s tf n us os ws hin hacc hsug tau ->
    fst (ws 0) + n <= fst (ws n) /\
    snd (ws n) = snd (ws 0) + as_evals k * (fst (ws n) - fst (ws 0)) +
                 (match n with 0 => 0 | S j => first_cost (a_accept (os 0)) (a_m (os 0)) + j * as_evals_first k end) /\
    (0 < n -> a_accept (os n) = true /\ as_inited p k (a_m (os n)) = true).
  Proof.
    intros Hc. induction n as [|n IH].
    - split; [lia|]. split; [lia|lia].
    - destruct IH as (I1 & I2 & I3); [intros j Hj; apply Hc; lia|].
      destruct (Hc n (Nat.lt_succ_diag_r n)) as [(o1 & H1 & H2 & H3) _].
      destruct (ws n) as [c w] eqn:En, (ws (S n)) as [c' w'] eqn:En'.
      apply as_step_cost in H1. destruct H1 as (H4 & H5 & H6 & H7).
      split; [cbn [fst]; cbn [fst] in I1; lia|].
      split; [|intros _; rewrite H2, H3; split; assumption].
      cbn [fst snd] in *. rewrite H4, I2.
      destruct n as [|n].
      + rewrite En. cbn [fst snd].
        replace (c - c) with 0 by lia. lia.
      + destruct I3 as [I3 I4]; [lia|].
        replace (first_cost (a_accept (os (S n))) (a_m (os (S n)))) with (as_evals_first k)
          by (unfold first_cost; rewrite I3, I4; lia).
        replace (c' - fst (ws 0)) with ((c - fst (ws 0)) + (c' - c)) by lia.
        rewrite Nat.mul_add_distr_l. cbn [Nat.mul]. lia.
  Qed.
End CostRuns.
