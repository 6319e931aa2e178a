(** * C75: the error estimate near a smooth solution

    For a smooth solution [u] of u' = L u + N(u) on [t0, t1], the error estimate of IF34, ETD34 and ETD35 for a step of size
    [h] from a vector within [d] of the solution is at most [C h (h^3 + d + e)], with [e] the error of the contour sums; the
    candidate is within [d + C h (h^3 + d + e)] of the solution. *)

From Coq Require Import ZArith List Bool Reals Lra Lia FunctionalExtensionality QArith Qreals Setoid Morphisms.
From Coquelicot Require Import Hierarchy Derive RInt Complex.
From Verif Require Import Scalars Control ControlCS ControlCSReal ControlAS ControlASReal ControlSim ControlSound PropsControl Arrays SchemeBase
     SchemeIF SchemeETD4 SchemeETD5 Solvers SchemeFacts SchemeSound SchemeFamily SchemePartial SchemeForm CInst SpecRK
     SchemeIFReal PropsCache PropsIF SpecPhi SpecPoly ContourReal SpecERK SchemeETDReal SchemeETDCoefs PropsPsi PropsETD
     PropsLinear ContourMatrix MatrixFlow PropsMatrix Tolerance PropsTolerance Asym Solution LocalRK4 Stable Converge Voc LocalKro MatExp ConvRuns ConvMethods
     PropsConverge OrderWords OrderLocal OrderMethods OrderSharp PropsOrder5 Estimate Raises ControlAccept.
Import ListNotations.
Local Open Scope R_scope.

(** ** The estimate as a difference of two methods *)
Definition pair_follows (n : nat) (N : cvec -> cvec) (m1 m2 : R -> erk) (A1 : R) (S1 : nat) (A2 : R) (S2 : nat) (e : R) (Phi : R -> cvec -> cvec * cvec) (h : R) : Prop :=
  exists m1' m2', erk_close n A1 S1 h e (m1 h) m1' /\ erk_close n A2 S2 h e (m2 h) m2' /\
    forall v, veq (below n) (fst (Phi h v)) (erk_step m1' N h v) /\ veq (below n) (snd (Phi h v)) (csub (erk_step m1' N h v) (erk_step m2' N h v)).

(** One attempt of the adaptive solver of kind [k] from a vector within [d] of the solution: the estimate, and the distance of
    the candidate from the solution. *)
Definition est_of (n : nat) (t0 t1 : R) (u : R -> cvec) (ord : nat) (C h0 r0 : R) (good : R -> Prop) (Phi : R -> cvec -> cvec * cvec) (e : R) : Prop :=
  forall t h v d, t0 <= t -> 0 < h <= h0 -> t + h <= t1 -> 0 <= d -> d + e <= r0 -> vle n (csub v (u t)) d -> good h ->
    vle n (snd (Phi h v)) (C * h * (h ^ ord + d + e)) /\
    vle n (csub (fst (Phi h v)) (u (t + h))) (d + C * h * (h ^ ord + d + e)).
Definition est_claim (n : nat) (t0 t1 : R) (u : R -> cvec) (ord : nat) (C h0 r0 : R) {W} (p : problem Cops W) (N : cvec -> cvec) (k : as_kind) (e : R) : Prop :=
  est_of n t0 t1 u ord C h0 r0 (as_good p k) (as_Phi p N k) e.

Section Est.
  Variables n q : nat.
  Variable L : nat -> nat -> C.
  Variable N : cvec -> cvec.
  Variables t0 t1 rho K : R.
  Variable u : R -> cvec.
  Variable f : nat -> R -> cvec.
  Variable J : R -> cvec -> cvec.
  Hypothesis HS : smooth n q L N t0 t1 rho K u f J.
  Variables m1 m2 : R -> erk.
  Variable ord : nat.
  Hypothesis Hloc1 : bigO n R (adm t0 t1) (S ord) (fun t h => csub (erk_step (m1 h) N h (u t)) (u (t + h))).
  Hypothesis Hloc2 : bigO n R (adm t0 t1) (S ord) (fun t h => csub (erk_step (m2 h) N h (u t)) (u (t + h))).

  Theorem estimates A1 S1 A2 S2 : 0 <= A1 -> 0 <= A2 -> exists C h0 r0, 0 <= C /\ 0 < h0 /\ 0 < r0 /\
    forall (good : R -> Prop) Phi e hb, 0 <= e -> hb <= h0 ->
      (forall h, 0 < h <= hb -> h <= t1 - t0 -> good h -> pair_follows n N m1 m2 A1 S1 A2 S2 e Phi h) ->
      est_of n t0 t1 u ord C hb r0 good Phi e.
  Proof.
    intros HA1 HA2.
    destruct (pair_estimate n q L N t0 t1 rho K u f J HS ord m1 m2 Hloc1 Hloc2 A1 S1 A2 S2 HA1 HA2) as (C1 & h1 & r1 & HC1 & Hh1 & Hr1 & G1).
    destruct (near_step n q L N t0 t1 rho K u f J HS A1 S1 HA1) as (C2 & h2 & HC2 & Hh2 & G2). destruct Hloc1 as (C3 & h3 & HC3 & Hh3 & G3).
    assert (Hrho := so_rho _ _ _ _ _ _ _ _ _ _ _ HS).
    exists (C1 + C2 + C3), (Rmin h1 (Rmin h2 h3)), (Rmin r1 (Rmin 1 (rho / 2))).
    split; [lra|]. split; [repeat apply Rmin_glb_lt; assumption|]. split; [repeat apply Rmin_glb_lt; lra|].
    intros good Phi e hb He Hhb Hf t h v d Ht Hh Hth Hd Hde Hv Hg.
    assert (M1 := Rmin_l h1 (Rmin h2 h3)). assert (M2 := Rmin_r h1 (Rmin h2 h3)). assert (M3 := Rmin_l h2 h3). assert (M4 := Rmin_r h2 h3).
    assert (M5 := Rmin_l r1 (Rmin 1 (rho / 2))). assert (M6 := Rmin_r r1 (Rmin 1 (rho / 2))). assert (M7 := Rmin_l 1 (rho / 2)). assert (M8 := Rmin_r 1 (rho / 2)).
    destruct (Hf h Hh ltac:(lra) Hg) as (m1' & m2' & E1 & E2 & E3). destruct (E3 v) as [E4 E5].
    assert (P : 0 <= h ^ ord) by (apply pow_le; lra). assert (Ph : 0 <= h * (h ^ ord + d + e)) by (apply Rmult_le_pos; lra).
    assert (Ph1 : 0 <= h * h ^ ord) by (apply Rmult_le_pos; lra). assert (Ph2 : 0 <= h * (d + e)) by (apply Rmult_le_pos; lra).
    split.
    - apply (vle_ext n _ _ _ (fun i Hi => eq_sym (E5 i Hi))).
      eapply vle_mono; [apply (G1 m1' m2' t h v d e E1 E2 Ht ltac:(lra) Hth Hd He ltac:(lra) Hv)|]. nra.
    - assert (Q1 := G2 _ _ t h v d e E1 ltac:(lra) ltac:(lra) ltac:(lra) ltac:(lra) Hv).
      assert (Q2 := G3 t h (conj Ht (conj (proj1 Hh) Hth)) ltac:(lra)). cbn beta in Q2. cbn [pow] in Q2.
      apply (vle_ext n (csub (erk_step m1' N h v) (u (t + h)))); [intros i Hi; unfold csub; f_equal; symmetry; apply (E4 i Hi)|].
      eapply vle_mono; [eapply vle_ext; [|exact (vle_add n _ _ _ _ (vle_add n _ _ _ _ Q1 Q2) Hv)]|].
      + intros i Hi. unfold cadd, csub. ring.
      + nra.
  Qed.
End Est.

(** ** The three pairs *)
Lemma csub_veq dom (a b c b' c' : cvec) : veq dom a (csub b c) -> veq dom b b' -> veq dom c c' -> veq dom a (csub b' c').
Proof. intros H1 H2 H3 i Hi. rewrite (H1 i Hi). unfold csub. rewrite (H2 i Hi), (H3 i Hi). reflexivity. Qed.
Section Pairs.
  Variable n : nat.
  Variable L : nat -> nat -> C.
  Variable Ex : R -> nat -> nat -> C.
  Variable PH : nat -> R -> cvec -> cvec.
  Variable N : cvec -> cvec.
  Variables t0 t1 rho K : R.
  Variable u : R -> cvec.
  Variable f : nat -> R -> cvec.
  Variables J J1 : R -> cvec -> cvec.
  Hypothesis HF : matflow n L Ex.
  Hypothesis HS : smooth n 4 L N t0 t1 rho K u f J.
  Hypothesis HJ : Jsmooth n t0 t1 K J J1.
  Hypothesis HP : phi_ops n L (t1 - t0) PH.
  Hypothesis HPF : phi_family n L (t1 - t0) Ex PH.
  Let HT : 0 <= t1 - t0.
  Proof. assert (X := so_time _ _ _ _ _ _ _ _ _ _ _ HS). lra. Qed.
  Notation E := (mflow n Ex).

  Lemma adm_pos' : forall (t h : R), adm t0 t1 t h -> 0 < h.
  Proof. intros t h (_ & H & _). exact H. Qed.

  Lemma if34_est : exists C h0 r0, 0 <= C /\ 0 < h0 /\ 0 < r0 /\ forall (good : R -> Prop) (Phi : R -> cvec -> cvec * cvec),
    (forall h v, veq (below n) (fst (Phi h v)) (lawson RK4_fsal E N h v) /\
                 veq (below n) (snd (Phi h v)) (csub (lawson RK4_fsal E N h v) (lawson (without_weights RK4_fsal RK4_fsal_hat) E N h v))) ->
    est_of n t0 t1 u 3 C h0 r0 good Phi 0.
  Proof.
    destruct (if34_locals n 4 L Ex N t0 t1 rho K u f J J1 PH HF HS HJ HPF (le_n 4)) as [I1 I2].
    destruct (law_close n L Ex HF RK4_fsal (t1 - t0)) as (A1 & S1 & HA1 & Hc1).
    { cbn [RK4_fsal tb_c]. repeat constructor; unfold Q2R; cbn; lra. }
    destruct (law_close n L Ex HF (without_weights RK4_fsal RK4_fsal_hat) (t1 - t0)) as (A2 & S2 & HA2 & Hc2).
    { cbn [RK4_fsal without_weights tb_c]. repeat constructor; unfold Q2R; cbn; lra. }
    apply (O_weak n R (adm t0 t1) adm_pos' 4 5) in I1; [|lia].
    destruct (estimates n 4 L N t0 t1 rho K u f J HS _ _ 3 I1 I2 A1 S1 A2 S2 HA1 HA2) as (C & h0 & r0 & H1 & H2 & H3 & H4).
    exists C, h0, r0. split; [exact H1|]. split; [exact H2|]. split; [exact H3|]. intros good Phi Hk.
    apply (H4 good Phi 0 h0 (Rle_refl 0) (Rle_refl h0)). intros h Hh Hh' _.
    exists (law_erk RK4_fsal E h), (law_erk (without_weights RK4_fsal RK4_fsal_hat) E h).
    split; [apply Hc1; lra|]. split; [apply Hc2; lra|]. intros v. destruct (Hk h v) as [E1 E2].
    assert (X := lawson_erk n L Ex HF N t0 t1 rho K u f J HS). split.
    - rewrite E1. apply X.
    - apply (csub_veq _ _ _ _ _ _ E2); apply X.
  Qed.

  (** [g] replaces the phi functions. *)
  Notation near k q h e g := (opn n (fun v => csub (PH k%nat (q * h) v) (g v)) e).
  Lemma etd34_est : exists C h0 r0, 0 <= C /\ 0 < h0 /\ 0 < r0 /\ forall (good : R -> Prop) (Phi : R -> cvec -> cvec * cvec) e hb, 0 <= e -> hb <= h0 ->
    (forall h, 0 < h <= hb -> h <= t1 - t0 -> good h -> exists g1h g2h g1 g2 g3,
      near 1 (1/2) h e g1h /\ near 2 (1/2) h e g2h /\ near 1 1 h e g1 /\ near 2 1 h e g2 /\ near 3 1 h e g3 /\ forall v,
      let m := krogstad (E (1/2 * h)) (E (1 * h)) g1h g2h g1 g2 g3 in let m' := krogstad_embedded (E (1/2 * h)) (E (1 * h)) g1h g2h g1 g2 g3 in
      veq (below n) (fst (Phi h v)) (erk_step m N h v) /\
      veq (below n) (snd (Phi h v)) (csub (erk_step m N h v) (erk_step m' N h v))) ->
    est_of n t0 t1 u 3 C hb r0 good Phi (8 * e).
  Proof.
    destruct (kro_locals n 4 L Ex N t0 t1 rho K u f J J1 PH HF HS HJ HPF (le_n 4)) as [I1 I2].
    destruct (kro_pair_close n L Ex PH (t1 - t0) HF HP HT) as (A & HA & Hc).
    apply (O_weak n R (adm t0 t1) adm_pos' 4 5) in I1; [|lia].
    destruct (estimates n 4 L N t0 t1 rho K u f J HS _ _ 3 I1 I2 A 4 A 5 HA HA) as (C & h0 & r0 & H1 & H2 & H3 & H4).
    exists C, h0, r0. split; [exact H1|]. split; [exact H2|]. split; [exact H3|]. intros good Phi e hb He Hhb Hk.
    apply (H4 good Phi (8 * e) hb ltac:(lra) Hhb). intros h Hh Hh' Hg. destruct (Hk h Hh Hh' Hg) as (g1h & g2h & g1 & g2 & g3 & B1 & B2 & B3 & B4 & B5 & B6).
    destruct (Hc h e g1h g2h g1 g2 g3 ltac:(lra) He B1 B2 B3 B4 B5) as [Q1 Q2]. eexists _, _. split; [exact Q1|]. split; [exact Q2|]. exact B6.
  Qed.
  Lemma etd35_est : exists C h0 r0, 0 <= C /\ 0 < h0 /\ 0 < r0 /\ forall (good : R -> Prop) (Phi : R -> cvec -> cvec * cvec) e hb, 0 <= e -> hb <= h0 ->
    (forall h, 0 < h <= hb -> h <= t1 - t0 -> good h -> exists g1q g2q g1h g2h g1t g2t g1 g2 g3,
      near 1 (1/4) h e g1q /\ near 2 (1/4) h e g2q /\ near 1 (1/2) h e g1h /\ near 2 (1/2) h e g2h /\ near 1 (3/4) h e g1t /\ near 2 (3/4) h e g2t /\
      near 1 1 h e g1 /\ near 2 1 h e g2 /\ near 3 1 h e g3 /\ forall v,
      let m := etd5_method (E (1/4 * h)) (E (1/2 * h)) (E (3/4 * h)) (E (1 * h)) g1q g2q g1h g2h g1t g2t g1 g2 g3 in
      let m' := etd5_embedded (E (1/4 * h)) (E (1/2 * h)) (E (3/4 * h)) (E (1 * h)) g1q g2q g1h g2h g1t g2t g1 g2 g3 in
      veq (below n) (fst (Phi h v)) (erk_step m N h v) /\
      veq (below n) (snd (Phi h v)) (csub (erk_step m N h v) (erk_step m' N h v))) ->
    est_of n t0 t1 u 3 C hb r0 good Phi (24 * e).
  Proof.
    destruct (etd5_locals n 4 L Ex N t0 t1 rho K u f J J1 PH HF HS HJ HPF (le_n 4)) as [I1 I2].
    destruct (etd5_pair_close n L Ex PH (t1 - t0) HF HP HT) as (A & HA & Hc).
    apply (O_weak n R (adm t0 t1) adm_pos' 4 5) in I1; [|lia].
    destruct (estimates n 4 L N t0 t1 rho K u f J HS _ _ 3 I1 I2 A 6 A 6 HA HA) as (C & h0 & r0 & H1 & H2 & H3 & H4).
    exists C, h0, r0. split; [exact H1|]. split; [exact H2|]. split; [exact H3|]. intros good Phi e hb He Hhb Hk.
    apply (H4 good Phi (24 * e) hb ltac:(lra) Hhb). intros h Hh Hh' Hg.
    destruct (Hk h Hh Hh' Hg) as (g1q & g2q & g1h & g2h & g1t & g2t & g1 & g2 & g3 & B1 & B2 & B3 & B4 & B5 & B6 & B7 & B8 & B9 & B0).
    destruct (Hc h e g1q g2q g1h g2h g1t g2t g1 g2 g3 ltac:(lra) He B1 B2 B3 B4 B5 B6 B7 B8 B9) as [Q1 Q2].
    eexists _, _. split; [exact Q1|]. split; [exact Q2|]. exact B0.
  Qed.
End Pairs.

(** ** C75 for 1-D operators *)
Theorem C75_if34_diagonal :
  forall n (L : cvec) N t0 t1 rho K u f J J1, smooth n 4 (dmat L) N t0 t1 rho K u f J -> Jsmooth n t0 t1 K J J1 ->
  exists C h0 r0, 0 <= C /\ 0 < h0 /\ 0 < r0 /\
    forall W (p : problem Cops W), p_vec p = L -> est_claim n t0 t1 u 3 C h0 r0 p N IF34d 0.
Proof.
  intros n L N t0 t1 rho K u f J J1 HS HJ. assert (HT : 0 <= t1 - t0) by (assert (X := so_time _ _ _ _ _ _ _ _ _ _ _ HS); lra).
  assert (HF := dexp_flow n L).
  destruct (if34_est n (dmat L) (dexp L) (dPHI L) N t0 t1 rho K u f J J1 HF HS HJ (diag_family n L (t1 - t0) HT)) as (C & h0 & r0 & H1 & H2 & H3 & H4).
  exists C, h0, r0. split; [exact H1|]. split; [exact H2|]. split; [exact H3|]. intros W p E. apply H4. intros h v.
  assert (X : forall tb, veq (below n) (lawson tb (dflow L) N h v) (lawson tb (mflow n (dexp L)) N h v)).
  { intros tb. rewrite (lawson_erk n (dmat L) (dexp L) HF N t0 t1 rho K u f J HS tb h v).
    rewrite (veq_all _ _ (lawson_if_step all (dflow L) N (dflow_flow L) (respects_all N) tb h v)).
    rewrite <- law_erk_step. apply (erk_step_ext (below n) N (so_N _ _ _ _ _ _ _ _ _ _ _ HS)); [|reflexivity].
    apply law_erk_eq. intros t a b Hab i Hi. rewrite (dexp_dflow n L t b i Hi). unfold dflow. rewrite (Hab i Hi). reflexivity. }
  assert (Y := C33_if34_diagonal W p N h v). rewrite E in Y. split.
  - intros i Hi. rewrite <- (X RK4_fsal i Hi). apply (Y i).
  - apply (csub_veq (below n) _ (lawson RK4_fsal (dflow L) N h v) (lawson (without_weights RK4_fsal RK4_fsal_hat) (dflow L) N h v)); try apply X.
    intros i _. apply (Y i).
Qed.
Lemma dfun_self n h L F : op_eq (below n) (dfun h L F) (dfun h L F).
Proof. intros a b Hab i Hi; unfold dfun; rewrite (Hab i Hi); reflexivity. Qed.
Lemma dfun_exp n h L q : op_eq (below n) (dfun h L (fun z => Cexp (RtoC q * z))%C) (mflow n (dexp L) (q * h)).
Proof.
  intros a b Hab i Hi. rewrite (dexp_dflow n L (q * h) b i Hi). unfold dfun, dflow. rewrite (Hab i Hi).
  replace (RtoC (q * h) * L i)%C with (RtoC q * (RtoC h * L i))%C by (rewrite RtoC_mult; ring). reflexivity.
Qed.
Theorem C75_etd34_diagonal :
  forall n (L : cvec) N t0 t1 rho K u f J J1, smooth n 4 (dmat L) N t0 t1 rho K u f J -> Jsmooth n t0 t1 K J J1 ->
  exists C h0 r0, 0 <= C /\ 0 < h0 /\ 0 < r0 /\
    forall W (p : problem Cops W), p_vec p = L ->
      0 < modecutoff (p_cfg p) <= contour_radius (p_cfg p) -> (0 < contour_points (p_cfg p))%nat ->
      est_claim n t0 t1 u 3 C h0 r0 p N ETD34d (8 * quad_error (p_cfg p)).
Proof.
  intros n L N t0 t1 rho K u f J J1 HS HJ. assert (HT : 0 <= t1 - t0) by (assert (X := so_time _ _ _ _ _ _ _ _ _ _ _ HS); lra).
  assert (HN := so_N _ _ _ _ _ _ _ _ _ _ _ HS).
  destruct (etd34_est n (dmat L) (dexp L) (dPHI L) N t0 t1 rho K u f J J1 (dexp_flow n L) HS HJ (dPHI_ops n L (t1 - t0) HT) (diag_family n L (t1 - t0) HT))
    as (C & h0 & r0 & H1 & H2 & H3 & H4).
  exists C, h0, r0. split; [exact H1|]. split; [exact H2|]. split; [exact H3|]. intros W p E Hc HM.
  apply (H4 (as_good p ETD34d) (as_Phi p N ETD34d) (quad_error (p_cfg p)) h0 (quad_error_pos (p_cfg p) ltac:(lra)) (Rle_refl h0)). intros h Hh Hh' _.
  destruct (C36_krogstad_up_to_quadrature W p N Hc HM) as (g & G1 & G2 & G3). rewrite E in G3.
  exists (dfun h L (g 1%nat (1/2))), (dfun h L (g 2%nat (1/2))), (dfun h L (g 1%nat 1)), (dfun h L (g 2%nat 1)), (dfun h L (g 3%nat 1)).
  do 5 (split; [apply (quad_bound (p_cfg p) g Hc G1 G2); (lia || lra)|]). intros v m m'. destruct (G3 h v) as [_ ->]. cbn [fst snd].
  assert (X : veq (below n) (erk_step (krogstad (dfun h L (fun z => Cexp (RtoC (1/2) * z))%C) (dfun h L (fun z => Cexp (RtoC 1 * z))%C)
     (dfun h L (g 1%nat (1/2))) (dfun h L (g 2%nat (1/2))) (dfun h L (g 1%nat 1)) (dfun h L (g 2%nat 1)) (dfun h L (g 3%nat 1))) N h v) (erk_step m N h v)).
  { apply (erk_step_ext (below n) N HN); [|reflexivity]. apply krogstad_eq; first [apply dfun_exp|apply dfun_self]. }
  split; [exact X|]. eapply csub_veq; [intros i _; unfold csub; reflexivity|exact X|].
  apply (erk_step_ext (below n) N HN); [|reflexivity]. apply krogstad_embedded_eq; first [apply dfun_exp|apply dfun_self].
Qed.
Theorem C75_etd35_diagonal :
  forall n (L : cvec) N t0 t1 rho K u f J J1, smooth n 4 (dmat L) N t0 t1 rho K u f J -> Jsmooth n t0 t1 K J J1 ->
  exists C h0 r0, 0 <= C /\ 0 < h0 /\ 0 < r0 /\
    forall W (p : problem Cops W), p_vec p = L ->
      0 < modecutoff (p_cfg p) <= contour_radius (p_cfg p) -> (0 < contour_points (p_cfg p))%nat ->
      est_claim n t0 t1 u 3 C h0 r0 p N ETD35d (24 * quad_error (p_cfg p)).
Proof.
  intros n L N t0 t1 rho K u f J J1 HS HJ. assert (HT : 0 <= t1 - t0) by (assert (X := so_time _ _ _ _ _ _ _ _ _ _ _ HS); lra).
  assert (HN := so_N _ _ _ _ _ _ _ _ _ _ _ HS).
  destruct (etd35_est n (dmat L) (dexp L) (dPHI L) N t0 t1 rho K u f J J1 (dexp_flow n L) HS HJ (dPHI_ops n L (t1 - t0) HT) (diag_family n L (t1 - t0) HT))
    as (C & h0 & r0 & H1 & H2 & H3 & H4).
  exists C, h0, r0. split; [exact H1|]. split; [exact H2|]. split; [exact H3|]. intros W p E Hc HM.
  apply (H4 (as_good p ETD35d) (as_Phi p N ETD35d) (quad_error (p_cfg p)) h0 (quad_error_pos (p_cfg p) ltac:(lra)) (Rle_refl h0)). intros h Hh Hh' _.
  set (g := ph (p_cfg p)).
  assert (G1 : forall r q z, (1 <= r <= 3)%nat -> 0 < q <= 1 -> Cmod (g r q z - phi r (RtoC q * z))%C <=
     exp (Cmod z + contour_radius (p_cfg p)) * contour_radius (p_cfg p) ^ contour_points (p_cfg p) / INR (fact (contour_points (p_cfg p))) / INR (fact r))
    by (intros r q z Hr Hq; apply (ph_error (p_cfg p) (proj1 Hc) HM (proj2 Hc) r q z Hr Hq)).
  assert (G2 : forall r q z, (1 <= r <= 3)%nat -> 0 < q <= 1 -> modecutoff (p_cfg p) <= Cmod z -> g r q z = phi r (RtoC q * z)%C)
    by (intros r q z Hr Hq Hz; apply ph_big; [apply Hc|exact Hr|lra|exact Hz]).
  set (P k q := dfun h L (g k q)).
  exists (P 1%nat (1/4)), (P 2%nat (1/4)), (P 1%nat (1/2)), (P 2%nat (1/2)), (P 1%nat (3/4)), (P 2%nat (3/4)), (P 1%nat 1), (P 2%nat 1), (P 3%nat 1).
  do 9 (split; [apply (quad_bound (p_cfg p) g Hc G1 G2); (lia || lra)|]). intros v m m'. rewrite (etd35d_erk W p N h v), E. unfold pair_of. cbn [fst snd].
  assert (X : veq (below n) (erk_step (d_etd5 (p_cfg p) h L) N h v) (erk_step m N h v)).
  { apply (erk_step_ext (below n) N HN); [|reflexivity]. apply etd5_eq; first [apply dfun_exp|apply dfun_self]. }
  split; [exact X|]. eapply csub_veq; [intros i _; unfold csub; reflexivity|exact X|].
  apply (erk_step_ext (below n) N HN); [|reflexivity]. apply etd5_embedded_eq; first [apply dfun_exp|apply dfun_self].
Qed.

(** ** C75 for matrix operators *)
Theorem C75_if34_matrix :
  forall n (L : mat Cops) N t0 t1 rho K u f J J1, smooth n 4 L N t0 t1 rho K u f J -> Jsmooth n t0 t1 K J J1 ->
  exists C h0 r0, 0 <= C /\ 0 < h0 /\ 0 < r0 /\
    forall W (p : problem Cops W), p_size p = n -> p_mat p = L -> exp_series p -> (forall m e, p_expm p m <> inl e) ->
      est_claim n t0 t1 u 3 C h0 r0 p N IF34n 0.
Proof.
  intros n L N t0 t1 rho K u f J J1 HS HJ. assert (HT : 0 <= t1 - t0) by (assert (X := so_time _ _ _ _ _ _ _ _ _ _ _ HS); lra).
  assert (HF := series_is_flow n L). assert (HN := so_N _ _ _ _ _ _ _ _ _ _ _ HS).
  destruct (if34_est n L (mphi n L 0) (mPHI n L) N t0 t1 rho K u f J J1 HF HS HJ (matrix_family n L (t1 - t0) HT)) as (C & h0 & r0 & H1 & H2 & H3 & H4).
  exists C, h0, r0. split; [exact H1|]. split; [exact H2|]. split; [exact H3|]. intros W p En EL HE HX0.
  destruct (expm_flow p HX0 HE) as (Ex & HX & EX). rewrite En, EL in EX.
  assert (HFx : flow (below n) (mflow n Ex)) by (rewrite <- En; apply mflow_flow; apply HX).
  assert (X := lawson_meq n L N (mphi n L 0) Ex HF HFx HN EX).
  apply H4. intros h v. assert (Y := C33_if34_matrix W p N Ex HX ltac:(rewrite En; exact HN) h v). rewrite En in Y. split.
  - intros i Hi. rewrite <- (X RK4_fsal h v i Hi). apply (Y i Hi).
  - apply (csub_veq (below n) _ (lawson RK4_fsal (mflow n Ex) N h v) (lawson (without_weights RK4_fsal RK4_fsal_hat) (mflow n Ex) N h v)); try apply X.
    intros i Hi. apply (Y i Hi).
Qed.

(** What [C36_matrix_operators] and [C37_matrix_operators] give, as operators. *)
Section MatOps.
  Context {W : Type}.
  Variable p : problem Cops W.
  Variables (n : nat) (L : mat Cops) (S T : cmat) (x s t hb h : R).
  Hypothesis En : p_size p = n.
  Hypothesis EL : p_mat p = L.
  Hypothesis HFit : fits p S T x hb.
  Hypothesis Hs : forall i, (i < n)%nat -> rown n S i <= s.
  Hypothesis Ht : forall i, (i < n)%nat -> rown n T i <= t.
  Hypothesis Hs0 : 0 <= s.
  Hypothesis Ht0 : 0 <= t.
  Lemma merr_fits : 0 <= merr (p_cfg p) x.
  Proof. destruct HFit as (A1 & _ & A3 & _). apply (merr_pos (p_cfg p) A1 ltac:(lra) x A3). Qed.
  Lemma near_k k q P c : / INR (fact k) = c -> near_psi p S T x k q h P ->
    opn n (fun v => csub (mPHI n L k (q * h) v) (oscal c (mdot n P) v)) (s * (merr (p_cfg p) x * t)).
  Proof.
    intros E HP. assert (NO := near_op p S T x s t merr_fits ltac:(rewrite En; exact Hs) ltac:(rewrite En; exact Ht) Ht0 (proj1 (proj2 HFit)) k q h P).
    rewrite En, EL in NO. apply (NO _ HP). intros v i _. unfold oscal, cscal. rewrite E. reflexivity.
  Qed.
  Lemma near_1 q P : near_psi p S T x 1 q h P -> opn n (fun v => csub (mPHI n L 1 (q * h) v) (mdot n P v)) (s * (merr (p_cfg p) x * t)).
  Proof.
    intros HP v y Hy Hv i Hi. assert (G := near_k 1 q P 1 ltac:(cbn; lra) HP v y Hy Hv i Hi).
    unfold csub, oscal, cscal in *. rewrite Cmult_1_l in G. exact G.
  Qed.
  Lemma psi_exp q E : is_psi n 0 (scaled q h L) E -> op_eq (below n) (mdot n E) (mflow n (mphi n L 0) (q * h)).
  Proof.
    intros HE0 a b Hab i Hi. unfold mflow, mdot. apply csum_ext. intros j Hj. rewrite (Hab j Hj). f_equal.
    rewrite (psi_unique n 0 (scaled q h L) _ _ HE0 (mphi_psi n L 0 (q * h)) i j Hi Hj). unfold mtimes. cbn [fact INR]. ring.
  Qed.
  Lemma mdot_self P : op_eq (below n) (mdot n P) (mdot n P).
  Proof. intros a b Hab i Hi. rewrite (mdot_ext_eq n P a b Hab). reflexivity. Qed.
  Lemma oscal_self c P : op_eq (below n) (oscal c (mdot n P)) (oscal c (mdot n P)).
  Proof. intros a b Hab i Hi. unfold oscal, cscal. rewrite (mdot_self P a b Hab i Hi). reflexivity. Qed.
End MatOps.

Theorem C75_etd34_matrix :
  forall n (L : mat Cops) N t0 t1 rho K u f J J1, smooth n 4 L N t0 t1 rho K u f J -> Jsmooth n t0 t1 K J J1 ->
  exists C h0 r0, 0 <= C /\ 0 < h0 /\ 0 < r0 /\
    forall W (p : problem Cops W) S T x s t hb, p_size p = n -> p_mat p = L -> exp_series p -> inv_ok p ->
      fits p S T x hb -> 0 < hb <= h0 ->
      (forall i, (i < n)%nat -> rown n S i <= s) -> (forall i, (i < n)%nat -> rown n T i <= t) -> 0 <= s -> 0 <= t ->
      est_claim n t0 t1 u 3 C hb r0 p N ETD34n (8 * (s * (merr (p_cfg p) x * t))).
Proof.
  intros n L N t0 t1 rho K u f J J1 HS HJ. assert (HT : 0 <= t1 - t0) by (assert (X := so_time _ _ _ _ _ _ _ _ _ _ _ HS); lra).
  assert (HF := series_is_flow n L). assert (HN := so_N _ _ _ _ _ _ _ _ _ _ _ HS).
  destruct (etd34_est n L (mphi n L 0) (mPHI n L) N t0 t1 rho K u f J J1 HF HS HJ (series_phi_ops n L (t1 - t0) HT) (matrix_family n L (t1 - t0) HT))
    as (C & h0 & r0 & H1 & H2 & H3 & H4).
  exists C, h0, r0. split; [exact H1|]. split; [exact H2|]. split; [exact H3|].
  intros W p S T x s t hb En EL HE HI HFit Hhb Hs Ht Hs0 Ht0. assert (HM := merr_fits p S T x hb HFit).
  apply (H4 (as_good p ETD34n) (as_Phi p N ETD34n) (s * (merr (p_cfg p) x * t)) hb); [apply Rmult_le_pos; [exact Hs0|apply Rmult_le_pos; assumption]|lra|].
  intros h Hh Hh' Hg.
  destruct (C36_matrix_operators W p N h S T x HI HE (fits_le p S T x hb h HFit ltac:(lra)) Hg) as (E12 & E1 & P1h & P2h & P1 & P2 & P3 & X1 & X2 & G1 & G2 & G3 & G4 & G5 & G6).
  rewrite En in G6. rewrite En, EL in X1, X2.
  assert (NK := fun k q P c => near_k p n L S T x s t hb h En EL HFit Hs Ht Ht0 k q P c). assert (N1 := near_1 p n L S T x s t hb h En EL HFit Hs Ht Ht0).
  assert (F2 : / INR (fact 2) = 1/2) by (cbn; lra). assert (F3 : / INR (fact 3) = 1/6) by (cbn; lra).
  exists (mdot n P1h), (oscal (1/2) (mdot n P2h)), (mdot n P1), (oscal (1/2) (mdot n P2)), (oscal (1/6) (mdot n P3)).
  split; [exact (N1 _ _ G1)|]. split; [exact (NK 2%nat _ _ _ F2 G2)|]. split; [exact (N1 _ _ G3)|]. split; [exact (NK 2%nat _ _ _ F2 G4)|].
  split; [exact (NK 3%nat _ _ _ F3 G5)|].
  intros v m m'. destruct (G6 v) as [_ ->]. cbn [fst snd].
  set (m0 := krogstad (mdot n E12) (mdot n E1) (mdot n P1h) (oscal (1/2) (mdot n P2h)) (mdot n P1) (oscal (1/2) (mdot n P2)) (oscal (1/6) (mdot n P3))).
  assert (X : veq (below n) (erk_step m0 N h v) (erk_step m N h v)).
  { apply (erk_step_ext (below n) N HN); [|reflexivity]. apply krogstad_eq; first [apply psi_exp; assumption|apply mdot_self|apply oscal_self]. }
  split; [exact X|]. eapply csub_veq; [intros i _; unfold csub; reflexivity|exact X|].
  apply (erk_step_ext (below n) N HN); [|reflexivity]. apply krogstad_embedded_eq; first [apply psi_exp; assumption|apply mdot_self|apply oscal_self].
Qed.
Theorem C75_etd35_matrix :
  forall n (L : mat Cops) N t0 t1 rho K u f J J1, smooth n 4 L N t0 t1 rho K u f J -> Jsmooth n t0 t1 K J J1 ->
  exists C h0 r0, 0 <= C /\ 0 < h0 /\ 0 < r0 /\
    forall W (p : problem Cops W) S T x s t hb, p_size p = n -> p_mat p = L -> exp_series p -> inv_ok p ->
      fits p S T x hb -> 0 < hb <= h0 ->
      (forall i, (i < n)%nat -> rown n S i <= s) -> (forall i, (i < n)%nat -> rown n T i <= t) -> 0 <= s -> 0 <= t ->
      est_claim n t0 t1 u 3 C hb r0 p N ETD35n (24 * (s * (merr (p_cfg p) x * t))).
Proof.
  intros n L N t0 t1 rho K u f J J1 HS HJ. assert (HT : 0 <= t1 - t0) by (assert (X := so_time _ _ _ _ _ _ _ _ _ _ _ HS); lra).
  assert (HF := series_is_flow n L). assert (HN := so_N _ _ _ _ _ _ _ _ _ _ _ HS).
  destruct (etd35_est n L (mphi n L 0) (mPHI n L) N t0 t1 rho K u f J J1 HF HS HJ (series_phi_ops n L (t1 - t0) HT) (matrix_family n L (t1 - t0) HT))
    as (C & h0 & r0 & H1 & H2 & H3 & H4).
  exists C, h0, r0. split; [exact H1|]. split; [exact H2|]. split; [exact H3|].
  intros W p S T x s t hb En EL HE HI HFit Hhb Hs Ht Hs0 Ht0. assert (HM := merr_fits p S T x hb HFit).
  apply (H4 (as_good p ETD35n) (as_Phi p N ETD35n) (s * (merr (p_cfg p) x * t)) hb); [apply Rmult_le_pos; [exact Hs0|apply Rmult_le_pos; assumption]|lra|].
  intros h Hh Hh' Hg.
  destruct (C37_matrix_operators W p N h S T x HI HE (fits_le p S T x hb h HFit ltac:(lra)) Hg)
    as (E14 & E12 & E34 & E1 & P1q & P2q & P1h & P2h & P1t & P2t & P1 & P2 & P3 & X1 & X2 & X3 & X4 & G1 & G2 & G3 & G4 & G5 & G6 & G7 & G8 & G9 & G0).
  rewrite En in G0. rewrite En, EL in X1, X2, X3, X4.
  assert (NK := fun k q P c => near_k p n L S T x s t hb h En EL HFit Hs Ht Ht0 k q P c). assert (N1 := near_1 p n L S T x s t hb h En EL HFit Hs Ht Ht0).
  assert (F2 : / INR (fact 2) = 1/2) by (cbn; lra). assert (F3 : / INR (fact 3) = 1/6) by (cbn; lra).
  exists (mdot n P1q), (oscal (1/2) (mdot n P2q)), (mdot n P1h), (oscal (1/2) (mdot n P2h)), (mdot n P1t), (oscal (1/2) (mdot n P2t)),
    (mdot n P1), (oscal (1/2) (mdot n P2)), (oscal (1/6) (mdot n P3)).
  split; [exact (N1 _ _ G1)|]. split; [exact (NK 2%nat _ _ _ F2 G2)|]. split; [exact (N1 _ _ G3)|]. split; [exact (NK 2%nat _ _ _ F2 G4)|].
  split; [exact (N1 _ _ G5)|]. split; [exact (NK 2%nat _ _ _ F2 G6)|]. split; [exact (N1 _ _ G7)|]. split; [exact (NK 2%nat _ _ _ F2 G8)|].
  split; [exact (NK 3%nat _ _ _ F3 G9)|].
  intros v m m'. destruct (G0 v) as [_ ->]. cbn [fst snd].
  set (m0 := etd5_method (mdot n E14) (mdot n E12) (mdot n E34) (mdot n E1) (mdot n P1q) (oscal (1/2) (mdot n P2q)) (mdot n P1h) (oscal (1/2) (mdot n P2h))
                 (mdot n P1t) (oscal (1/2) (mdot n P2t)) (mdot n P1) (oscal (1/2) (mdot n P2)) (oscal (1/6) (mdot n P3))).
  assert (X : veq (below n) (erk_step m0 N h v) (erk_step m N h v)).
  { apply (erk_step_ext (below n) N HN); [|reflexivity]. apply etd5_eq; first [apply psi_exp; assumption|apply mdot_self|apply oscal_self]. }
  split; [exact X|]. eapply csub_veq; [intros i _; unfold csub; reflexivity|exact X|].
  apply (erk_step_ext (below n) N HN); [|reflexivity]. apply etd5_embedded_eq; first [apply psi_exp; assumption|apply mdot_self|apply oscal_self].
Qed.

(** ** C75 in the eigenbasis: there the estimate is multiplied by [S^-1] *)
Lemma est_basis n t0 t1 u ord C h0 r0 good Phi Phi' Phi2 e (B : cmat) b : 0 <= C -> 0 <= e -> 0 <= b -> (forall i, (i < n)%nat -> rown n B i <= b) ->
  est_of n t0 t1 u ord C h0 r0 good Phi' e -> est_of n t0 t1 u ord C h0 r0 good Phi2 e ->
  (forall h v, veq (below n) (fst (Phi h v)) (fst (Phi2 h v)) /\ veq (below n) (snd (Phi h v)) (mdot n B (snd (Phi' h v)))) ->
  est_of n t0 t1 u ord (C * (1 + b)) h0 r0 good Phi e.
Proof.
  intros HC He Hb HB G1 G2 E t h v d Ht Hh Hth Hd Hde Hv Hg. destruct (E h v) as [E1 E2].
  destruct (G1 t h v d Ht Hh Hth Hd Hde Hv Hg) as [Q1 _]. destruct (G2 t h v d Ht Hh Hth Hd Hde Hv Hg) as [_ Q2].
  set (y := C * h * (h ^ ord + d + e)) in *.
  assert (Y : 0 <= y) by (unfold y; apply Rmult_le_pos; [apply Rmult_le_pos; lra|assert (P := pow_le h ord ltac:(lra)); lra]).
  replace (C * (1 + b) * h * (h ^ ord + d + e)) with ((1 + b) * y) by (unfold y; ring).
  assert (0 <= b * y) by (apply Rmult_le_pos; assumption). split.
  - apply (vle_ext n _ _ _ (fun i Hi => eq_sym (E2 i Hi))). intros i Hi.
    apply Rle_trans with (b * y); [apply (mdot_bound n B _ i b y (HB i Hi) Q1 Y)|lra].
  - apply (vle_ext n (csub (fst (Phi2 h v)) (u (t + h)))); [intros i Hi; unfold csub; f_equal; symmetry; apply (E1 i Hi)|].
    apply (vle_mono n _ (d + y)); [exact Q2|lra].
Qed.
Section Eig.
  Context {W : Type}.
  Variable p : problem Cops W.
  Hypothesis HD : diagonalizes p.
  Notation oeqn := (op_eq (below (p_size p))).
  Notation cj := (conj_op (mdot (p_size p) (p_S p)) (mdot (p_size p) (p_Sinv p))).
  Notation cje := (conj_erk (mdot (p_size p) (p_S p)) (mdot (p_size p) (p_Sinv p))).
  Lemma cj_krogstad_embedded a b c d e f g a' b' c' d' e' f' g' :
    oeqn (cj a) a' -> oeqn (cj b) b' -> oeqn (cj c) c' -> oeqn (cj d) d' -> oeqn (cj e) e' -> oeqn (cj f) f' -> oeqn (cj g) g' ->
    erk_eq (below (p_size p)) (cje (krogstad_embedded a b c d e f g)) (krogstad_embedded a' b' c' d' e' f' g').
  Proof.
    intros. split; unfold conj_erk, krogstad_embedded, krogstad; cbn [er_E er_a er_E1 er_b map app firstn]; repeat (apply Forall2_cons || apply Forall2_nil);
      try assumption; try (apply cj_id; exact HD); repeat first [assumption | apply cj_sub | apply cj_add | apply cj_scal | apply cj_zero].
  Qed.
  Lemma cj_etd5_embedded a b c d e1 e2 e3 e4 e5 e6 e7 e8 e9 a' b' c' d' e1' e2' e3' e4' e5' e6' e7' e8' e9' :
    oeqn (cj a) a' -> oeqn (cj b) b' -> oeqn (cj c) c' -> oeqn (cj d) d' -> oeqn (cj e1) e1' -> oeqn (cj e2) e2' -> oeqn (cj e3) e3' -> oeqn (cj e4) e4' ->
    oeqn (cj e5) e5' -> oeqn (cj e6) e6' -> oeqn (cj e7) e7' -> oeqn (cj e8) e8' -> oeqn (cj e9) e9' ->
    erk_eq (below (p_size p)) (cje (etd5_embedded a b c d e1 e2 e3 e4 e5 e6 e7 e8 e9)) (etd5_embedded a' b' c' d' e1' e2' e3' e4' e5' e6' e7' e8' e9').
  Proof.
    intros. split; unfold conj_erk, etd5_embedded, etd5_method; cbn [er_E er_a er_E1 er_b map nth]; repeat (apply Forall2_cons || apply Forall2_nil);
      try assumption; try (apply cj_id; exact HD); repeat first [assumption | apply cj_sub | apply cj_add | apply cj_scal | apply cj_zero].
  Qed.
  Lemma eig_exp_op h q : oeqn (cj (dfun h (p_eigs p) (fun z => Cexp (RtoC q * z))%C)) (mflow (p_size p) (mphi (p_size p) (p_mat p) 0) (q * h)).
  Proof.
    intros a b Hab i Hi. rewrite (cj_dfun p h _ (fun i => Cexp (RtoC q * (RtoC h * p_eigs p i))%C) (fun i _ => eq_refl) a b Hab i Hi).
    assert (X := mPHI_eig p HD 0 (q * h) b). unfold mPHI in X. unfold mflow. rewrite (X i Hi).
    unfold mdot at 1 3. apply csum_ext. intros j _. cbn [phi]. replace (RtoC (q * h) * p_eigs p j)%C with (RtoC q * (RtoC h * p_eigs p j))%C by (rewrite RtoC_mult; ring). reflexivity.
  Qed.
  Definition Zop (h : R) (G : C -> C) (v : cvec) : cvec := mdot (p_size p) (p_S p) (fun i => (G (RtoC h * p_eigs p i) * mdot (p_size p) (p_Sinv p) v i)%C).
  Lemma Zop_op h G : oeqn (cj (dfun h (p_eigs p) G)) (Zop h G).
  Proof. apply (cj_dfun p). intros. reflexivity. Qed.
End Eig.

Theorem C75_if34_eigenbasis :
  forall n (L : mat Cops) N t0 t1 rho K u f J J1, smooth n 4 L N t0 t1 rho K u f J -> Jsmooth n t0 t1 K J J1 ->
  exists C h0 r0, 0 <= C /\ 0 < h0 /\ 0 < r0 /\
    forall W (p : problem Cops W) b, p_size p = n -> p_mat p = L -> diagonalizes p ->
      (forall i, (i < n)%nat -> rown n (p_Sinv p) i <= b) -> 0 <= b ->
      est_claim n t0 t1 u 3 (C * (1 + b)) h0 r0 p N IF34z 0.
Proof.
  intros n L N t0 t1 rho K u f J J1 HS HJ. assert (HT : 0 <= t1 - t0) by (assert (X := so_time _ _ _ _ _ _ _ _ _ _ _ HS); lra).
  assert (HF := series_is_flow n L). assert (HN := so_N _ _ _ _ _ _ _ _ _ _ _ HS).
  destruct (if34_est n L (mphi n L 0) (mPHI n L) N t0 t1 rho K u f J J1 HF HS HJ (matrix_family n L (t1 - t0) HT)) as (C & h0 & r0 & H1 & H2 & H3 & H4).
  exists C, h0, r0. split; [exact H1|]. split; [exact H2|]. split; [exact H3|]. intros W p b En EL HD HB Hb.
  assert (HZ := eig_flow p HD). rewrite En, EL in HZ.
  assert (X := lawson_meq n L N (mphi n L 0) (eig_exp p) HF (mf_flow n L _ HZ) HN (flows_agree n L _ _ HZ HF)).
  set (Phi' := fun h v => (lawson RK4_fsal (mflow n (eig_exp p)) N h v,
     csub (lawson RK4_fsal (mflow n (eig_exp p)) N h v) (lawson (without_weights RK4_fsal RK4_fsal_hat) (mflow n (eig_exp p)) N h v))).
  assert (G : est_of n t0 t1 u 3 C h0 r0 (as_good p IF34z) Phi' 0).
  { apply H4. intros h v. unfold Phi'. cbn [fst snd]. split; [apply X|]. eapply csub_veq; [intros i _; reflexivity|apply X|apply X]. }
  apply (est_basis n t0 t1 u 3 C h0 r0 (as_good p IF34z) (as_Phi p N IF34z) Phi' Phi' 0 (p_Sinv p) b H1 (Rle_refl 0) Hb HB G G).
  intros h v. unfold Phi'. cbn [fst snd]. split.
  - intros i Hi. rewrite <- En in Hi, HN |- *. apply (C47_if34_diagonalized W p N (proj1 HD) HN h v i Hi).
  - rewrite <- En in HN |- *. rewrite <- En, <- EL in HZ. assert (HFz := mf_flow _ _ _ HZ).
    transitivity (mdot (p_size p) (p_Sinv p) (verr (zflow (p_size p) (p_S p) (p_Sinv p) (p_eigs p)) N h v)); [apply (proj2 (if34z_ref W p N (proj1 HD) HN h v))|].
    intros i Hi. unfold mdot. apply csum_ext. intros j Hj. f_equal. unfold csub.
    rewrite !(lawson_if_step _ _ N HFz HN _ h v j Hj), (rk4_fsal_step _ _ N HFz HN h v j Hj).
    transitivity (verr (mflow (p_size p) (eig_exp p)) N h v j); [|symmetry; apply (rk4_fsal_hat_step _ _ N HFz HN h v j Hj)]. symmetry.
    apply (vk_ext (below (p_size p)) _ (zflow (p_size p) (p_S p) (p_Sinv p) (p_eigs p)) N HN); [|apply zflow_eig_exp|exact Hj].
    intros r. apply (flow_lin _ _ (zflow_flow _ _ _ _ (proj1 (proj1 HD)) (proj2 (proj1 HD)))).
Qed.
Theorem C75_etd_eigenbasis :
  forall n (L : mat Cops) N t0 t1 rho K u f J J1, smooth n 4 L N t0 t1 rho K u f J -> Jsmooth n t0 t1 K J J1 ->
  exists C h0 r0, 0 <= C /\ 0 < h0 /\ 0 < r0 /\
    forall W (p : problem Cops W) s b, p_size p = n -> p_mat p = L -> diagonalizes p ->
      0 < modecutoff (p_cfg p) <= contour_radius (p_cfg p) -> (0 < contour_points (p_cfg p))%nat ->
      (forall i, (i < n)%nat -> rown n (p_S p) i <= s) -> (forall i, (i < n)%nat -> rown n (p_Sinv p) i <= b) -> 0 <= s -> 0 <= b ->
      est_claim n t0 t1 u 3 (C * (1 + b)) h0 r0 p N ETD34z (8 * (s * (quad_error (p_cfg p) * b))) /\
      est_claim n t0 t1 u 3 (C * (1 + b)) h0 r0 p N ETD35z (24 * (s * (quad_error (p_cfg p) * b))).
Proof.
  intros n L N t0 t1 rho K u f J J1 HS HJ. assert (HT : 0 <= t1 - t0) by (assert (X := so_time _ _ _ _ _ _ _ _ _ _ _ HS); lra).
  assert (HF := series_is_flow n L). assert (HN := so_N _ _ _ _ _ _ _ _ _ _ _ HS).
  destruct (etd34_est n L (mphi n L 0) (mPHI n L) N t0 t1 rho K u f J J1 HF HS HJ (series_phi_ops n L (t1 - t0) HT) (matrix_family n L (t1 - t0) HT))
    as (C & h0 & r0 & H1 & H2 & H3 & H4).
  destruct (etd35_est n L (mphi n L 0) (mPHI n L) N t0 t1 rho K u f J J1 HF HS HJ (series_phi_ops n L (t1 - t0) HT) (matrix_family n L (t1 - t0) HT))
    as (C' & h0' & r0' & H1' & H2' & H3' & H4').
  exists (C + C'), (Rmin h0 h0'), (Rmin r0 r0'). split; [lra|]. split; [apply Rmin_glb_lt; assumption|]. split; [apply Rmin_glb_lt; assumption|].
  intros W p s b En EL HD Hc HM Hs Hb Hs0 Hb0. set (e := s * (quad_error (p_cfg p) * b)).
  assert (He : 0 <= e) by (unfold e; apply Rmult_le_pos; [exact Hs0|apply Rmult_le_pos; [apply quad_error_pos; lra|exact Hb0]]).
  destruct (C47_etd_diagonalized W p N (proj1 HD) ltac:(rewrite En; exact HN) Hc HM) as (g & HG & G3).
  destruct (C48_etd_error_in_eigenbasis W p N (proj1 HD) ltac:(rewrite En; exact HN) Hc HM) as (g' & HG' & G3').
  assert (near : forall g, replaces_phi (p_cfg p) g -> forall h k q, (1 <= k <= 3)%nat -> 0 < q <= 1 ->
     opn n (fun v => csub (mPHI n L k (q * h) v) (Zop p h (g k q) v)) e).
  { intros g0 [Q1 Q2] h k q Hk Hq. unfold Zop. rewrite En. exact (eig_near p g0 HD Hc Q1 Q2 n L s b En EL Hs Hb Hs0 Hb0 h k q Hk Hq). }
  assert (EX : forall h q, op_eq (below n) (conj_op (mdot n (p_S p)) (mdot n (p_Sinv p)) (dfun h (p_eigs p) (fun z => Cexp (RtoC q * z))%C)) (mflow n (mphi n L 0) (q * h)))
    by (rewrite <- En, <- EL; apply (eig_exp_op p HD)).
  assert (ZO : forall h F, op_eq (below n) (conj_op (mdot n (p_S p)) (mdot n (p_Sinv p)) (dfun h (p_eigs p) F)) (Zop p h F)) by (rewrite <- En; apply (Zop_op p)).
  assert (CJ1 := cj_krogstad p HD). assert (CJ2 := cj_krogstad_embedded p HD). assert (CJ3 := cj_etd5 p HD). assert (CJ4 := cj_etd5_embedded p HD).
  rewrite En in CJ1, CJ2, CJ3, CJ4.
  set (Phi1 := fun g0 h v => (erk_step (in_basis p (D_krogstad g0 h (p_eigs p))) N h v,
     csub (erk_step (in_basis p (D_krogstad g0 h (p_eigs p))) N h v) (erk_step (in_basis p (D_krogstad_emb g0 h (p_eigs p))) N h v))).
  set (Phi2 := fun g0 h v => (erk_step (in_basis p (D_etd5 g0 h (p_eigs p))) N h v,
     csub (erk_step (in_basis p (D_etd5 g0 h (p_eigs p))) N h v) (erk_step (in_basis p (D_etd5_emb g0 h (p_eigs p))) N h v))).
  assert (W1 : forall good Phi C h0 r0 C1 h1 r1 e, 0 <= e -> C <= C1 -> h1 <= h0 -> r1 <= r0 -> est_of n t0 t1 u 3 C h0 r0 good Phi e -> est_of n t0 t1 u 3 C1 h1 r1 good Phi e).
  { clear. intros good Phi C h0 r0 C1 h1 r1 e He A1 A2 A3 G t h v d B1 B2 B3 B4 B5 B6 B7. destruct (G t h v d B1 ltac:(lra) B3 B4 ltac:(lra) B6 B7) as [Q1 Q2].
    assert (X : C * h * (h ^ 3 + d + e) <= C1 * h * (h ^ 3 + d + e)).
    { apply Rmult_le_compat_r; [assert (P := pow_le h 3 ltac:(lra)); lra|]. apply Rmult_le_compat_r; lra. }
    split; [apply (vle_mono n _ _ _ Q1); exact X|]. apply (vle_mono n _ _ _ Q2). lra. }
  assert (V1 : forall g0, replaces_phi (p_cfg p) g0 -> est_of n t0 t1 u 3 (C + C') (Rmin h0 h0') (Rmin r0 r0') (as_good p ETD34z) (Phi1 g0) (8 * e)).
  { intros g0 Hg0. apply (W1 _ _ C h0 r0); [lra|lra|apply Rmin_l|apply Rmin_l|]. apply (H4 _ _ e h0 He (Rle_refl h0)). intros h Hh Hh' _.
    exists (Zop p h (g0 1%nat (1/2))), (Zop p h (g0 2%nat (1/2))), (Zop p h (g0 1%nat 1)), (Zop p h (g0 2%nat 1)), (Zop p h (g0 3%nat 1)).
    do 5 (split; [apply (near g0 Hg0); (lia || lra)|]). intros v m m'. unfold Phi1. cbn [fst snd].
    assert (X : veq (below n) (erk_step (in_basis p (D_krogstad g0 h (p_eigs p))) N h v) (erk_step m N h v)).
    { apply (erk_step_ext (below n) N HN); [|reflexivity]. unfold in_basis, D_krogstad. rewrite En. apply CJ1; first [apply EX|apply ZO]. }
    split; [exact X|]. eapply csub_veq; [intros i _; unfold csub; reflexivity|exact X|].
    apply (erk_step_ext (below n) N HN); [|reflexivity]. unfold in_basis, D_krogstad_emb. rewrite En. apply CJ2; first [apply EX|apply ZO]. }
  assert (V2 : forall g0, replaces_phi (p_cfg p) g0 -> est_of n t0 t1 u 3 (C + C') (Rmin h0 h0') (Rmin r0 r0') (as_good p ETD35z) (Phi2 g0) (24 * e)).
  { intros g0 Hg0. apply (W1 _ _ C' h0' r0'); [lra|lra|apply Rmin_r|apply Rmin_r|]. apply (H4' _ _ e h0' He (Rle_refl h0')). intros h Hh Hh' _.
    exists (Zop p h (g0 1%nat (1/4))), (Zop p h (g0 2%nat (1/4))), (Zop p h (g0 1%nat (1/2))), (Zop p h (g0 2%nat (1/2))), (Zop p h (g0 1%nat (3/4))), (Zop p h (g0 2%nat (3/4))),
      (Zop p h (g0 1%nat 1)), (Zop p h (g0 2%nat 1)), (Zop p h (g0 3%nat 1)).
    do 9 (split; [apply (near g0 Hg0); (lia || lra)|]). intros v m m'. unfold Phi2. cbn [fst snd].
    assert (X : veq (below n) (erk_step (in_basis p (D_etd5 g0 h (p_eigs p))) N h v) (erk_step m N h v)).
    { apply (erk_step_ext (below n) N HN); [|reflexivity]. unfold in_basis, D_etd5. rewrite En. apply CJ3; first [apply EX|apply ZO]. }
    split; [exact X|]. eapply csub_veq; [intros i _; unfold csub; reflexivity|exact X|].
    apply (erk_step_ext (below n) N HN); [|reflexivity]. unfold in_basis, D_etd5_emb. rewrite En. apply CJ4; first [apply EX|apply ZO]. }
  split.
  - apply (est_basis n t0 t1 u 3 (C + C') _ _ (as_good p ETD34z) (as_Phi p N ETD34z) (Phi1 g') (Phi1 g) (8 * e) (p_Sinv p) b ltac:(lra) ltac:(lra) Hb0 Hb (V1 g' HG') (V1 g HG)).
    intros h v. unfold Phi1. cbn [fst snd]. split; intros i Hi; rewrite <- En in Hi; [apply (G3 h v i Hi)|]. destruct (G3' h v i Hi) as [Q _]. rewrite <- En. exact Q.
  - apply (est_basis n t0 t1 u 3 (C + C') _ _ (as_good p ETD35z) (as_Phi p N ETD35z) (Phi2 g') (Phi2 g) (24 * e) (p_Sinv p) b ltac:(lra) ltac:(lra) Hb0 Hb (V2 g' HG') (V2 g HG)).
    intros h v. unfold Phi2. cbn [fst snd]. split; intros i Hi; rewrite <- En in Hi; [apply (G3 h v i Hi)|]. destruct (G3' h v i Hi) as [_ Q]. rewrite <- En. exact Q.
Qed.

(** The logistic equation u' = -u + u^2 meets the hypotheses, with the default configuration and in all three representations. *)
Example C75_not_vacuous :
  smooth 1 4 (p_mat logistic) lgN 0 1 1 5000 lgu lgf lgJ /\ Jsmooth 1 0 1 5000 lgJ lgJ1 /\ p_mat logistic = dmat (p_vec logistic) /\
  p_size logistic = 1%nat /\ exp_series logistic /\ (forall m e, p_expm logistic m <> inl e) /\ inv_ok logistic /\ diagonalizes logistic /\
  0 < modecutoff (p_cfg logistic) <= contour_radius (p_cfg logistic) /\ (0 < contour_points (p_cfg logistic))%nat /\
  (forall hb, 0 < hb <= 1/2 -> fits logistic mident mident (1/2) hb) /\
  (forall i, (i < 1)%nat -> rown 1 mident i <= 1) /\ p_S logistic = mident /\ p_Sinv logistic = mident /\
  as_good logistic IF34d 1 /\ vle 1 (csub (lgu 0) (lgu 0)) 0.
Proof.
  destruct C71_C72_not_vacuous as (A1 & _ & A3 & A4 & A5 & A6 & A7 & A8 & A9 & A10 & A11 & A12).
  split; [exact A1|]. split; [exact lg_J|]. split; [exact A4|]. split; [exact A3|]. split; [exact A5|]. split; [exact A6|]. split; [exact A7|]. split; [exact A8|].
  split; [exact A9|]. split; [exact A10|]. split; [intros hb H; apply (A11 hb H)|]. split; [exact A12|]. split; [reflexivity|]. split; [reflexivity|].
  split; [reflexivity|]. intros i _. unfold csub. replace (lgu 0 i - lgu 0 i)%C with (RtoC 0) by ring. rewrite Cmod_0. lra.
Qed.

Print Assumptions C75_if34_diagonal.
Print Assumptions C75_etd34_diagonal.
Print Assumptions C75_etd35_diagonal.
Print Assumptions C75_if34_matrix.
Print Assumptions C75_etd34_matrix.
Print Assumptions C75_etd35_matrix.
Print Assumptions C75_if34_eigenbasis.
Print Assumptions C75_etd_eigenbasis.
