(** * C73, C74: convergence of the runs of ETD5, ETD35 and IF45DP

    For a smooth solution [u] of u' = L u + N(u) with derivative [J(t)] of [N] along it: ETD5 and ETD35 converge with
    order four, and with order five if [L] commutes with [J(t)]; IF45DP converges with order five. *)

From Coq Require Import ZArith List Bool Reals Lra Lia FunctionalExtensionality QArith Qreals Setoid Morphisms.
From Coquelicot Require Import Hierarchy Derive RInt Complex.
From Coquelicot Require AutoDerive.
From Verif Require Import Scalars Control ControlCS ControlCSReal ControlAS ControlASReal ControlSim ControlSound PropsControl Arrays SchemeBase
     SchemeIF SchemeETD4 SchemeETD5 Solvers SchemeFacts SchemeSound SchemeFamily SchemePartial SchemeForm CInst SpecRK
     SchemeIFReal PropsCache PropsIF SpecPhi SpecPoly ContourReal SpecERK SchemeETDReal SchemeETDCoefs PropsPsi PropsETD
     PropsLinear ContourMatrix MatrixFlow PropsMatrix Asym Solution LocalRK4 Stable Converge Voc LocalKro MatExp ConvRuns ConvMethods
     PropsConverge OrderWords OrderLocal OrderMethods OrderSharp.
Import ListNotations.
Local Open Scope R_scope.

(** [L] commutes with the derivative of the nonlinear term along the solution. *)
Definition commutes (n : nat) (L : nat -> nat -> C) (t0 t1 : R) (J : R -> cvec -> cvec) : Prop :=
  forall t v, t0 <= t <= t1 -> veq (below n) (mdot n L (J t v)) (J t (mdot n L v)).

(** ** IF45DP *)
Theorem C74_if45dp :
  forall n (L : cvec) N t0 t1 rho K u f J J1, smooth n 5 (dmat L) N t0 t1 rho K u f J -> Jsmooth n t0 t1 K J J1 ->
  exists C h0 r0, 0 <= C /\ 0 < h0 /\ 0 < r0 /\
    forall W (p : problem Cops W), computes p N -> p_vec p = L -> as_claim n t0 t1 u 5 C h0 r0 p IF45DPd 0.
Proof.
  intros n L N t0 t1 rho K u f J J1 HS HJ. assert (HF := dexp_flow n L). assert (HN := so_N _ _ _ _ _ _ _ _ _ _ _ HS).
  assert (HT : 0 <= t1 - t0) by (assert (X := so_time _ _ _ _ _ _ _ _ _ _ _ HS); lra).
  destruct (law_close n (dmat L) (dexp L) HF DP5 (t1 - t0)) as (A & S & HA & Hcl).
  { cbn [DP5 tb_c]. repeat constructor; unfold Q2R; cbn; lra. }
  assert (Hloc := dp5_local n 5 (dmat L) (dexp L) N t0 t1 rho K u f J J1 (dPHI L) HF HS HJ (diag_family n L _ HT) ltac:(lia)).
  destruct (runs_converge n 5 (dmat L) N t0 t1 rho K u f J HS (law_erk DP5 (mflow n (dexp L))) 5 ltac:(lia) Hloc A S HA) as (C & h0 & r0 & H1 & H2 & H3 & H4).
  exists C, h0, r0. split; [exact H1|]. split; [exact H2|]. split; [exact H3|]. intros W p Hp E.
  destruct (H4 W p 0 h0 Hp (Rle_refl 0) (Rle_refl h0)) as [_ G2]. apply G2. intros h Hh Hh' _.
  exists (law_erk DP5 (mflow n (dexp L)) h). split; [apply Hcl; split; [apply Hh|exact Hh']|]. intros v.
  rewrite C34_if45dp_candidate, E.
  rewrite (veq_all _ _ (lawson_if_step all (dflow L) N (dflow_flow L) (respects_all N) DP5 h v)), <- law_erk_step.
  apply (erk_step_ext (below n) N HN); [|reflexivity].
  apply law_erk_eq. intros t a b Hab i Hi. rewrite (dexp_dflow n L t b i Hi). unfold dflow. rewrite (Hab i Hi). reflexivity.
Qed.

(** ** ETD5 and ETD35 *)
Lemma etd5_eq dom E14 E12 E34 E1 f1q f2q f1h f2h f1t f2t f1 f2 f3 E14' E12' E34' E1' f1q' f2q' f1h' f2h' f1t' f2t' f1' f2' f3' :
  op_eq dom E14 E14' -> op_eq dom E12 E12' -> op_eq dom E34 E34' -> op_eq dom E1 E1' -> op_eq dom f1q f1q' -> op_eq dom f2q f2q' ->
  op_eq dom f1h f1h' -> op_eq dom f2h f2h' -> op_eq dom f1t f1t' -> op_eq dom f2t f2t' -> op_eq dom f1 f1' -> op_eq dom f2 f2' -> op_eq dom f3 f3' ->
  erk_eq dom (etd5_method E14 E12 E34 E1 f1q f2q f1h f2h f1t f2t f1 f2 f3) (etd5_method E14' E12' E34' E1' f1q' f2q' f1h' f2h' f1t' f2t' f1' f2' f3').
Proof.
  intros. split; unfold etd5_method; cbn [er_E er_a er_E1 er_b]; repeat (apply Forall2_cons || apply Forall2_nil); try assumption; try (intros v w X; exact X);
    repeat first [assumption | apply op_eq_osub | apply op_eq_oadd | apply op_eq_oscal | apply op_eq_zero].
Qed.
Lemma getd5_close n L Ex PHI T : matflow n L Ex -> phi_ops n L T PHI -> 0 <= T ->
  exists A, 0 <= A /\ forall h e (g1q g2q g1h g2h g1t g2t g1 g2 g3 : op), 0 < h <= T -> 0 <= e ->
    let near k q (g : op) := opn n (fun v => csub (PHI k (q * h) v) (g v)) e in
    near 1%nat (1/4) g1q -> near 2%nat (1/4) g2q -> near 1%nat (1/2) g1h -> near 2%nat (1/2) g2h -> near 1%nat (3/4) g1t -> near 2%nat (3/4) g2t ->
    near 1%nat 1 g1 -> near 2%nat 1 g2 -> near 3%nat 1 g3 ->
    erk_close n A 6 h (12 * e) (getd5 n Ex PHI h)
      (etd5_method (mflow n Ex (1/4 * h)) (mflow n Ex (1/2 * h)) (mflow n Ex (3/4 * h)) (mflow n Ex (1 * h)) g1q g2q g1h g2h g1t g2t g1 g2 g3).
Proof.
  intros HF HP HT. destruct (phi_ops_bound n L T PHI 1 HP ltac:(lia) HT) as (B1 & HB1 & H1).
  destruct (phi_ops_bound n L T PHI 2 HP ltac:(lia) HT) as (B2 & HB2 & H2). destruct (phi_ops_bound n L T PHI 3 HP ltac:(lia) HT) as (B3 & HB3 & H3).
  destruct (flow_near n L Ex HF T) as (M & HM & HN).
  set (A := B1 + B2 + B3 + M). exists (12 * A). split; [unfold A; lra|]. intros h e g1q g2q g1h g2h g1t g2t g1 g2 g3 Hh He nr G1 G2 G3 G4 G5 G6 G7 G8 G9.
  assert (near : forall c, 0 <= c <= 1 -> near_id n A h (mflow n Ex (c * h))).
  { intros c Hc'. split; [apply (E_rlinear n L Ex HF)|].
    assert (A1 : 0 <= c * h <= h) by (split; [apply Rmult_le_pos; lra|nra]).
    apply (opn_mono n _ (M * Rabs (c * h))); [apply HN; rewrite (Rabs_pos_eq (c * h)), (Rabs_pos_eq T) by lra; lra|].
    rewrite Rabs_pos_eq by lra. apply Rle_trans with (M * h); [apply Rmult_le_compat_l; lra|]. apply Rmult_le_compat_r; unfold A; lra. }
  assert (cf : forall k q g, nr k q g -> (1 <= k <= 3)%nat -> 0 < q <= 1 -> coef n A e (PHI k (q * h)) g).
  { intros k q g Hg Hk Hq. split; [apply (po_lin _ _ _ _ HP)|]. split; [|exact Hg].
    assert (A1 : 0 <= q * h <= T) by (split; [apply Rmult_le_pos; lra|nra]).
    assert (k = 1 \/ k = 2 \/ k = 3)%nat as [-> | [-> | ->]] by lia; [apply (opn_mono n _ B1)|apply (opn_mono n _ B2)|apply (opn_mono n _ B3)];
      try (unfold A; lra); [apply H1|apply H2|apply H3]; exact A1. }
  unfold getd5. apply etd5_close; try (unfold A; lra); try exact He; try (apply near; lra); apply cf; (assumption || lia || lra).
Qed.

(** The eigenbasis. *)
Lemma cj_etd5 {W} (p : problem Cops W) (HD : diagonalizes p) a b c d e1 e2 e3 e4 e5 e6 e7 e8 e9 a' b' c' d' e1' e2' e3' e4' e5' e6' e7' e8' e9' :
  let oeqn := op_eq (below (p_size p)) in let cj := conj_op (mdot (p_size p) (p_S p)) (mdot (p_size p) (p_Sinv p)) in
  oeqn (cj a) a' -> oeqn (cj b) b' -> oeqn (cj c) c' -> oeqn (cj d) d' -> oeqn (cj e1) e1' -> oeqn (cj e2) e2' -> oeqn (cj e3) e3' -> oeqn (cj e4) e4' ->
  oeqn (cj e5) e5' -> oeqn (cj e6) e6' -> oeqn (cj e7) e7' -> oeqn (cj e8) e8' -> oeqn (cj e9) e9' ->
  erk_eq (below (p_size p)) (conj_erk (mdot (p_size p) (p_S p)) (mdot (p_size p) (p_Sinv p)) (etd5_method a b c d e1 e2 e3 e4 e5 e6 e7 e8 e9))
    (etd5_method a' b' c' d' e1' e2' e3' e4' e5' e6' e7' e8' e9').
Proof.
  intros. split; unfold conj_erk, etd5_method; cbn [er_E er_a er_E1 er_b map]; repeat (apply Forall2_cons || apply Forall2_nil); try assumption; try (apply cj_id; exact HD);
    repeat first [assumption | apply cj_sub | apply cj_add | apply cj_scal | apply cj_zero].
Qed.
Lemma eig_near {W} (p : problem Cops W) (g : nat -> R -> Complex.C -> Complex.C) (HD : diagonalizes p) (Hc : 0 < modecutoff (p_cfg p) <= contour_radius (p_cfg p)) :
  (forall r q z, (1 <= r <= 3)%nat -> 0 < q <= 1 -> Cmod (g r q z - phi r (RtoC q * z))%C <=
     exp (Cmod z + contour_radius (p_cfg p)) * contour_radius (p_cfg p) ^ contour_points (p_cfg p) / INR (fact (contour_points (p_cfg p))) / INR (fact r)) ->
  (forall r q z, (1 <= r <= 3)%nat -> 0 < q <= 1 -> modecutoff (p_cfg p) <= Cmod z -> g r q z = phi r (RtoC q * z)%C) ->
  forall n L s t, p_size p = n -> p_mat p = L -> (forall i, (i < n)%nat -> rown n (p_S p) i <= s) -> (forall i, (i < n)%nat -> rown n (p_Sinv p) i <= t) -> 0 <= s -> 0 <= t ->
  forall h k q, (1 <= k <= 3)%nat -> 0 < q <= 1 ->
  opn n (fun v => csub (mPHI n L k (q * h) v) (mdot n (p_S p) (fun i => (g k q (RtoC h * p_eigs p i) * mdot n (p_Sinv p) v i)%C))) (s * (quad_error (p_cfg p) * t)).
Proof.
  intros G1 G2 n L s t En EL Hs Ht Hs0 Ht0 h k q Hk Hq1 v y Hy Hv i Hi. assert (Hq := quad_error_pos (p_cfg p) ltac:(lra)).
  assert (X := mPHI_eig p HD k (q * h) v). rewrite En, EL in X. unfold csub. rewrite (X i Hi).
  set (dd := fun j => csub (dPHI (p_eigs p) k (q * h) (mdot n (p_Sinv p) v)) (dfun h (p_eigs p) (g k q) (mdot n (p_Sinv p) v)) j).
  assert (Y : (mdot n (p_S p) (fun i => (phi k (RtoC (q * h) * p_eigs p i) * mdot n (p_Sinv p) v i)%C) i -
               mdot n (p_S p) (fun i => (g k q (RtoC h * p_eigs p i) * mdot n (p_Sinv p) v i)%C) i = mdot n (p_S p) dd i)%C).
  { unfold mdot at 1 3 5. unfold Cminus. replace (- csum n (fun j => p_S p i j * (g k q (RtoC h * p_eigs p j) * mdot n (p_Sinv p) v j)))%C
      with (csum n (fun j => - RtoC 1 * (p_S p i j * (g k q (RtoC h * p_eigs p j) * mdot n (p_Sinv p) v j))))%C by (rewrite csum_scal; ring).
    rewrite <- csum_plus. apply csum_ext. intros j _. unfold dd, csub, dPHI, dfun. ring. }
  rewrite Y. rewrite Rmult_assoc. apply (mdot_bound n (p_S p) dd i s (quad_error (p_cfg p) * t * y) (Hs i Hi)).
  - intros j Hj. rewrite Rmult_assoc. apply (quad_bound (p_cfg p) g Hc G1 G2 n (p_eigs p) h k q Hk Hq1 (mdot n (p_Sinv p) v) (t * y)); [apply Rmult_le_pos; assumption| |exact Hj].
    intros l Hl. apply (mdot_bound n (p_Sinv p) v l t y (Ht l Hl) Hv Hy).
  - apply Rmult_le_pos; [apply Rmult_le_pos; assumption|exact Hy].
Qed.

(** Runs of ETD5 and ETD35, for any order of the local error. *)
Section Runs5.
  Variables n q ord : nat.
  Variable N : cvec -> cvec.
  Variables t0 t1 rho K : R.
  Variable u : R -> cvec.
  Variable f : nat -> R -> cvec.
  Variable J : R -> cvec -> cvec.
  Hypothesis Hord : (0 < ord)%nat.

  Lemma etd5_runs_diagonal (L : cvec) : smooth n q (dmat L) N t0 t1 rho K u f J ->
    bigO n R (adm t0 t1) (S ord) (fun t h => csub (erk_step (getd5 n (dexp L) (dPHI L) h) N h (u t)) (u (t + h))) ->
    exists C h0 r0, 0 <= C /\ 0 < h0 /\ 0 < r0 /\
    forall W (p : problem Cops W), computes p N -> p_vec p = L ->
      0 < modecutoff (p_cfg p) <= contour_radius (p_cfg p) -> (0 < contour_points (p_cfg p))%nat ->
      cs_claim n t0 t1 u ord C h0 r0 p ETD5d (12 * quad_error (p_cfg p)) /\
      as_claim n t0 t1 u ord C h0 r0 p ETD35d (12 * quad_error (p_cfg p)).
  Proof.
    intros HS Hloc. assert (HT : 0 <= t1 - t0) by (assert (X := so_time _ _ _ _ _ _ _ _ _ _ _ HS); lra).
    assert (HF := dexp_flow n L). assert (HP := dPHI_ops n L (t1 - t0) HT). assert (HN := so_N _ _ _ _ _ _ _ _ _ _ _ HS).
    destruct (getd5_close n (dmat L) (dexp L) (dPHI L) (t1 - t0) HF HP HT) as (A & HA & Hcl).
    destruct (runs_converge n q (dmat L) N t0 t1 rho K u f J HS (getd5 n (dexp L) (dPHI L)) ord Hord Hloc A 6 HA) as (C & h0 & r0 & H1 & H2 & H3 & H4).
    exists C, h0, r0. split; [exact H1|]. split; [exact H2|]. split; [exact H3|].
    intros W p Hp E Hc HM. assert (He := quad_error_pos (p_cfg p) ltac:(lra)).
    destruct (C37_method_up_to_quadrature W p N Hc HM) as (g & G1 & G2 & G3).
    assert (Fo : forall h, 0 < h <= t1 - t0 -> exists m', erk_close n A 6 h (12 * quad_error (p_cfg p)) (getd5 n (dexp L) (dPHI L) h) m' /\
               forall v, veq (below n) (cs_Phi p N ETD5d h v) (erk_step m' N h v) /\ veq (below n) (fst (as_Phi p N ETD35d h v)) (erk_step m' N h v)).
    { intros h Hh. set (P k q := dfun h L (g k q)). eexists. split.
      - apply (Hcl h (quad_error (p_cfg p)) (P 1%nat (1/4)) (P 2%nat (1/4)) (P 1%nat (1/2)) (P 2%nat (1/2)) (P 1%nat (3/4)) (P 2%nat (3/4))
                 (P 1%nat 1) (P 2%nat 1) (P 3%nat 1) Hh He); apply (quad_bound (p_cfg p) g Hc G1 G2); (lia || lra).
      - intros v. destruct (G3 h v) as [-> ->]. rewrite E.
        assert (D : forall F, op_eq (below n) (dfun h L F) (dfun h L F)) by (intros F a b Hab i Hi; unfold dfun; rewrite (Hab i Hi); reflexivity).
        assert (X : forall q, op_eq (below n) (dfun h L (fun z => Cexp (RtoC q * z))%C) (mflow n (dexp L) (q * h))).
        { intros r a b Hab i Hi. rewrite (dexp_dflow n L (r * h) b i Hi). unfold dfun, dflow. rewrite (Hab i Hi).
          replace (RtoC (r * h) * L i)%C with (RtoC r * (RtoC h * L i))%C by (rewrite RtoC_mult; ring). reflexivity. }
        split; (apply (erk_step_ext (below n) N HN); [|reflexivity]); apply etd5_eq; first [apply X|apply D]. }
    destruct (H4 W p (12 * quad_error (p_cfg p)) h0 Hp ltac:(lra) (Rle_refl h0)) as [Q1 Q2].
    split; [apply Q1|apply Q2]; intros h Hh Hh' _; destruct (Fo h (conj (proj1 Hh) Hh')) as (m' & Hm & Hv); exists m'; (split; [exact Hm|]); intros v; apply (Hv v).
  Qed.

  Variable L : mat Cops.
  Hypothesis HS : smooth n q L N t0 t1 rho K u f J.
  Hypothesis Hloc : bigO n R (adm t0 t1) (S ord) (fun t h => csub (erk_step (getd5 n (mphi n L 0) (mPHI n L) h) N h (u t)) (u (t + h))).
  Let HN := so_N _ _ _ _ _ _ _ _ _ _ _ HS.
  Lemma etd5_runs_matrix : exists C h0 r0, 0 <= C /\ 0 < h0 /\ 0 < r0 /\
    (forall W (p : problem Cops W) S T x s t hb, computes p N -> p_size p = n -> p_mat p = L -> exp_series p -> inv_ok p ->
      fits p S T x hb -> 0 < hb <= h0 ->
      (forall i, (i < n)%nat -> rown n S i <= s) -> (forall i, (i < n)%nat -> rown n T i <= t) -> 0 <= s -> 0 <= t ->
      cs_claim n t0 t1 u ord C hb r0 p ETD5n (12 * (s * (merr (p_cfg p) x * t))) /\
      as_claim n t0 t1 u ord C hb r0 p ETD35n (12 * (s * (merr (p_cfg p) x * t)))) /\
    (forall W (p : problem Cops W) s t, computes p N -> p_size p = n -> p_mat p = L -> diagonalizes p ->
      0 < modecutoff (p_cfg p) <= contour_radius (p_cfg p) -> (0 < contour_points (p_cfg p))%nat ->
      (forall i, (i < n)%nat -> rown n (p_S p) i <= s) -> (forall i, (i < n)%nat -> rown n (p_Sinv p) i <= t) -> 0 <= s -> 0 <= t ->
      as_claim n t0 t1 u ord C h0 r0 p ETD35z (12 * (s * (quad_error (p_cfg p) * t)))).
  Proof.
    assert (HT : 0 <= t1 - t0) by (assert (X := so_time _ _ _ _ _ _ _ _ _ _ _ HS); lra).
    assert (HF := series_is_flow n L). assert (HP := series_phi_ops n L (t1 - t0) HT).
    destruct (getd5_close n L (mphi n L 0) (mPHI n L) (t1 - t0) HF HP HT) as (A & HA & Hcl).
    destruct (runs_converge n q L N t0 t1 rho K u f J HS (getd5 n (mphi n L 0) (mPHI n L)) ord Hord Hloc A 6 HA) as (C & h0 & r0 & H1 & H2 & H3 & H4).
    exists C, h0, r0. split; [exact H1|]. split; [exact H2|]. split; [exact H3|]. split.
    - intros W p S T x s t hb Hp En EL HE HI HFit Hhb Hs Ht Hs0 Ht0. set (e := s * (merr (p_cfg p) x * t)).
      assert (HM : 0 <= merr (p_cfg p) x) by (destruct HFit as (A1 & _ & A3 & _); apply (merr_pos (p_cfg p) A1 ltac:(lra) x A3)).
      assert (He : 0 <= e) by (unfold e; apply Rmult_le_pos; [exact Hs0|apply Rmult_le_pos; assumption]).
      assert (Fo : forall h, 0 < h <= hb -> h <= t1 - t0 -> cs_good p ETD5n h -> exists m', erk_close n A 6 h (12 * e) (getd5 n (mphi n L 0) (mPHI n L) h) m' /\
                 forall v, veq (below n) (cs_Phi p N ETD5n h v) (erk_step m' N h v) /\ veq (below n) (fst (as_Phi p N ETD35n h v)) (erk_step m' N h v)).
      { intros h Hh Hh' Hg.
        destruct (C37_matrix_operators W p N h S T x HI HE (fits_le p S T x hb h HFit ltac:(lra)) Hg)
          as (E14 & E12 & E34 & E1 & P1q & P2q & P1h & P2h & P1t & P2t & P1 & P2 & P3 & X1 & X2 & X3 & X4 & G1 & G2 & G3 & G4 & G5 & G6 & G7 & G8 & G9 & G0).
        assert (NO := fun k q P g => near_op p S T x s t HM ltac:(rewrite En; exact Hs) ltac:(rewrite En; exact Ht) Ht0 (proj1 (proj2 HFit)) k q h P g).
        rewrite En, EL in NO. rewrite En in G0. rewrite En, EL in X1, X2, X3, X4.
        assert (NO1 : forall q P, near_psi p S T x 1 q h P -> opn n (fun v => csub (mPHI n L 1 (q * h) v) (mdot n P v)) e).
        { intros r P HP1. apply (NO _ _ _ _ HP1). intros v i _. replace (/ INR (fact 1)) with 1 by (cbn; lra). rewrite Cmult_1_l. reflexivity. }
        assert (NO2 : forall q P, near_psi p S T x 2 q h P -> opn n (fun v => csub (mPHI n L 2 (q * h) v) (oscal (1/2) (mdot n P) v)) e).
        { intros r P HP2. apply (NO _ _ _ _ HP2). intros v i _. unfold oscal, cscal. replace (/ INR (fact 2)) with (1/2) by (cbn; lra). reflexivity. }
        assert (NO3 : forall q P, near_psi p S T x 3 q h P -> opn n (fun v => csub (mPHI n L 3 (q * h) v) (oscal (1/6) (mdot n P) v)) e).
        { intros r P HP3. apply (NO _ _ _ _ HP3). intros v i _. unfold oscal, cscal. replace (/ INR (fact 3)) with (1/6) by (cbn; lra). reflexivity. }
        eexists. split.
        - apply (Hcl h e (mdot n P1q) (oscal (1/2) (mdot n P2q)) (mdot n P1h) (oscal (1/2) (mdot n P2h)) (mdot n P1t) (oscal (1/2) (mdot n P2t))
                   (mdot n P1) (oscal (1/2) (mdot n P2)) (oscal (1/6) (mdot n P3)) (conj (proj1 Hh) Hh') He);
            [apply NO1|apply NO2|apply NO1|apply NO2|apply NO1|apply NO2|apply NO1|apply NO2|apply NO3]; assumption.
        - intros v. destruct (G0 v) as [Q1 Q2]. rewrite Q1, Q2. cbn [fst].
          assert (EX : forall q E, is_psi n 0 (scaled q h L) E -> op_eq (below n) (mdot n E) (mflow n (mphi n L 0) (q * h))).
          { intros r E HE0 a b Hab i Hi. unfold mflow, mdot. apply csum_ext. intros j Hj. rewrite (Hab j Hj). f_equal.
            rewrite (psi_unique n 0 (scaled r h L) _ _ HE0 (mphi_psi n L 0 (r * h)) i j Hi Hj). unfold mtimes. cbn [fact INR]. ring. }
          assert (D : forall P, op_eq (below n) (mdot n P) (mdot n P)) by (intros P a b Hab i Hi; rewrite (mdot_ext_eq n P a b Hab); reflexivity).
          assert (D' : forall c P, op_eq (below n) (oscal c (mdot n P)) (oscal c (mdot n P))).
          { intros c P a b Hab i Hi. unfold oscal, cscal. rewrite (D P a b Hab i Hi). reflexivity. }
          split; (apply (erk_step_ext (below n) N HN); [|reflexivity]); apply etd5_eq; first [apply EX; assumption|apply D|apply D']. }
      destruct (H4 W p (12 * e) hb Hp ltac:(lra) ltac:(lra)) as [Q1 Q2].
      split; [apply Q1|apply Q2]; intros h Hh Hh' Hg; destruct (Fo h Hh Hh' Hg) as (m' & Hm & Hv); exists m'; (split; [exact Hm|]); intros v; apply (Hv v).
    - intros W p s t Hp En EL HD Hc HM Hs Ht Hs0 Ht0. set (e := s * (quad_error (p_cfg p) * t)).
      assert (Hq := quad_error_pos (p_cfg p) ltac:(lra)).
      assert (He : 0 <= e) by (unfold e; apply Rmult_le_pos; [exact Hs0|apply Rmult_le_pos; assumption]).
      destruct (C47_etd_diagonalized W p N (proj1 HD) ltac:(rewrite En; exact HN) Hc HM) as (g & [G1 G2] & G3).
      destruct (H4 W p (12 * e) h0 Hp ltac:(lra) (Rle_refl h0)) as [_ Q2]. apply Q2. intros h Hh Hh' _.
      set (Z := fun (G : Complex.C -> Complex.C) (v : cvec) => mdot n (p_S p) (fun i => (G (RtoC h * p_eigs p i) * mdot n (p_Sinv p) v i)%C)).
      assert (nr : forall k q, (1 <= k <= 3)%nat -> 0 < q <= 1 -> opn n (fun v => csub (mPHI n L k (q * h) v) (Z (g k q) v)) e).
      { intros k r Hk Hq1. exact (eig_near p g HD Hc G1 G2 n L s t En EL Hs Ht Hs0 Ht0 h k r Hk Hq1). }
      exists (etd5_method (mflow n (mphi n L 0) (1/4 * h)) (mflow n (mphi n L 0) (1/2 * h)) (mflow n (mphi n L 0) (3/4 * h)) (mflow n (mphi n L 0) (1 * h))
                (Z (g 1%nat (1/4))) (Z (g 2%nat (1/4))) (Z (g 1%nat (1/2))) (Z (g 2%nat (1/2))) (Z (g 1%nat (3/4))) (Z (g 2%nat (3/4))) (Z (g 1%nat 1)) (Z (g 2%nat 1)) (Z (g 3%nat 1))).
      split; [apply (Hcl h e _ _ _ _ _ _ _ _ _ (conj (proj1 Hh) Hh') He); apply nr; (lia || lra)|].
      intros v. transitivity (erk_step (in_basis p (D_etd5 g h (p_eigs p))) N h v).
      { intros i Hi. apply (proj2 (G3 h v i ltac:(rewrite En; exact Hi))). }
      apply (erk_step_ext (below n) N HN); [|reflexivity]. unfold in_basis, D_etd5. rewrite En.
      assert (KK := cj_etd5 p HD). rewrite En in KK.
      assert (KF := cj_dfun p). rewrite En in KF.
      assert (EX : forall q, op_eq (below n) (conj_op (mdot n (p_S p)) (mdot n (p_Sinv p)) (dfun h (p_eigs p) (fun z => Cexp (RtoC q * z))%C)) (mflow n (mphi n L 0) (q * h))).
      { intros r a b Hab i Hi. rewrite (KF h _ (fun i => Cexp (RtoC r * (RtoC h * p_eigs p i))%C) (fun i _ => eq_refl) a b Hab i Hi).
        assert (X := mPHI_eig p HD 0 (r * h) b). rewrite En, EL in X. unfold mPHI in X. unfold mflow. rewrite (X i Hi).
        unfold mdot at 1 3. apply csum_ext. intros j _. cbn [phi]. replace (RtoC (r * h) * p_eigs p j)%C with (RtoC r * (RtoC h * p_eigs p j))%C by (rewrite RtoC_mult; ring). reflexivity. }
      apply KK; first [apply EX|apply KF; intros; reflexivity].
  Qed.
End Runs5.

(** C73 with order four. *)
Theorem C73_order_four_diagonal :
  forall n (L : cvec) N t0 t1 rho K u f J J1, smooth n 4 (dmat L) N t0 t1 rho K u f J -> Jsmooth n t0 t1 K J J1 ->
  exists C h0 r0, 0 <= C /\ 0 < h0 /\ 0 < r0 /\
    forall W (p : problem Cops W), computes p N -> p_vec p = L ->
      0 < modecutoff (p_cfg p) <= contour_radius (p_cfg p) -> (0 < contour_points (p_cfg p))%nat ->
      cs_claim n t0 t1 u 4 C h0 r0 p ETD5d (12 * quad_error (p_cfg p)) /\
      as_claim n t0 t1 u 4 C h0 r0 p ETD35d (12 * quad_error (p_cfg p)).
Proof.
  intros n L N t0 t1 rho K u f J J1 HS HJ. assert (HT : 0 <= t1 - t0) by (assert (X := so_time _ _ _ _ _ _ _ _ _ _ _ HS); lra).
  apply (etd5_runs_diagonal n 4 4 N t0 t1 rho K u f J ltac:(lia) L HS).
  exact (etd5_local n 4 (dmat L) (dexp L) N t0 t1 rho K u f J J1 (dPHI L) (dexp_flow n L) HS HJ (diag_family n L _ HT) ltac:(lia)).
Qed.
Theorem C73_order_four_matrix :
  forall n (L : mat Cops) N t0 t1 rho K u f J J1, smooth n 4 L N t0 t1 rho K u f J -> Jsmooth n t0 t1 K J J1 ->
  exists C h0 r0, 0 <= C /\ 0 < h0 /\ 0 < r0 /\
    (forall W (p : problem Cops W) S T x s t hb, computes p N -> p_size p = n -> p_mat p = L -> exp_series p -> inv_ok p ->
      fits p S T x hb -> 0 < hb <= h0 ->
      (forall i, (i < n)%nat -> rown n S i <= s) -> (forall i, (i < n)%nat -> rown n T i <= t) -> 0 <= s -> 0 <= t ->
      cs_claim n t0 t1 u 4 C hb r0 p ETD5n (12 * (s * (merr (p_cfg p) x * t))) /\
      as_claim n t0 t1 u 4 C hb r0 p ETD35n (12 * (s * (merr (p_cfg p) x * t)))) /\
    (forall W (p : problem Cops W) s t, computes p N -> p_size p = n -> p_mat p = L -> diagonalizes p ->
      0 < modecutoff (p_cfg p) <= contour_radius (p_cfg p) -> (0 < contour_points (p_cfg p))%nat ->
      (forall i, (i < n)%nat -> rown n (p_S p) i <= s) -> (forall i, (i < n)%nat -> rown n (p_Sinv p) i <= t) -> 0 <= s -> 0 <= t ->
      as_claim n t0 t1 u 4 C h0 r0 p ETD35z (12 * (s * (quad_error (p_cfg p) * t)))).
Proof.
  intros n L N t0 t1 rho K u f J J1 HS HJ. assert (HT : 0 <= t1 - t0) by (assert (X := so_time _ _ _ _ _ _ _ _ _ _ _ HS); lra).
  apply (etd5_runs_matrix n 4 4 N t0 t1 rho K u f J ltac:(lia) L HS).
  exact (etd5_local n 4 L (mphi n L 0) N t0 t1 rho K u f J J1 (mPHI n L) (series_is_flow n L) HS HJ (matrix_family n L _ HT) ltac:(lia)).
Qed.
(** C73 with order five, for commuting parts. *)
Theorem C73_order_five_commuting :
  forall n (L : cvec) N t0 t1 rho K u f J J1, smooth n 5 (dmat L) N t0 t1 rho K u f J -> Jsmooth n t0 t1 K J J1 -> commutes n (dmat L) t0 t1 J ->
  exists C h0 r0, 0 <= C /\ 0 < h0 /\ 0 < r0 /\
    forall W (p : problem Cops W), computes p N -> p_vec p = L ->
      0 < modecutoff (p_cfg p) <= contour_radius (p_cfg p) -> (0 < contour_points (p_cfg p))%nat ->
      cs_claim n t0 t1 u 5 C h0 r0 p ETD5d (12 * quad_error (p_cfg p)) /\
      as_claim n t0 t1 u 5 C h0 r0 p ETD35d (12 * quad_error (p_cfg p)).
Proof.
  intros n L N t0 t1 rho K u f J J1 HS HJ Hc. assert (HT : 0 <= t1 - t0) by (assert (X := so_time _ _ _ _ _ _ _ _ _ _ _ HS); lra).
  apply (etd5_runs_diagonal n 5 5 N t0 t1 rho K u f J ltac:(lia) L HS).
  exact (etd5_local_commuting n 5 (dmat L) (dexp L) N t0 t1 rho K u f J J1 (dPHI L) (dexp_flow n L) HS HJ (diag_family n L _ HT) ltac:(lia) Hc).
Qed.
Theorem C73_order_five_commuting_matrix :
  forall n (L : mat Cops) N t0 t1 rho K u f J J1, smooth n 5 L N t0 t1 rho K u f J -> Jsmooth n t0 t1 K J J1 -> commutes n L t0 t1 J ->
  exists C h0 r0, 0 <= C /\ 0 < h0 /\ 0 < r0 /\
    (forall W (p : problem Cops W) S T x s t hb, computes p N -> p_size p = n -> p_mat p = L -> exp_series p -> inv_ok p ->
      fits p S T x hb -> 0 < hb <= h0 ->
      (forall i, (i < n)%nat -> rown n S i <= s) -> (forall i, (i < n)%nat -> rown n T i <= t) -> 0 <= s -> 0 <= t ->
      cs_claim n t0 t1 u 5 C hb r0 p ETD5n (12 * (s * (merr (p_cfg p) x * t))) /\
      as_claim n t0 t1 u 5 C hb r0 p ETD35n (12 * (s * (merr (p_cfg p) x * t)))) /\
    (forall W (p : problem Cops W) s t, computes p N -> p_size p = n -> p_mat p = L -> diagonalizes p ->
      0 < modecutoff (p_cfg p) <= contour_radius (p_cfg p) -> (0 < contour_points (p_cfg p))%nat ->
      (forall i, (i < n)%nat -> rown n (p_S p) i <= s) -> (forall i, (i < n)%nat -> rown n (p_Sinv p) i <= t) -> 0 <= s -> 0 <= t ->
      as_claim n t0 t1 u 5 C h0 r0 p ETD35z (12 * (s * (quad_error (p_cfg p) * t)))).
Proof.
  intros n L N t0 t1 rho K u f J J1 HS HJ Hc. assert (HT : 0 <= t1 - t0) by (assert (X := so_time _ _ _ _ _ _ _ _ _ _ _ HS); lra).
  apply (etd5_runs_matrix n 5 5 N t0 t1 rho K u f J ltac:(lia) L HS).
  exact (etd5_local_commuting n 5 L (mphi n L 0) N t0 t1 rho K u f J J1 (mPHI n L) (series_is_flow n L) HS HJ (matrix_family n L _ HT) ltac:(lia) Hc).
Qed.

(** ** Order five fails if the linear and the nonlinear part do not commute

    The problem u0' = - u0 + u1, u1' = u1 + u1, where L = diag(-1, 1) and N(v) = (v1, v1), with the solution
    (exp(2t)/3, exp(2t)). *)
Definition ncL : cvec := fun i => match i with O => RtoC (-1) | _ => RtoC 1 end.
Definition ncN (v : cvec) : cvec := fun _ => v 1%nat.
Definition ncu (t : R) : cvec := fun i => match i with O => RtoC (exp (2 * t) / 3) | _ => RtoC (exp (2 * t)) end.
Definition ncf (k : nat) (t : R) : cvec := fun _ => RtoC (2 ^ k * exp (2 * t)).
Definition ncJ (t : R) (v : cvec) : cvec := fun _ => v 1%nat.
Definition ncJ1 (t : R) (v : cvec) : cvec := fun _ => RtoC 0.

Lemma exp2_der c t : is_derive (fun s => c * exp (2 * s)) t (c * (2 * exp (2 * t))).
Proof. AutoDerive.auto_derive; [exact I|ring]. Qed.
Lemma exp2_range t : 0 <= t <= 1 -> 1 <= exp (2 * t) <= 9.
Proof.
  intros Ht. split; [assert (X := exp_ge_1 (2 * t) ltac:(lra)); lra|].
  apply Rle_trans with (exp (1 + 1)); [apply exp_mono; lra|]. rewrite exp_plus. assert (E := exp_le_3). assert (P := exp_pos 1). nra.
Qed.
Lemma nc_smooth : smooth 2 5 (dmat ncL) ncN 0 1 1 300 ncu ncf ncJ.
Proof.
  assert (one : (1 < 2)%nat) by lia.
  split; try lra.
  - intros a b H i Hi. unfold ncN. apply H. exact one.
  - intros t i _ Hi. unfold dmat. rewrite (mdot_diag 2 _ _ i Hi). destruct i as [|[|i]]; [| |lia]; unfold ncu, ncN, ncL.
    + apply (is_Cder_eq (fun s => RtoC (/ 3 * exp (2 * s))) _ t (RtoC (/ 3 * (2 * exp (2 * t))))); [intros s; f_equal; field| |apply is_Cder_R, exp2_der].
      rewrite <- RtoC_mult, <- RtoC_plus. f_equal. field.
    + apply (is_Cder_eq (fun s => RtoC (1 * exp (2 * s))) _ t (RtoC (1 * (2 * exp (2 * t))))); [intros s; f_equal; ring| |apply is_Cder_R, exp2_der].
      rewrite <- RtoC_mult, <- RtoC_plus. f_equal. ring.
  - intros t Ht i Hi. assert (E := exp2_range t Ht). destruct i as [|i]; unfold ncu; rewrite Cmod_R, Rabs_pos_eq; lra.
  - intros t _ i _. unfold ncf, ncN, ncu. f_equal. cbn [pow]. ring.
  - intros k t i Hk _ _. unfold ncf. eapply is_Cder_eq; [reflexivity| |apply is_Cder_R, exp2_der]. f_equal. cbn [pow]. ring.
  - intros k t Hk Ht i _. assert (E := exp2_range t Ht). unfold ncf.
    assert (P : 1 <= 2 ^ k <= 32).
    { split; [apply pow_R1_Rle; lra|]. apply Rle_trans with (2 ^ 5); [apply Rle_pow; [lra|exact Hk]|lra]. }
    rewrite Cmod_R, Rabs_pos_eq by nra. nra.
  - intros t v w x _ Hx _ _ Hd i _. unfold csub, ncN in *. specialize (Hd 1%nat one). cbn beta in Hd. nra.
  - intros t _. split; [intros a b i _; unfold ncJ, cadd; ring|intros c a i _; unfold ncJ, cscal; ring].
  - intros t _ v x Hx Hv i _. unfold ncJ. specialize (Hv 1%nat one). nra.
  - intros t v x _ Hx Hv i _. unfold csub, ncN, ncJ. replace (v 1%nat - ncu t 1%nat - (v 1%nat - ncu t 1%nat))%C with (RtoC 0) by ring.
    rewrite Cmod_0. assert (0 <= x ^ 2) by (apply pow2_ge_0). lra.
  - intros s t _ _ v x Hx Hv i _. unfold csub, ncJ. replace (v 1%nat - v 1%nat)%C with (RtoC 0) by ring. rewrite Cmod_0.
    assert (0 <= Rabs (s - t)) by apply Rabs_pos. nra.
Qed.
Lemma nc_J : Jsmooth 2 0 1 300 ncJ ncJ1.
Proof.
  split.
  - intros t _. split; [intros a b i _; unfold ncJ1, cadd; ring|intros c a i _; unfold ncJ1, cscal; ring].
  - intros t _ v x Hx _ i _. unfold ncJ1. rewrite Cmod_0. lra.
  - intros s t _ _ v x Hx Hv i _. unfold csub, cscal, ncJ, ncJ1. replace (v 1%nat - v 1%nat - RtoC (s - t) * RtoC 0)%C with (RtoC 0) by ring.
    rewrite Cmod_0. assert (0 <= (s - t) ^ 2) by apply pow2_ge_0. nra.
Qed.
Notation ncm := (getd5 2 (dexp ncL) (dPHI ncL)).
(** The leading term of the local error. *)
Lemma nc_local : exists h1, 0 < h1 /\ forall t h, 0 <= t -> 0 < h <= h1 -> t + h <= 1 ->
  / 4320 * h ^ 5 <= fst (csub (erk_step (ncm h) ncN h (ncu t)) (ncu (t + h)) 0%nat).
Proof.
  destruct (etd5_term 2 5 (dmat ncL) (dexp ncL) ncN 0 1 1 300 ncu ncf ncJ ncJ1 (dPHI ncL) (dexp_flow 2 ncL) nc_smooth nc_J
              (diag_family 2 ncL (1 - 0) ltac:(lra)) ltac:(lia)) as (C & h0 & HC & Hh0 & H).
  exists (Rmin h0 (/ (4320 * (C + 1)))). assert (P1 : 0 < / (4320 * (C + 1))) by (apply Rinv_0_lt_compat; lra).
  split; [apply Rmin_glb_lt; assumption|]. intros t h Ht Hh Hth.
  assert (M1 := Rmin_l h0 (/ (4320 * (C + 1)))). assert (M2 := Rmin_r h0 (/ (4320 * (C + 1)))).
  assert (X := H t h (conj Ht (conj (proj1 Hh) Hth)) ltac:(lra) 0%nat ltac:(lia)). cbn beta in X.
  assert (Z := Rle_trans _ _ _ (proj1 (parts_Cmod _)) X). clear X H.
  assert (E : exp (2 * t) / 2160 = fst (cadd (rscal (/ 34560) (csub (ncJ t (mdot 2 (dmat ncL) (ncf 2%nat t))) (mdot 2 (dmat ncL) (ncJ t (ncf 2%nat t)))))
                         (rscal (/ 17280) (csub (ncJ t (mdot 2 (dmat ncL) (ncJ t (ncf 1%nat t)))) (mdot 2 (dmat ncL) (ncJ t (ncJ t (ncf 1%nat t)))))) 0%nat)).
  { unfold cadd, cscal, csub, ncJ, dmat. rewrite !mdot_diag by lia. unfold ncL, ncf.
    rewrite <- !RtoC_mult, <- !RtoC_minus, <- !RtoC_mult, <- RtoC_plus. cbn [fst RtoC pow]. field. }
  assert (B := exp2_range t ltac:(lra)).
  set (G := csub (erk_step (ncm h) ncN h (ncu t)) (ncu (t + h))) in *.
  unfold csub at 1 in Z. unfold cscal at 1 in Z. cbn [Cminus Cplus Copp Cmult RtoC fst snd] in Z.
  rewrite <- E in Z. assert (Ph : 0 < h ^ 5) by (apply pow_lt; lra).
  assert (Q : C * h ^ 6 <= / 4320 * h ^ 5).
  { replace (C * h ^ 6) with (C * h * h ^ 5) by ring. apply Rmult_le_compat_r; [lra|].
    apply Rle_trans with ((C + 1) * / (4320 * (C + 1))); [apply Rmult_le_compat; lra|right; field; lra]. }
  assert (V : h ^ 5 * (/ 2160) <= h ^ 5 * (exp (2 * t) / 2160)) by (apply Rmult_le_compat_l; lra).
  revert Z. unfold Rabs. destruct (Rcase_abs _); intros Z; lra.
Qed.
Lemma nc_close : exists A, 0 <= A /\ forall h, 0 < h <= 1 - 0 -> erk_close 2 A 6 h 0 (ncm h) (ncm h).
Proof.
  destruct (getd5_close 2 (dmat ncL) (dexp ncL) (dPHI ncL) (1 - 0) (dexp_flow 2 ncL) (dPHI_ops 2 ncL (1 - 0) ltac:(lra)) ltac:(lra)) as (A & HA & H).
  exists A. split; [exact HA|]. intros h Hh.
  assert (Z : forall k q, opn 2 (fun v => csub (dPHI ncL k (q * h) v) (dPHI ncL k (q * h) v)) 0).
  { intros k q v x Hx _. rewrite Rmult_0_l. apply vle_eq_0. reflexivity. }
  assert (G := H h 0 (dPHI ncL 1 (1/4 * h)) (dPHI ncL 2 (1/4 * h)) (dPHI ncL 1 (1/2 * h)) (dPHI ncL 2 (1/2 * h)) (dPHI ncL 1 (3/4 * h)) (dPHI ncL 2 (3/4 * h))
                 (dPHI ncL 1 (1 * h)) (dPHI ncL 2 (1 * h)) (dPHI ncL 3 (1 * h)) Hh (Rle_refl 0) (Z _ _) (Z _ _) (Z _ _) (Z _ _) (Z _ _) (Z _ _) (Z _ _) (Z _ _) (Z _ _)).
  rewrite Rmult_0_r in G. exact G.
Qed.
(** The method with exact coefficients. *)
Lemma nc_method h v w : veq (below 2) v w -> veq (below 2) (erk_step (etd5 h ncL) ncN h v) (erk_step (ncm h) ncN h w).
Proof.
  intros Hv. apply (erk_step_ext (below 2) ncN (so_N _ _ _ _ _ _ _ _ _ _ _ nc_smooth)); [|exact Hv].
  assert (X : forall q, op_eq (below 2) (dE h ncL q) (mflow 2 (dexp ncL) (q * h))).
  { intros r a b Hab i Hi. rewrite (dexp_dflow 2 ncL (r * h) b i Hi). unfold dE, dfun, dflow. rewrite (Hab i Hi).
    replace (RtoC (r * h) * ncL i)%C with (RtoC r * (RtoC h * ncL i))%C by (rewrite RtoC_mult; ring). reflexivity. }
  assert (Y : forall k q, op_eq (below 2) (dphi h ncL k q) (dPHI ncL k (q * h))).
  { intros k r a b Hab i Hi. unfold dphi, dfun, dPHI. rewrite (Hab i Hi).
    replace (RtoC (r * h) * ncL i)%C with (RtoC r * (RtoC h * ncL i))%C by (rewrite RtoC_mult; ring). reflexivity. }
  apply etd5_eq; first [apply X|apply Y].
Qed.
(** The problem with cutoff and contour radius [c], five contour points, and a nonlinear function that never raises. *)
Definition nc_problem (c : R) : problem Cops unit :=
  mk_problem (A := Cops) (pure_nl (ncN : vec Cops -> vec Cops)) 2 ncL (fun _ _ => RtoC 0) (mk_etdcfg (F := Rops) c 5 c)
    (fun m => inr m) (fun m => inr m) mident mident ncL.
Lemma ncL_mod h i : 0 < h -> Cmod (RtoC h * ncL i)%C = h.
Proof. intros Hh. rewrite Cmod_mult, Cmod_R, Rabs_pos_eq by lra. destruct i; unfold ncL; rewrite Cmod_R; [rewrite Rabs_left by lra|rewrite Rabs_pos_eq by lra]; lra. Qed.
Lemma nc_quad h : 0 < h <= 1 -> 0 <= 12 * quad_error (p_cfg (nc_problem h)) <= h ^ 5.
Proof.
  intros Hh. assert (P := quad_error_pos (p_cfg (nc_problem h)) ltac:(cbn; lra)). split; [lra|]. unfold quad_error. cbn [p_cfg nc_problem modecutoff contour_radius contour_points].
  assert (F : INR (fact 5) = 120) by (cbn; lra). rewrite F. assert (B := exp2_range h ltac:(lra)). replace (h + h) with (2 * h) by ring.
  assert (Ph : 0 < h ^ 5) by (apply pow_lt; lra).
  assert (exp (2 * h) * h ^ 5 <= 9 * h ^ 5) by (apply Rmult_le_compat_r; lra). lra.
Qed.

(** C73 as stated in the documentation fails: no constants bound the errors of ETD5 by [C (d + e + h^5)] for this problem. *)
Theorem C73_order_five_refuted :
  exists n (L : cvec) N t0 t1 rho K u f J J1, smooth n 5 (dmat L) N t0 t1 rho K u f J /\ Jsmooth n t0 t1 K J J1 /\
  ~ (exists C h0 r0, 0 <= C /\ 0 < h0 /\ 0 < r0 /\
    forall W (p : problem Cops W), computes p N -> p_vec p = L ->
      0 < modecutoff (p_cfg p) <= contour_radius (p_cfg p) -> (0 < contour_points (p_cfg p))%nat ->
      cs_claim n t0 t1 u 5 C h0 r0 p ETD5d (12 * quad_error (p_cfg p))).
Proof.
  exists 2%nat, ncL, ncN, 0, 1, 1, 300, ncu, ncf, ncJ, ncJ1. split; [exact nc_smooth|]. split; [exact nc_J|].
  intros (C & h0 & r0 & HC & Hh0 & Hr0 & H).
  destruct nc_close as (A & HA & Hcl). destruct nc_local as (h1 & Hh1 & Hloc).
  set (hb := Rmin (Rmin h0 r0) (1/2)). assert (Hhb : 0 < hb) by (unfold hb; repeat apply Rmin_glb_lt; lra).
  apply (order_sharp 2 5 (dmat ncL) ncN 0 1 1 300 ncu ncf ncJ nc_smooth (fun h => ncm h) A 6 5 0 (/ 4320) h1 (C * 2) hb (1/2)
           HA ltac:(lia) Hcl ltac:(lia) ltac:(lra) Hh1 Hloc ltac:(lra) Hhb ltac:(lra) ltac:(lra)).
  intros k h Hk Hh Ekh j Hj.
  assert (M1 := Rmin_l (Rmin h0 r0) (1/2)). assert (M2 := Rmin_r (Rmin h0 r0) (1/2)). assert (M3 := Rmin_l h0 r0). assert (M4 := Rmin_r h0 r0). fold hb in M1, M2.
  assert (Q := nc_quad h ltac:(lra)). set (p := nc_problem h) in *.
  assert (P5 : h ^ 5 <= h).
  { cbn [pow]. apply Rle_trans with (h * 1); [|lra]. apply Rmult_le_compat_l; [lra|]. change (h * (h * (h * (h * 1)))) with (h ^ 4). rewrite <- (pow1 4). apply pow_incr. lra. }
  assert (HN : computes p ncN) by (intros v w y w' E; injection E as <- _; reflexivity).
  assert (HM : cs_memoryless (cs_model p ETD5d) (cs_Phi p ncN ETD5d) (cs_inv p ncN ETD5d)).
  { apply cs_sound_memoryless; [apply cs_model_sound; [exact HN|split; discriminate|]|].
    - intros a b E. apply Reqb_true in E. subst. reflexivity.
    - intros. apply cs_model_never_raises; [intros; discriminate|split; discriminate]. }
  assert (IK : INR (k - 1) = INR k - 1) by (rewrite minus_INR by lia; reflexivity).
  destruct (@cs_evolve_exact _ unit (cs_model p ETD5d) _ _ k (ncu 0) (PyN (A := T Rops) false 0) (PyN (A := T Rops) false (1/2)) (PyN (A := T Rops) false h) 1 k (cs_new_obj p ETD5d) tt HM)
    as (o' & w' & E1 & _ & E3 & E4 & _); cbn [val]; try lia.
  - lra.
  - assert (1 <= INR k) by (change 1 with (INR 1); apply le_INR; lia). nra.
  - rewrite IK. lra.
  - left. lra.
  - destruct (H unit p HN eq_refl ltac:(cbn; lra) ltac:(cbn; lia) k (ncu 0) (PyN (A := T Rops) false 0) (PyN (A := T Rops) false (1/2)) (PyN (A := T Rops) false h) (cs_new_obj p ETD5d) tt _ o' w' 0
                eq_refl ltac:(cbn; lra) ltac:(cbn; lra) ltac:(cbn; lra) (Rle_refl 0) ltac:(lra) ltac:(apply vle_eq_0; reflexivity) E1) as [G _].
    assert (G0 : Forall2 (fun t v => vle 2 (csub v (ncu t)) (C * (0 + 12 * quad_error (p_cfg p) + h ^ 5)))
                   (snapshots 1 k (fun j => 0 + INR j * h)) (snapshots 1 k (fun j => Nat.iter j (cs_Phi p ncN ETD5d h) (ncu 0))))
      by exact (eq_ind _ (fun l => Forall2 _ l _) (eq_ind _ (fun l => Forall2 _ _ l) G _ E4) _ E3).
    clear G. unfold snapshots in G0. rewrite Nat.div_1_r in G0.
    assert (G' : forall l, Forall2 (fun t v => vle 2 (csub v (ncu t)) (C * (0 + 12 * quad_error (p_cfg p) + h ^ 5)))
                     (map (fun j => 0 + INR (j * 1) * h) l) (map (fun j => Nat.iter (j * 1) (cs_Phi p ncN ETD5d h) (ncu 0)) l) ->
                   forall j, In j l -> vle 2 (csub (Nat.iter j (cs_Phi p ncN ETD5d h) (ncu 0)) (ncu (0 + INR j * h))) (C * (0 + 12 * quad_error (p_cfg p) + h ^ 5))).
    { clear. induction l as [|a l IH]; intros F j Hj; [destruct Hj|]. cbn [map] in F. inversion F; subst. destruct Hj as [-> |Hj]; [|apply IH; assumption].
      rewrite Nat.mul_1_r in H2. exact H2. }
    assert (G2 := G' _ G0 j ltac:(apply in_seq; lia)). clear G0 G'.
    assert (EQ : forall j, veq (below 2) (Nat.iter j (erk_step (ncm h) ncN h) (ncu 0)) (Nat.iter j (cs_Phi p ncN ETD5d h) (ncu 0))).
    { clear - Hh. induction j as [|j IH]; [reflexivity|]. cbn [Nat.iter].
      change (veq (below 2) (erk_step (ncm h) ncN h (Nat.iter j (erk_step (ncm h) ncN h) (ncu 0))) (cs_Phi p ncN ETD5d h (Nat.iter j (cs_Phi p ncN ETD5d h) (ncu 0)))).
      rewrite (proj1 (C37_exact_method unit p ncN h _ ltac:(cbn; lra) (fun i => eq_ind_r (fun x => h <= x) (Rle_refl h) (ncL_mod h i (proj1 Hh))))).
      symmetry. apply nc_method. symmetry. exact IH. }
    eapply vle_ext; [|eapply vle_mono; [exact G2|]].
    + intros i Hi. unfold csub. rewrite (EQ j i Hi). reflexivity.
    + apply Rle_trans with (C * (2 * h ^ 5)); [apply Rmult_le_compat_l; lra|lra].
Qed.
(** The same for single steps, also for the candidate of ETD35: the local error is not [O(h^6)]. *)
Theorem C73_local_order_refuted :
  exists n (L : cvec) N t0 t1 rho K u f J J1, smooth n 5 (dmat L) N t0 t1 rho K u f J /\ Jsmooth n t0 t1 K J J1 /\
  ~ (exists C h0, 0 < h0 /\ forall (W : Type) (p : problem Cops W) t h, p_vec p = L -> 0 < modecutoff (p_cfg p) ->
       (forall i, modecutoff (p_cfg p) <= Cmod (RtoC h * p_vec p i)%C) -> t0 <= t -> 0 < h <= h0 -> t + h <= t1 ->
       vle n (csub (fst (as_Phi p N ETD35d h (u t))) (u (t + h))) (C * h ^ 6)).
Proof.
  exists 2%nat, ncL, ncN, 0, 1, 1, 300, ncu, ncf, ncJ, ncJ1. split; [exact nc_smooth|]. split; [exact nc_J|].
  intros (C & h0 & Hh0 & H). destruct nc_local as (h1 & Hh1 & Hloc).
  assert (AC := Rabs_pos C). assert (C1 := Rle_abs C).
  set (hh := Rmin (Rmin h0 h1) (Rmin 1 (/ (8640 * (Rabs C + 1))))).
  assert (P1 : 0 < / (8640 * (Rabs C + 1))) by (apply Rinv_0_lt_compat; lra).
  assert (Hhh : 0 < hh) by (unfold hh; repeat apply Rmin_glb_lt; lra).
  assert (M1 := Rmin_l (Rmin h0 h1) (Rmin 1 (/ (8640 * (Rabs C + 1))))). assert (M2 := Rmin_r (Rmin h0 h1) (Rmin 1 (/ (8640 * (Rabs C + 1))))).
  assert (M3 := Rmin_l h0 h1). assert (M4 := Rmin_r h0 h1). assert (M5 := Rmin_l 1 (/ (8640 * (Rabs C + 1)))). assert (M6 := Rmin_r 1 (/ (8640 * (Rabs C + 1)))). fold hh in M1, M2.
  assert (Hmod : forall i, hh <= Cmod (RtoC hh * ncL i)%C) by (intros i; rewrite (ncL_mod hh i Hhh); lra).
  assert (G := H unit (nc_problem hh) 0 hh eq_refl Hhh Hmod (Rle_refl 0) ltac:(lra) ltac:(lra) 0%nat ltac:(lia)). cbn beta in G.
  rewrite (proj1 (proj2 (C37_exact_method unit (nc_problem hh) ncN hh (ncu 0) Hhh Hmod))) in G.
  assert (G2 := Rle_trans _ _ _ (proj1 (parts_Cmod _)) G). clear G H.
  assert (X := Hloc 0 hh (Rle_refl 0) ltac:(lra) ltac:(lra)).
  unfold csub in X, G2. rewrite <- (nc_method hh (ncu 0) (ncu 0) (fun _ _ => eq_refl) 0%nat ltac:(unfold below; lia)) in X.
  change (p_vec (nc_problem hh)) with ncL in G2.
  assert (X2 := Rle_trans _ _ _ (Rle_abs _) G2). clear G2.
  assert (P5 : 0 < hh ^ 5) by (apply pow_lt; exact Hhh).
  assert (Q : C * hh ^ 6 <= / 8640 * hh ^ 5).
  { apply Rle_trans with (Rabs C * hh ^ 6); [apply Rmult_le_compat_r; [apply pow_le; lra|exact C1]|].
    replace (Rabs C * hh ^ 6) with (Rabs C * hh * hh ^ 5) by ring. apply Rmult_le_compat_r; [lra|].
    apply Rle_trans with ((Rabs C + 1) * / (8640 * (Rabs C + 1))); [apply Rmult_le_compat; lra|right; field; lra]. }
  lra.
Qed.

(** Cases meeting the hypotheses: the logistic problem of C71, where the parts commute, and the problem above, where they
    do not. *)
Definition lgJ1 (t : R) (v : cvec) : cvec := fun i => (RtoC (2 * (- lg t + lg t ^ 2)) * v i)%C.
Lemma lg_second s t : Rabs (lg s - lg t - (s - t) * (- lg t + lg t ^ 2)) <= (s - t) ^ 2.
Proof.
  destruct (MVT_gen lg t s (fun r => - lg r + lg r ^ 2)) as (c & Hc & E).
  - intros r _. apply lg_der.
  - intros r _. apply derivable_continuous_pt. exists (- lg r + lg r ^ 2). apply is_derive_Reals, lg_der.
  - rewrite E. replace ((- lg c + lg c ^ 2) * (s - t) - (s - t) * (- lg t + lg t ^ 2)) with ((s - t) * ((lg c - lg t) * (lg c + lg t - 1))) by ring.
    assert (G := lg_lip c t). assert (R1 := lg_range c). assert (R2 := lg_range t).
    assert (B : Rabs (lg c + lg t - 1) <= 1) by (apply Rabs_le; lra).
    assert (D : Rabs (c - t) <= Rabs (s - t)).
    { unfold Rmin, Rmax in Hc. destruct (Rle_dec t s); unfold Rabs; destruct (Rcase_abs (c - t)); destruct (Rcase_abs (s - t)); lra. }
    rewrite !Rabs_mult. assert (A1 := Rabs_pos (lg c - lg t)). assert (A2 := Rabs_pos (lg c + lg t - 1)). assert (A3 := Rabs_pos (s - t)).
    rewrite <- (pow2_abs (s - t)). cbn [pow]. rewrite Rmult_1_r. apply Rmult_le_compat_l; [exact A3|].
    apply Rle_trans with (Rabs (s - t) * 1); [apply Rmult_le_compat; lra|lra].
Qed.
Lemma lg_J : Jsmooth 1 0 1 5000 lgJ lgJ1.
Proof.
  split.
  - intros t _. split; [intros a b i _; unfold lgJ1, cadd; ring|intros c a i _; unfold lgJ1, cscal; ring].
  - intros t _ v x Hx Hv i Hi. unfold lgJ1. specialize (Hv i Hi). rewrite Cmod_mult, Cmod_R. assert (G := lg_range t).
    assert (Rabs (2 * (- lg t + lg t ^ 2)) <= 2) by (apply Rabs_le; nra). assert (0 <= Cmod (v i)) by apply Cmod_ge_0.
    apply Rmult_le_compat; try lra. apply Rabs_pos.
  - intros s t _ _ v x Hx Hv i Hi. unfold csub, cscal, lgJ, lgJ1. specialize (Hv i Hi).
    replace (RtoC (2 * lg s) * v i - RtoC (2 * lg t) * v i - RtoC (s - t) * (RtoC (2 * (- lg t + lg t ^ 2)) * v i))%C
      with (RtoC (2 * (lg s - lg t - (s - t) * (- lg t + lg t ^ 2))) * v i)%C.
    2: { apply injective_projections; cbn; ring. }
    rewrite Cmod_mult, Cmod_R, Rabs_mult, (Rabs_pos_eq 2) by lra. assert (G := lg_second s t). assert (0 <= Cmod (v i)) by apply Cmod_ge_0.
    assert (0 <= (s - t) ^ 2) by apply pow2_ge_0. apply Rmult_le_compat; try lra. assert (P := Rabs_pos (lg s - lg t - (s - t) * (- lg t + lg t ^ 2))). lra.
Qed.
Example C73_C74_not_vacuous :
  smooth 1 5 (dmat (p_vec logistic)) lgN 0 1 1 5000 lgu lgf lgJ /\ Jsmooth 1 0 1 5000 lgJ lgJ1 /\ commutes 1 (dmat (p_vec logistic)) 0 1 lgJ /\
  computes logistic lgN /\ 0 < modecutoff (p_cfg logistic) <= contour_radius (p_cfg logistic) /\ (0 < contour_points (p_cfg logistic))%nat /\
  smooth 2 4 (dmat ncL) ncN 0 1 1 300 ncu ncf ncJ /\ Jsmooth 2 0 1 300 ncJ ncJ1 /\ ~ commutes 2 (dmat ncL) 0 1 ncJ.
Proof.
  split; [exact lg_smooth|]. split; [exact lg_J|]. split; [|split; [intros v w y w' E; injection E as <- _; reflexivity|split; [cbn; lra|split; [cbn; lia|]]]].
  - intros t v _ i Hi. unfold dmat. rewrite (mdot_diag 1 _ _ i Hi). unfold lgJ. rewrite (mdot_diag 1 _ _ i Hi). ring.
  - split; [exact (smooth_weak 2 5 4 _ _ _ _ _ _ _ _ _ ltac:(lia) nc_smooth)|]. split; [exact nc_J|].
    intros H. assert (X := H 0 (fun _ => RtoC 1) ltac:(lra) 0%nat ltac:(unfold below; lia)). unfold dmat, ncJ in X. rewrite !mdot_diag in X by lia. unfold ncL in X.
    rewrite <- !RtoC_mult in X. apply RtoC_inj in X. lra.
Qed.

Print Assumptions C73_order_four_diagonal.
Print Assumptions C73_order_four_matrix.
Print Assumptions C73_order_five_commuting.
Print Assumptions C73_order_five_commuting_matrix.
Print Assumptions C73_order_five_refuted.
Print Assumptions C73_local_order_refuted.
Print Assumptions C74_if45dp.
