(** * C79: runs of the exponential time differencing solvers in rounded arithmetic

    The models of ETD4, ETD34, ETD5 and ETD35 with 1-D linear parts, read over an arithmetic with relative errors and underflow
    errors of size [eps] ([Rounding.v]). Contour nodes, psi functions, contour sums, masks, stages: everything computed from the
    linear part and the step size is rounded. The recorded vectors differ from a smooth solution by at most
    [C (d + e + H^p + m B eps)], where [e] is the error of the contour sums of the exact arithmetic, [m] the number of steps,
    and [B] a constant of the problem and of the contour. *)

From Coq Require Import ZArith List Bool Reals Lra Lia FunctionalExtensionality QArith Qreals Setoid Morphisms.
From Coquelicot Require Import Complex.
From Verif Require Import Scalars Control ControlCS ControlCSReal ControlAS ControlASReal ControlSim ControlSound PropsControl Arrays SchemeBase
     SchemeIF SchemeETD4 SchemeETD5 Solvers SchemeFacts SchemeSound SchemeFamily SchemePartial SchemeForm CInst SpecRK
     SchemeIFReal PropsCache PropsIF SpecPhi SpecPoly ContourReal SpecERK SchemeETDReal SchemeETDCoefs PropsPsi PropsETD
     PropsLinear ContourMatrix MatrixFlow PropsMatrix Asym Solution LocalRK4 Stable Converge Voc LocalKro MatExp ConvRuns ConvMethods PropsConverge
     OrderWords OrderLocal OrderMethods PropsOrder5 Estimate Rounding RoundingB64 RoundingETD PropsRounding.
Import ListNotations.
Local Open Scope R_scope.

Definition contour_ok (cfg : etdcfg Rops) : Prop := 0 < modecutoff cfg <= contour_radius cfg /\ (0 < contour_points cfg)%nat.

(** ** One step *)
Section OneStep.
  Variables n q : nat.
  Variable L : cvec.
  Variable N : cvec -> cvec.
  Variables t0 t1 rho K : R.
  Variable u : R -> cvec.
  Variable fd : nat -> R -> cvec.
  Variable J : R -> cvec -> cvec.
  Hypothesis HS : smooth n q (dmat L) N t0 t1 rho K u fd J.
  Variable kap : R.
  Hypothesis Hkap : 0 <= kap.
  Variable cfg : etdcfg Rops.
  Hypothesis Hcfg : contour_ok cfg.
  Notation PX := (Ldiag n L kap).
  Notation ok := (Rounding.ok n PX N t0 t1 rho u kap).
  Notation oh := (Rounding.oh n PX N t0 t1 rho u kap).
  Let Hcut : 0 < modecutoff cfg.
  Proof. destruct Hcfg. lra. Qed.
  Let Hr : 0 < contour_radius cfg.
  Proof. destruct Hcfg. lra. Qed.
  Let HM : (0 < contour_points cfg)%nat := proj2 Hcfg.
  Let Kv := ok_v n q (dmat L) cvec PX N t0 t1 rho K u fd J HS kap.
  Let KN f g Hf Tf := ok_N n q (dmat L) cvec PX N t0 t1 rho K u fd J HS kap Hkap f g Hf Tf.
  Let Tv := tube_v n cvec PX N t0 t1 rho u kap.
  Lemma ok_z : ok (fun i => vscal (A := Cops) (i_h i) L) (fun i => vscal (A := Fops (i_a i)) (i_h i) (i_L i)).
  Proof.
    apply ok_scal; [apply (soh_bnd n q (dmat L) cvec PX N t0 t1 rho K u fd J HS); apply soh_h|]. apply ok_L. exact Hkap.
  Qed.
  Let Oz := oh_hL n L N t0 t1 rho u kap Hkap.

  Definition c_etd4 (A : aops Rops) (L : vec A) (h : R) := snd (etd4d_coeffs Rops A cfg L h (cs_k0 A ETD4d)).
  Definition c_etd34 (A : aops Rops) (L : vec A) (h : R) := snd (etd34d_coeffs Rops A cfg L h (as_k0 A ETD34d)).
  Definition c_etd5 (A : aops Rops) (L : vec A) (h : R) := snd (etd5d_coeffs Rops A cfg L h (cs_k0 A ETD5d)).
  Definition c_etd35 (A : aops Rops) (L : vec A) (h : R) := snd (etd35d_coeffs Rops A cfg L h (as_k0 A ETD35d)).
  Definition s_etd4 (A : aops Rops) c (N : vec A -> vec A) (v : vec A) := etd4_form (A := A) (vmul (A := A)) N c v (N v).
  Definition s_etd5 (A : aops Rops) c (N : vec A -> vec A) (v : vec A) := etd5_form (A := A) (vmul (A := A)) N c v (N v).

  Lemma etd4_steps :
    ok (fun i => fst (s_etd4 Cops (c_etd4 Cops L (i_h i)) N (i_v i))) (fun i => fst (s_etd4 (Fops (i_a i)) (c_etd4 (Fops (i_a i)) (i_L i) (i_h i)) (i_N i) (i_v i))) /\
    ok (fun i => fst (s_etd4 Cops (c_etd34 Cops L (i_h i)) N (i_v i))) (fun i => fst (s_etd4 (Fops (i_a i)) (c_etd34 (Fops (i_a i)) (i_L i) (i_h i)) (i_N i) (i_v i))) /\
    ok (fun i => snd (s_etd4 Cops (c_etd34 Cops L (i_h i)) N (i_v i))) (fun i => snd (s_etd4 (Fops (i_a i)) (c_etd34 (Fops (i_a i)) (i_L i) (i_h i)) (i_N i) (i_v i))).
  Proof.
    assert (C1 := etd34_coefs_ok n q (dmat L) cvec PX N t0 t1 rho K u fd J HS kap cfg Hcut Hr HM _ _ ok_z Oz).
    assert (S1 := fun c c' H => etd4_ok n q (dmat L) cvec PX N t0 t1 rho K u fd J HS kap i_v i_v (fun i => N (i_v i)) (fun i => i_N i (i_v i)) (fun _ => N) i_N Kv (KN _ _ Kv Tv) KN c c' H).
    split; [exact (proj1 (S1 _ _ (C1 (cs_k0 Cops ETD4d) (fun i => cs_k0 (Fops (i_a i)) ETD4d))))|].
    exact (S1 _ _ (C1 (as_k0 Cops ETD34d) (fun i => as_k0 (Fops (i_a i)) ETD34d))).
  Qed.
  Lemma etd5_steps :
    ok (fun i => fst (s_etd5 Cops (c_etd5 Cops L (i_h i)) N (i_v i))) (fun i => fst (s_etd5 (Fops (i_a i)) (c_etd5 (Fops (i_a i)) (i_L i) (i_h i)) (i_N i) (i_v i))) /\
    ok (fun i => fst (s_etd5 Cops (c_etd35 Cops L (i_h i)) N (i_v i))) (fun i => fst (s_etd5 (Fops (i_a i)) (c_etd35 (Fops (i_a i)) (i_L i) (i_h i)) (i_N i) (i_v i))) /\
    ok (fun i => snd (s_etd5 Cops (c_etd35 Cops L (i_h i)) N (i_v i))) (fun i => snd (s_etd5 (Fops (i_a i)) (c_etd35 (Fops (i_a i)) (i_L i) (i_h i)) (i_N i) (i_v i))).
  Proof.
    assert (C1 := etd5_coefs_ok n q (dmat L) cvec PX N t0 t1 rho K u fd J HS kap cfg Hcut Hr HM (fun _ => L) i_L ok_z Oz).
    assert (C2 := etd35_coefs_ok n q (dmat L) cvec PX N t0 t1 rho K u fd J HS kap cfg Hcut Hr HM _ _ ok_z Oz).
    assert (S1 := fun c c' H => etd5_ok n q (dmat L) cvec PX N t0 t1 rho K u fd J HS kap i_v i_v (fun i => N (i_v i)) (fun i => i_N i (i_v i)) (fun _ => N) i_N Kv (KN _ _ Kv Tv) KN c c' H).
    split; [exact (proj1 (S1 _ _ (C1 (cs_k0 Cops ETD5d) (fun i => cs_k0 (Fops (i_a i)) ETD5d))))|].
    exact (S1 _ _ (C2 (as_k0 Cops ETD35d) (fun i => as_k0 (Fops (i_a i)) ETD35d))).
  Qed.
End OneStep.

(** ** Runs *)
Section Runs.
  Variables n q : nat.
  Variable L : cvec.
  Variable N : cvec -> cvec.
  Variables t0 t1 rho K : R.
  Variable u : R -> cvec.
  Variable fd : nat -> R -> cvec.
  Variable J : R -> cvec -> cvec.
  Hypothesis HS : smooth n q (dmat L) N t0 t1 rho K u fd J.
  Variable kap : R.
  Hypothesis Hkap : 0 <= kap.

  (** What is claimed of a fixed-step and an adaptive solver with contour error [e cfg]: [C] and [r0] do not depend on the contour;
      [B], the bound on the rounding errors of a step, may. *)
  Definition both_claim (p : nat) (kc : cs_kind) (ka : as_kind) (e : etdcfg Rops -> R) : Prop :=
    exists C r0, 0 <= C /\ 0 < r0 /\ forall cfg, contour_ok cfg ->
    exists B h0 e0 O0, 0 <= B /\ 0 < h0 /\ 0 < e0 /\
      forall a eps Om, rounds a eps Om -> 0 <= eps <= e0 -> O0 <= Om ->
      forall W (pr : problem (Fops a) W) Nf, p_cfg pr = cfg -> (forall v w y w', p_nl pr v w = (inr y, w') -> y = Nf v) ->
        computes_near n u N t0 t1 rho kap eps Nf -> vle n (csub (p_vec pr) L) (kap * eps) ->
        cs_rclaim n t0 t1 u p C h0 r0 pr kc (e cfg) (B * eps) /\ as_rclaim n t0 t1 u p C h0 r0 pr ka (e cfg) (B * eps).

  Lemma dfun_flow x h : op_eq (below n) (dfun h L (fun z => Cexp (RtoC x * z))%C) (mflow n (dexp L) (x * h)).
  Proof.
    intros a b Hab i Hi. rewrite (dexp_dflow n L (x * h) b i Hi). unfold dfun, dflow. rewrite (Hab i Hi).
    replace (RtoC (x * h) * L i)%C with (RtoC x * (RtoC h * L i))%C by (rewrite RtoC_mult; ring). reflexivity.
  Qed.
  Lemma dfun_eq h F : op_eq (below n) (dfun h L F) (dfun h L F).
  Proof. intros a b Hab i Hi. unfold dfun. rewrite (Hab i Hi). reflexivity. Qed.

  Section General.
    Variable p : nat.
    Hypothesis Hp : (0 < p)%nat.
    Variables (kc : cs_kind) (ka : as_kind) (e : etdcfg Rops -> R) (m : R -> erk).
    Variables (A : R) (S : nat).
    Hypothesis HA : 0 <= A.
    Hypothesis He : forall cfg, contour_ok cfg -> 0 <= e cfg.
    Hypothesis Hloc : bigO n R (adm t0 t1) (Datatypes.S p) (fun t h => csub (erk_step (m h) N h (u t)) (u (t + h))).
    (** The methods of the exact program, with coefficients within [e] of those of [m], and the rounded steps. *)
    Hypothesis Hm : forall cfg, contour_ok cfg -> exists m',
      (forall h, 0 < h <= t1 - t0 -> erk_close n A S h (e cfg) (m h) (m' h)) /\
      exists B h1 e1 O1, 0 <= B /\ 0 < h1 /\ 0 < e1 /\
      forall a eps Om W (pr : problem (Fops a) W) Nf h t v, rounds a eps Om -> 0 <= eps <= e1 -> O1 <= Om -> p_cfg pr = cfg ->
        computes_near n u N t0 t1 rho kap eps Nf -> vle n (csub (p_vec pr) L) (kap * eps) ->
        0 < h <= h1 -> h <= t1 - t0 -> t0 <= t <= t1 -> vle n (csub v (u t)) (rho / 4) ->
        vle n (csub (cs_Phi pr Nf kc h v) (erk_step (m' h) N h v)) (B * eps) /\
        vle n (csub (fst (as_Phi pr Nf ka h v)) (erk_step (m' h) N h v)) (B * eps).
    Lemma general_runs : both_claim p kc ka e.
    Proof.
      destruct (rounded_runs n q (dmat L) N t0 t1 rho K u fd J HS m p Hp Hloc A S 1 HA Rle_0_1) as (C & h0 & r0 & H1 & H2 & H3 & H4).
      exists C, r0. split; [exact H1|]. split; [exact H3|]. intros cfg Hcfg.
      destruct (Hm cfg Hcfg) as (m' & Hcl & B & h1 & e1 & O1 & HB & Hh1 & He1 & HW).
      exists B, (Rmin h0 h1), e1, O1. split; [exact HB|]. split; [apply Rmin_glb_lt; assumption|]. split; [exact He1|].
      intros a eps Om Ha Heps HO W pr Nf Ecfg Hnl HN HL. assert (M1 := Rmin_l h0 h1). assert (M2 := Rmin_r h0 h1).
      assert (HBe : 0 <= B * eps) by (apply Rmult_le_pos; lra).
      destruct (H4 a W pr Nf (e cfg) (B * eps) (Rmin h0 h1) Hnl (He cfg Hcfg) HBe M1) as [G1 G2].
      split; [apply G1|apply G2]; intros h Hh Hh' _; exists (m' h); (split; [apply Hcl; lra|]); intros t v Ht Hv; rewrite Rmult_1_l;
        apply (HW a eps Om W pr Nf h t v Ha Heps HO Ecfg HN HL ltac:(lra) Hh' Ht Hv).
    Qed.
  End General.
End Runs.

Theorem C79_etd4_etd34 :
  forall n (L : cvec) N t0 t1 rho K u f J, smooth n 4 (dmat L) N t0 t1 rho K u f J -> forall kap, 0 <= kap ->
  both_claim n L N t0 t1 rho u kap 4 ETD4d ETD34d (fun cfg => 8 * quad_error cfg).
Proof.
  intros n L N t0 t1 rho K u f J HS kap Hkap.
  assert (HT : 0 <= t1 - t0) by (assert (X := so_time _ _ _ _ _ _ _ _ _ _ _ HS); lra).
  assert (HF := dexp_flow n L). assert (HP := dPHI_ops n L (t1 - t0) HT). assert (HN := so_N _ _ _ _ _ _ _ _ _ _ _ HS).
  destruct (gkro_close n (dmat L) (dexp L) (dPHI L) (t1 - t0) HF HP HT) as (A & HA & Hcl).
  apply (general_runs n 4 L N t0 t1 rho K u f J HS kap 4 ltac:(lia) ETD4d ETD34d _ (gkro n (dexp L) (dPHI L)) A 4 HA).
  - intros cfg [Hc _]. assert (X := quad_error_pos cfg ltac:(lra)). lra.
  - exact (kro_local n 4 (dmat L) (dexp L) N t0 t1 rho K u f J (dPHI L) HF HS HP ltac:(lia)).
  - intros cfg Hcfg. destruct Hcfg as [Hc HM] eqn:Ec. clear Ec. set (p0 := exact_problem L cfg).
    destruct (C36_krogstad_up_to_quadrature unit p0 N Hc HM) as (g & G1 & G2 & G3).
    set (m' := fun h => krogstad (mflow n (dexp L) (1/2 * h)) (mflow n (dexp L) (1 * h))
                     (dfun h L (g 1%nat (1/2))) (dfun h L (g 2%nat (1/2))) (dfun h L (g 1%nat 1)) (dfun h L (g 2%nat 1)) (dfun h L (g 3%nat 1))).
    exists m'. split.
    + intros h Hh. apply (Hcl h (quad_error cfg) _ _ _ _ _ Hh (quad_error_pos cfg ltac:(lra))); apply (quad_bound cfg g Hc G1 G2); (lia || lra).
    + assert (X : forall h v, veq (below n) (cs_Phi p0 N ETD4d h v) (erk_step (m' h) N h v) /\ veq (below n) (fst (as_Phi p0 N ETD34d h v)) (erk_step (m' h) N h v)).
      { intros h v. destruct (G3 h v) as [-> ->]. cbn [fst].
        assert (Y : veq (below n)
          (erk_step (krogstad (dfun h L (fun z => Cexp (RtoC (1/2) * z))%C) (dfun h L (fun z => Cexp (RtoC 1 * z))%C)
                     (dfun h L (g 1%nat (1/2))) (dfun h L (g 2%nat (1/2))) (dfun h L (g 1%nat 1)) (dfun h L (g 2%nat 1)) (dfun h L (g 3%nat 1))) N h v)
          (erk_step (m' h) N h v)).
        { apply (erk_step_ext (below n) N HN); [|reflexivity]. apply krogstad_eq; first [apply dfun_flow|apply dfun_eq]. }
        split; exact Y. }
      destruct (etd4_steps n 4 L N t0 t1 rho K u f J HS kap Hkap cfg (conj Hc HM)) as (S1 & S2 & _).
      assert (X1 : forall i : inst cvec, veq (below n) (fst (s_etd4 Cops (c_etd4 cfg Cops L (i_h i)) N (i_v i))) (erk_step (m' (i_h i)) N (i_h i) (i_v i))).
      { intros i. rewrite <- (proj1 (X (i_h i) (i_v i))). rewrite (cs_Phi_form p0 N ETD4d (i_h i) (c := c_etd4 cfg Cops L (i_h i)) (i_v i) eq_refl). reflexivity. }
      assert (X2 : forall i : inst cvec, veq (below n) (fst (s_etd4 Cops (c_etd34 cfg Cops L (i_h i)) N (i_v i))) (erk_step (m' (i_h i)) N (i_h i) (i_v i))).
      { intros i. rewrite <- (proj2 (X (i_h i) (i_v i))). rewrite (as_Phi_form p0 N ETD34d (i_h i) (c := c_etd34 cfg Cops L (i_h i)) (i_v i) eq_refl). reflexivity. }
      destruct (ok_within n L N t0 t1 rho u kap m' _ _ X1 S1)
        as (B1 & h1 & e1 & O1 & HB1 & Hh1 & He1 & W1).
      destruct (ok_within n L N t0 t1 rho u kap m' _ _ X2 S2)
        as (B2 & h2 & e2 & O2 & HB2 & Hh2 & He2 & W2).
      exists (B1 + B2), (Rmin h1 h2), (Rmin e1 e2), (Rmax O1 O2). split; [lra|]. split; [apply Rmin_glb_lt; assumption|]. split; [apply Rmin_glb_lt; assumption|].
      intros a eps Om W pr Nf h t v Ha Heps HO E HNf HL Hh Hh' Ht Hv.
      assert (M1 := Rmin_l h1 h2). assert (M2 := Rmin_r h1 h2). assert (M3 := Rmin_l e1 e2). assert (M4 := Rmin_r e1 e2). assert (M5 := Rmax_l O1 O2). assert (M6 := Rmax_r O1 O2).
      assert (Q1 := W1 a eps Om Nf (p_vec pr) h t v Ha ltac:(lra) ltac:(lra) HNf HL ltac:(lra) Hh' Ht Hv).
      assert (Q2 := W2 a eps Om Nf (p_vec pr) h t v Ha ltac:(lra) ltac:(lra) HNf HL ltac:(lra) Hh' Ht Hv).
      cbn [i_h i_v i_a i_N i_L] in Q1, Q2. rewrite <- E in Q1, Q2.
      assert (T1 : B1 * eps <= (B1 + B2) * eps) by (apply Rmult_le_compat_r; lra). assert (T2 : B2 * eps <= (B1 + B2) * eps) by (apply Rmult_le_compat_r; lra).
      split; [apply (vle_mono n _ _ _) with (2 := T1)|apply (vle_mono n _ _ _) with (2 := T2)].
      * rewrite (cs_Phi_form pr Nf ETD4d h (c := c_etd4 (p_cfg pr) (Fops a) (p_vec pr) h) v eq_refl). exact Q1.
      * rewrite (as_Phi_form pr Nf ETD34d h (c := c_etd34 (p_cfg pr) (Fops a) (p_vec pr) h) v eq_refl). exact Q2.
Qed.

Lemma etd5_rounded_runs n q p (L : cvec) N t0 t1 rho K u f J : (0 < p)%nat -> smooth n q (dmat L) N t0 t1 rho K u f J ->
  bigO n R (adm t0 t1) (S p) (fun t h => csub (erk_step (getd5 n (dexp L) (dPHI L) h) N h (u t)) (u (t + h))) ->
  forall kap, 0 <= kap -> both_claim n L N t0 t1 rho u kap p ETD5d ETD35d (fun cfg => 12 * quad_error cfg).
Proof.
  intros Hp HS Hloc kap Hkap.
  assert (HT : 0 <= t1 - t0) by (assert (X := so_time _ _ _ _ _ _ _ _ _ _ _ HS); lra).
  assert (HF := dexp_flow n L). assert (HP := dPHI_ops n L (t1 - t0) HT). assert (HN := so_N _ _ _ _ _ _ _ _ _ _ _ HS).
  destruct (getd5_close n (dmat L) (dexp L) (dPHI L) (t1 - t0) HF HP HT) as (A & HA & Hcl).
  apply (general_runs n q L N t0 t1 rho K u f J HS kap p Hp ETD5d ETD35d _ (getd5 n (dexp L) (dPHI L)) A 6 HA).
  - intros cfg [Hc _]. assert (X := quad_error_pos cfg ltac:(lra)). lra.
  - exact Hloc.
  - intros cfg Hcfg. destruct Hcfg as [Hc HM] eqn:Ec. clear Ec. set (p0 := exact_problem L cfg).
    destruct (C37_method_up_to_quadrature unit p0 N Hc HM) as (g & G1 & G2 & G3).
    set (m' := fun h => let P k x := dfun h L (g k x) in
      etd5_method (mflow n (dexp L) (1/4 * h)) (mflow n (dexp L) (1/2 * h)) (mflow n (dexp L) (3/4 * h)) (mflow n (dexp L) (1 * h))
        (P 1%nat (1/4)) (P 2%nat (1/4)) (P 1%nat (1/2)) (P 2%nat (1/2)) (P 1%nat (3/4)) (P 2%nat (3/4)) (P 1%nat 1) (P 2%nat 1) (P 3%nat 1)).
    exists m'. split.
    + intros h Hh. apply (Hcl h (quad_error cfg) _ _ _ _ _ _ _ _ _ Hh (quad_error_pos cfg ltac:(lra))); apply (quad_bound cfg g Hc G1 G2); (lia || lra).
    + assert (X : forall h v, veq (below n) (cs_Phi p0 N ETD5d h v) (erk_step (m' h) N h v) /\ veq (below n) (fst (as_Phi p0 N ETD35d h v)) (erk_step (m' h) N h v)).
      { intros h v. destruct (G3 h v) as [-> ->]. split; (apply (erk_step_ext (below n) N HN); [|reflexivity]); apply etd5_eq; first [apply dfun_flow|apply dfun_eq]. }
      destruct (etd5_steps n q L N t0 t1 rho K u f J HS kap Hkap cfg (conj Hc HM)) as (S1 & S2 & _).
      assert (X1 : forall i : inst cvec, veq (below n) (fst (s_etd5 Cops (c_etd5 cfg Cops L (i_h i)) N (i_v i))) (erk_step (m' (i_h i)) N (i_h i) (i_v i))).
      { intros i. rewrite <- (proj1 (X (i_h i) (i_v i))). rewrite (cs_Phi_form p0 N ETD5d (i_h i) (c := c_etd5 cfg Cops L (i_h i)) (i_v i) eq_refl). reflexivity. }
      assert (X2 : forall i : inst cvec, veq (below n) (fst (s_etd5 Cops (c_etd35 cfg Cops L (i_h i)) N (i_v i))) (erk_step (m' (i_h i)) N (i_h i) (i_v i))).
      { intros i. rewrite <- (proj2 (X (i_h i) (i_v i))). rewrite (as_Phi_form p0 N ETD35d (i_h i) (c := c_etd35 cfg Cops L (i_h i)) (i_v i) eq_refl). reflexivity. }
      destruct (ok_within n L N t0 t1 rho u kap m' _ _ X1 S1)
        as (B1 & h1 & e1 & O1 & HB1 & Hh1 & He1 & W1).
      destruct (ok_within n L N t0 t1 rho u kap m' _ _ X2 S2)
        as (B2 & h2 & e2 & O2 & HB2 & Hh2 & He2 & W2).
      exists (B1 + B2), (Rmin h1 h2), (Rmin e1 e2), (Rmax O1 O2). split; [lra|]. split; [apply Rmin_glb_lt; assumption|]. split; [apply Rmin_glb_lt; assumption|].
      intros a eps Om W pr Nf h t v Ha Heps HO E HNf HL Hh Hh' Ht Hv.
      assert (M1 := Rmin_l h1 h2). assert (M2 := Rmin_r h1 h2). assert (M3 := Rmin_l e1 e2). assert (M4 := Rmin_r e1 e2). assert (M5 := Rmax_l O1 O2). assert (M6 := Rmax_r O1 O2).
      assert (Q1 := W1 a eps Om Nf (p_vec pr) h t v Ha ltac:(lra) ltac:(lra) HNf HL ltac:(lra) Hh' Ht Hv).
      assert (Q2 := W2 a eps Om Nf (p_vec pr) h t v Ha ltac:(lra) ltac:(lra) HNf HL ltac:(lra) Hh' Ht Hv).
      cbn [i_h i_v i_a i_N i_L] in Q1, Q2. rewrite <- E in Q1, Q2.
      assert (T1 : B1 * eps <= (B1 + B2) * eps) by (apply Rmult_le_compat_r; lra). assert (T2 : B2 * eps <= (B1 + B2) * eps) by (apply Rmult_le_compat_r; lra).
      split; [apply (vle_mono n _ _ _) with (2 := T1)|apply (vle_mono n _ _ _) with (2 := T2)].
      * rewrite (cs_Phi_form pr Nf ETD5d h (c := c_etd5 (p_cfg pr) (Fops a) (p_vec pr) h) v eq_refl). exact Q1.
      * rewrite (as_Phi_form pr Nf ETD35d h (c := c_etd35 (p_cfg pr) (Fops a) (p_vec pr) h) v eq_refl). exact Q2.
Qed.
Theorem C79_etd5_etd35 :
  forall n (L : cvec) N t0 t1 rho K u f J J1, smooth n 4 (dmat L) N t0 t1 rho K u f J -> Jsmooth n t0 t1 K J J1 -> forall kap, 0 <= kap ->
  both_claim n L N t0 t1 rho u kap 4 ETD5d ETD35d (fun cfg => 12 * quad_error cfg).
Proof.
  intros n L N t0 t1 rho K u f J J1 HS HJ. assert (HT : 0 <= t1 - t0) by (assert (X := so_time _ _ _ _ _ _ _ _ _ _ _ HS); lra).
  apply (etd5_rounded_runs n 4 4 L N t0 t1 rho K u f J ltac:(lia) HS).
  exact (etd5_local n 4 (dmat L) (dexp L) N t0 t1 rho K u f J J1 (dPHI L) (dexp_flow n L) HS HJ (diag_family n L _ HT) ltac:(lia)).
Qed.
(** Order five if the linear part commutes with the derivative of the nonlinear function along the solution. *)
Theorem C79_etd5_etd35_commuting :
  forall n (L : cvec) N t0 t1 rho K u f J J1, smooth n 5 (dmat L) N t0 t1 rho K u f J -> Jsmooth n t0 t1 K J J1 -> commutes n (dmat L) t0 t1 J ->
  forall kap, 0 <= kap -> both_claim n L N t0 t1 rho u kap 5 ETD5d ETD35d (fun cfg => 12 * quad_error cfg).
Proof.
  intros n L N t0 t1 rho K u f J J1 HS HJ Hc. assert (HT : 0 <= t1 - t0) by (assert (X := so_time _ _ _ _ _ _ _ _ _ _ _ HS); lra).
  apply (etd5_rounded_runs n 5 5 L N t0 t1 rho K u f J ltac:(lia) HS).
  exact (etd5_local_commuting n 5 (dmat L) (dexp L) N t0 t1 rho K u f J J1 (dPHI L) (dexp_flow n L) HS HJ (diag_family n L _ HT) ltac:(lia) Hc).
Qed.

(** ** Not vacuous *)
Definition fine_cfg (M : nat) : etdcfg Rops := mk_etdcfg (F := Rops) (1 / 100) M 1.
Lemma fine_ok M : (0 < M)%nat -> contour_ok (fine_cfg M).
Proof. intros H. split; cbn; [lra|exact H]. Qed.
Lemma fine_error e : 0 < e -> exists M, (0 < M)%nat /\ 12 * quad_error (fine_cfg M) <= e.
Proof.
  intros He. assert (P := exp_pos (1 / 100 + 1)).
  destruct (cv_speed_pow_fact 1 (e / (12 * exp (1 / 100 + 1)))) as [M HM]; [apply Rdiv_lt_0_compat; lra|].
  specialize (HM (S M) ltac:(lia)). unfold R_dist in HM. rewrite Rminus_0_r, pow1 in HM. assert (Pf := INR_fact_lt_0 (S M)).
  assert (Q : 0 < 1 / INR (fact (S M))) by (apply Rdiv_lt_0_compat; lra).
  exists (S M). split; [lia|]. unfold quad_error, fine_cfg. cbn [modecutoff contour_radius contour_points]. rewrite pow1. rewrite Rabs_pos_eq in HM by lra.
  replace (12 * (exp (1 / 100 + 1) * 1 / INR (fact (S M)))) with (12 * exp (1 / 100 + 1) * (1 / INR (fact (S M)))) by (field; lra).
  apply Rle_trans with (12 * exp (1 / 100 + 1) * (e / (12 * exp (1 / 100 + 1)))); [apply Rmult_le_compat_l; lra|right; field; lra].
Qed.
(** The logistic equation in a format of [prec] bits with a contour of [M] points. *)
Definition rlogistic_etd (emin prec : Z) (M : nat) : problem (Fops (fmtc emin prec)) unit :=
  mk_problem (A := Fops (fmtc emin prec)) (fun (v : cvec) w => (inr (fun i => fl_mul (fmtc emin prec) (v i) (v i)), w)) 1 (fun _ => RtoC (-1)) (fun _ _ => RtoC (-1))
    (fine_cfg M) (fun M => inr M) (fun M => inr M) (fun _ _ => RtoC 1) (fun _ _ => RtoC 1) (fun _ => RtoC (-1)).
(** With fine contours, precise and wide formats, both error terms are as small as wanted. *)
Example C79_not_vacuous :
  smooth 1 5 (dmat (fun _ => RtoC (-1))) lgN 0 1 1 5000 lgu lgf lgJ /\ Jsmooth 1 0 1 5000 lgJ lgJ1 /\ commutes 1 (dmat (fun _ => RtoC (-1))) 0 1 lgJ /\
  exists C r0, 0 <= C /\ 0 < r0 /\ forall e, 0 < e -> exists M emin prec h0 c d, 0 < h0 /\ 0 <= c <= e /\ 0 <= d <= e /\
    cs_rclaim 1 0 1 lgu 5 C h0 r0 (rlogistic_etd emin prec M) ETD5d c d /\ as_rclaim 1 0 1 lgu 5 C h0 r0 (rlogistic_etd emin prec M) ETD35d c d.
Proof.
  split; [exact lg_smooth|]. split; [exact lg_J|]. assert (HC : commutes 1 (dmat (fun _ => RtoC (-1))) 0 1 lgJ) by (intros t v _ i Hi; unfold dmat; rewrite (mdot_diag 1 _ _ i Hi); unfold lgJ; rewrite (mdot_diag 1 _ _ i Hi); ring). split; [exact HC|].
  destruct (C79_etd5_etd35_commuting 1 (fun _ => RtoC (-1)) lgN 0 1 1 5000 lgu lgf lgJ lgJ1 lg_smooth lg_J HC 5 ltac:(lra)) as (C & r0 & H1 & H2 & H3).
  exists C, r0. split; [exact H1|]. split; [exact H2|]. intros e He. destruct (fine_error e He) as (M & HM & HE).
  destruct (H3 (fine_cfg M) (fine_ok M HM)) as (B & h0 & e0 & O0 & B1 & B2 & B3 & H5).
  assert (PB : 0 < e / (B + 1)) by (apply Rdiv_lt_0_compat; lra).
  destruct (fmt_any (Rmin (e / (B + 1)) e0) (Rmax 4 O0) ltac:(apply Rmin_glb_lt; assumption)) as (emin & prec & eps & Om & _ & HR & Heps & HOm).
  assert (M1 := Rmin_l (e / (B + 1)) e0). assert (M2 := Rmin_r (e / (B + 1)) e0). assert (M3 := Rmax_l 4 O0). assert (M4 := Rmax_r 4 O0).
  exists M, emin, prec, h0, (12 * quad_error (fine_cfg M)), (B * eps). split; [exact B2|].
  split; [split; [assert (X := quad_error_pos (fine_cfg M) ltac:(cbn; lra)); lra|exact HE]|].
  split; [split; [apply Rmult_le_pos; lra|]; apply Rle_trans with ((B + 1) * (e / (B + 1))); [apply Rmult_le_compat; lra|right; field; lra]|].
  apply (H5 (fmtc emin prec) eps Om HR ltac:(lra) ltac:(lra) unit (rlogistic_etd emin prec M) (fun v i => fl_mul (fmtc emin prec) (v i) (v i)) eq_refl).
  - intros v w y w' E. cbn [p_nl rlogistic_etd] in E. congruence.
  - apply (rlogistic_near emin prec eps Om HR); lra.
  - intros i Hi. unfold csub. cbn [p_vec rlogistic_etd]. replace (RtoC (-1) - RtoC (-1))%C with (RtoC 0) by ring. rewrite Cmod_0. lra.
Qed.

Print Assumptions C79_etd4_etd34.
Print Assumptions C79_etd5_etd35.
Print Assumptions C79_etd5_etd35_commuting.
