(** * C80: runs of the matrix strategies in rounded arithmetic

    The strategies of IF34, ETD34 and ETD35 that work in a basis of eigenvectors ([diagonalize=True]) and the integrating-factor
    strategies for matrices, over an arithmetic with relative errors and underflow errors of size [eps] ([Rounding.v]).
    Eigenvectors, their inverse and the eigenvalues come from library routines and are within a multiple of [eps] of exact
    ones; so are the matrix exponentials. Products with matrices, changes of basis, contour sums and stages are rounded. *)

From Coq Require Import ZArith List Bool Reals Lra Lia FunctionalExtensionality QArith Qreals Setoid Morphisms.
From Coquelicot Require Import Complex.
From Verif Require Import Scalars Control ControlCS ControlCSReal ControlAS ControlASReal ControlSim ControlSound PropsControl Arrays SchemeBase
     SchemeIF SchemeETD4 SchemeETD5 Solvers SchemeFacts SchemeSound SchemeFamily SchemePartial SchemeForm CInst SpecRK
     SchemeIFReal PropsCache PropsIF SpecPhi SpecPoly ContourReal SpecERK SchemeETDReal SchemeETDCoefs PropsPsi PropsETD
     PropsLinear ContourMatrix MatrixFlow PropsMatrix Asym Solution LocalRK4 Stable Converge Voc LocalKro MatExp ConvRuns ConvMethods PropsConverge
     OrderWords OrderLocal OrderMethods PropsOrder5 Estimate Rounding RoundingB64 RoundingETD PropsRounding PropsRoundingETD RoundingMat.
Import ListNotations.
Local Open Scope R_scope.

(** Computed steps within a multiple of [eps] of the method. *)
Lemma ok_step_error n XL PX N t0 t1 rho u kap (m : R -> erk) (X Y : inst XL -> cvec) :
  (forall i, veq (below n) (X i) (erk_step (m (i_h i)) N (i_h i) (i_v i))) -> ok n PX N t0 t1 rho u kap X Y ->
  exists B h1 e1 O1, 0 <= B /\ 0 < h1 /\ 0 < e1 /\
    forall i, valid n PX N t0 t1 rho u kap i -> i_h i <= h1 -> i_eps i <= e1 -> O1 <= i_Om i ->
      vle n (csub (Y i) (erk_step (m (i_h i)) N (i_h i) (i_v i))) (B * i_eps i).
Proof.
  intros HX (B & A & HB & HA & h1 & e1 & O1 & Hh & He & H). exists A, h1, e1, O1. split; [exact HA|]. split; [exact Hh|]. split; [exact He|].
  intros i V Hh1 He1 HO. specialize (H _ V Hh1 He1 HO). intros j Hj. specialize (HX i j Hj). unfold csub. rewrite <- HX. apply (H j Hj).
Qed.

(** ** The eigenbasis strategies *)
(** [L = S diag(lam) T] with [T] the inverse of [S]. *)
Definition spectral (n : nat) (L S T : cmat) (lam : cvec) : Prop := is_inv n S T /\ meq n L (mprod n S (mprod n (diagm lam) T)).
(** A problem with these data. *)
Definition eig_problem (A : aops Rops) (n : nat) (L S T : mat A) (lam : vec A) (cfg : etdcfg Rops) : problem A unit :=
  mk_problem (A := A) (fun v w => (inr v, w)) n lam L cfg (fun M => inr M) (fun M => inr M) S T lam.
Definition in_eigenbasis (k : as_kind) : Prop := match k with IF34z | ETD34z | ETD35z => True | _ => False end.
Lemma eig_Phi (A : aops Rops) W (p : problem A W) N k h v : in_eigenbasis k ->
  as_Phi p N k h v = as_Phi (eig_problem A (p_size p) (p_mat p) (p_S p) (p_Sinv p) (p_eigs p) (p_cfg p)) N k h v.
Proof.
  intros Hk. set (q := eig_problem A (p_size p) (p_mat p) (p_S p) (p_Sinv p) (p_eigs p) (p_cfg p)). destruct k; try destruct Hk.
  - rewrite (as_Phi_form p N IF34z h (c := snd (as_uc p IF34z h (as_k0 A IF34z))) v eq_refl), (as_Phi_form q N IF34z h (c := snd (as_uc p IF34z h (as_k0 A IF34z))) v eq_refl). reflexivity.
  - rewrite (as_Phi_form p N ETD34z h (c := snd (as_uc p ETD34z h (as_k0 A ETD34z))) v eq_refl), (as_Phi_form q N ETD34z h (c := snd (as_uc p ETD34z h (as_k0 A ETD34z))) v eq_refl). reflexivity.
  - rewrite (as_Phi_form p N ETD35z h (c := snd (as_uc p ETD35z h (as_k0 A ETD35z))) v eq_refl), (as_Phi_form q N ETD35z h (c := snd (as_uc p ETD35z h (as_k0 A ETD35z))) v eq_refl). reflexivity.
Qed.

Section EigenRuns.
  Variables n q : nat.
  Variable L : cmat.
  Variable N : cvec -> cvec.
  Variables t0 t1 rho K : R.
  Variable u : R -> cvec.
  Variable fd : nat -> R -> cvec.
  Variable J : R -> cvec -> cvec.
  Hypothesis HS : smooth n q L N t0 t1 rho K u fd J.
  Variable kap : R.
  Hypothesis Hkap : 0 <= kap.
  Notation HN := (so_N _ _ _ _ _ _ _ _ _ _ _ HS).

  (** What is claimed of an adaptive solver: [C], [r0] depend on the problem only; [B], the bound on the rounding errors of a step,
      also on the eigenvectors and the contour. [e cfg s t]: the error of the contour sums, for row sums [s] of [S] and [t] of [T]. *)
  Definition eig_claim (p : nat) (k : as_kind) (good_cfg : etdcfg Rops -> Prop) (e : etdcfg Rops -> R -> R -> R) : Prop :=
    exists C r0, 0 <= C /\ 0 < r0 /\
    forall S T lam cfg s t, spectral n L S T lam -> good_cfg cfg ->
      (forall i, (i < n)%nat -> rown n S i <= s) -> (forall i, (i < n)%nat -> rown n T i <= t) -> 0 <= s -> 0 <= t ->
    exists B h0 e0 O0, 0 <= B /\ 0 < h0 /\ 0 < e0 /\
      forall a eps Om, rounds a eps Om -> 0 <= eps <= e0 -> O0 <= Om ->
      forall W (pr : problem (Fops a) W) Nf, p_cfg pr = cfg -> p_size pr = n -> (forall v w y w', p_nl pr v w = (inr y, w') -> y = Nf v) ->
        computes_near n u N t0 t1 rho kap eps Nf ->
        mle n (mdiff (p_S pr) S) (kap * eps) -> mle n (mdiff (p_Sinv pr) T) (kap * eps) -> vle n (csub (p_eigs pr) lam) (kap * eps) ->
        as_rclaim n t0 t1 u p C h0 r0 pr k (e cfg s t) (B * eps).

  (** Steps in exact and in rounded arithmetic. *)
  Definition eig_step (k : as_kind) (S T : cmat) (lam : cvec) (cfg : etdcfg Rops) (i : inst eigdata) : cvec :=
    fst (as_Phi (eig_problem Cops n L S T lam cfg) N k (i_h i) (i_v i)).
  Definition eig_step' (k : as_kind) (cfg : etdcfg Rops) (i : inst eigdata) : cvec :=
    fst (as_Phi (eig_problem (Fops (i_a i)) n (g_S (i_L i)) (g_S (i_L i)) (g_T (i_L i)) (g_lam (i_L i)) cfg) (i_N i) k (i_h i) (i_v i)).
  Notation eok S T lam := (ok n (Leig n S T lam kap) N t0 t1 rho u kap).
  Lemma eig_if34_ok S T lam cfg : is_inv n S T -> eok S T lam (eig_step IF34z S T lam cfg) (eig_step' IF34z cfg).
  Proof.
    intros HST.
    assert (Kz := ez_ok n q L N t0 t1 rho K u fd J HS kap Hkap S T lam). assert (Oz := ez_oh n N t0 t1 rho u kap Hkap S T lam).
    assert (K2 : eok S T lam (fun i => vdivz (A := Cops) (vscal (A := Cops) (i_h i) lam) 2) (fun i => vdivz (A := Fops (i_a i)) (vscal (A := Fops (i_a i)) (i_h i) (g_lam (i_L i))) 2)) by (apply ok_divz; exact Kz).
    assert (X := proj1 (if_form_ok n q L eigdata (Leig n S T lam kap) N t0 t1 rho K u fd J HS kap (e_base n T) (e_base' n) (e_first n N T) (e_first' n) (e_N n N S T) (e_N' n)
      (e_base_ok n q L N t0 t1 rho K u fd J HS kap Hkap S T lam) (e_first_ok n q L N t0 t1 rho K u fd J HS kap Hkap S T lam)
      (e_N_ok n q L N t0 t1 rho K u fd J HS kap Hkap S T lam HST) _ _ _ _ (e_exp_ok n N t0 t1 rho u kap S T lam _ _ Kz Oz)
      (e_exp_ok n N t0 t1 rho u kap S T lam _ _ K2 (oh_divz n eigdata (Leig n S T lam kap) N t0 t1 rho u kap _ _ Oz)))).
    apply (e_out n N t0 t1 rho u kap Hkap S T lam) in X. exact X.
  Qed.

  Lemma eig_etd34_ok S T lam cfg : contour_ok cfg -> is_inv n S T -> eok S T lam (eig_step ETD34z S T lam cfg) (eig_step' ETD34z cfg).
  Proof.
    intros [Hc HM] HST. assert (Hcut : 0 < modecutoff cfg) by lra. assert (Hr : 0 < contour_radius cfg) by lra.
    assert (Kz := ez_ok n q L N t0 t1 rho K u fd J HS kap Hkap S T lam). assert (Oz := ez_oh n N t0 t1 rho u kap Hkap S T lam).
    assert (C1 := etd34_coefs_ok n q L eigdata (Leig n S T lam kap) N t0 t1 rho K u fd J HS kap cfg Hcut Hr HM _ _ Kz Oz).
    assert (X := proj1 (etd4_ok n q L eigdata (Leig n S T lam kap) N t0 t1 rho K u fd J HS kap (e_base n T) (e_base' n) (e_first n N T) (e_first' n) (e_N n N S T) (e_N' n)
      (e_base_ok n q L N t0 t1 rho K u fd J HS kap Hkap S T lam) (e_first_ok n q L N t0 t1 rho K u fd J HS kap Hkap S T lam)
      (e_N_ok n q L N t0 t1 rho K u fd J HS kap Hkap S T lam HST) _ _ (C1 (as_k0 Cops ETD34z) (fun i => as_k0 (Fops (i_a i)) ETD34z)))).
    apply (e_out n N t0 t1 rho u kap Hkap S T lam) in X. exact X.
  Qed.
  Lemma eig_etd35_ok S T lam cfg : contour_ok cfg -> is_inv n S T -> eok S T lam (eig_step ETD35z S T lam cfg) (eig_step' ETD35z cfg).
  Proof.
    intros [Hc HM] HST. assert (Hcut : 0 < modecutoff cfg) by lra. assert (Hr : 0 < contour_radius cfg) by lra.
    assert (Kz := ez_ok n q L N t0 t1 rho K u fd J HS kap Hkap S T lam). assert (Oz := ez_oh n N t0 t1 rho u kap Hkap S T lam).
    assert (C1 := etd35_coefs_ok n q L eigdata (Leig n S T lam kap) N t0 t1 rho K u fd J HS kap cfg Hcut Hr HM _ _ Kz Oz).
    assert (X := proj1 (etd5_ok n q L eigdata (Leig n S T lam kap) N t0 t1 rho K u fd J HS kap (e_base n T) (e_base' n) (e_first n N T) (e_first' n) (e_N n N S T) (e_N' n)
      (e_base_ok n q L N t0 t1 rho K u fd J HS kap Hkap S T lam) (e_first_ok n q L N t0 t1 rho K u fd J HS kap Hkap S T lam)
      (e_N_ok n q L N t0 t1 rho K u fd J HS kap Hkap S T lam HST) _ _ (C1 (as_k0 Cops ETD35z) (fun i => as_k0 (Fops (i_a i)) ETD35z)))).
    apply (e_out n N t0 t1 rho u kap Hkap S T lam) in X. exact X.
  Qed.

  Section General.
    Variable p : nat.
    Hypothesis Hp : (0 < p)%nat.
    Variables (k : as_kind) (good_cfg : etdcfg Rops -> Prop) (e : etdcfg Rops -> R -> R -> R) (m : R -> erk).
    Hypothesis Hk : in_eigenbasis k.
    Variables (A : R) (Z : nat).
    Hypothesis HA : 0 <= A.
    Hypothesis Hloc : bigO n R (adm t0 t1) (Datatypes.S p) (fun t h => csub (erk_step (m h) N h (u t)) (u (t + h))).
    (** The method of the exact program. *)
    Hypothesis Hm : forall S T lam cfg s t, spectral n L S T lam -> good_cfg cfg ->
      (forall i, (i < n)%nat -> rown n S i <= s) -> (forall i, (i < n)%nat -> rown n T i <= t) -> 0 <= s -> 0 <= t ->
      0 <= e cfg s t /\ exists m', (forall h, 0 < h <= t1 - t0 -> erk_close n A Z h (e cfg s t) (m h) (m' h)) /\
        forall h v, veq (below n) (fst (as_Phi (eig_problem Cops n L S T lam cfg) N k h v)) (erk_step (m' h) N h v).
    Hypothesis Hok : forall S T lam cfg, good_cfg cfg -> is_inv n S T -> eok S T lam (eig_step k S T lam cfg) (eig_step' k cfg).
    Lemma eig_runs : eig_claim p k good_cfg e.
    Proof.
      destruct (rounded_runs n q L N t0 t1 rho K u fd J HS m p Hp Hloc A Z 1 HA Rle_0_1) as (C & h0 & r0 & H1 & H2 & H3 & H4).
      exists C, r0. split; [exact H1|]. split; [exact H3|]. intros S T lam cfg s t HD Hcfg Hs Ht Hs0 Ht0.
      destruct (Hm S T lam cfg s t HD Hcfg Hs Ht Hs0 Ht0) as (He & m' & Hcl & Hst).
      destruct (ok_step_error n eigdata _ N t0 t1 rho u kap m' _ _ (fun i => Hst (i_h i) (i_v i)) (Hok S T lam cfg Hcfg (proj1 HD)))
        as (B & h1 & e1 & O1 & HB & Hh1 & He1 & HW).
      exists B, (Rmin h0 h1), e1, O1. split; [exact HB|]. split; [apply Rmin_glb_lt; assumption|]. split; [exact He1|].
      intros a eps Om Ha Heps HO W pr Nf Ecfg En Hnl HNf HSn HTn Hln. assert (M1 := Rmin_l h0 h1). assert (M2 := Rmin_r h0 h1).
      assert (HBe : 0 <= B * eps) by (apply Rmult_le_pos; lra).
      destruct (H4 a W pr Nf (e cfg s t) (B * eps) (Rmin h0 h1) Hnl He HBe M1) as [_ G2].
      apply G2. intros h Hh Hh' _. exists (m' h). split; [apply Hcl; lra|]. intros x v Hx Hv. rewrite Rmult_1_l.
      assert (V : valid n (Leig n S T lam kap) N t0 t1 rho u kap (mk_inst x h v a eps Om Nf (mk_eigdata (p_S pr) (p_Sinv pr) (p_eigs pr)))).
      { split; cbn [i_t i_h i_v i_a i_eps i_Om i_N i_L]; try assumption; try lra. unfold Leig. cbn [i_L i_eps g_S g_T g_lam]. tauto. }
      assert (Q := HW _ V). cbn [i_h i_eps i_Om] in Q. specialize (Q ltac:(lra) ltac:(lra) HO).
      unfold eig_step' in Q. cbn [i_h i_v i_a i_N i_L g_S g_T g_lam] in Q. rewrite (eig_Phi (Fops a) W pr Nf k h v Hk), En, Ecfg.
      destruct k; try destruct Hk; exact Q.
    Qed.
  End General.
End EigenRuns.

(** Exact problems in eigenbases. *)
Section ExactEigen.
  Variables (n : nat) (L S T : cmat) (lam : cvec) (cfg : etdcfg Rops) (s t : R).
  Hypothesis HD : spectral n L S T lam.
  Hypothesis Hs : forall i, (i < n)%nat -> rown n S i <= s.
  Hypothesis Ht : forall i, (i < n)%nat -> rown n T i <= t.
  Hypothesis Hs0 : 0 <= s.
  Hypothesis Ht0 : 0 <= t.
  Hypothesis Hcfg : contour_ok cfg.
  Variable N : cvec -> cvec.
  Hypothesis HN : respects (below n) N.
  Notation p := (eig_problem Cops n L S T lam cfg).
  Notation Z h := (fun (G : Complex.C -> Complex.C) (v : cvec) => mdot n S (fun i => (G (RtoC h * lam i) * mdot n T v i)%C)).
  Notation err := (s * (quad_error cfg * t)).
  Let HD' : diagonalizes p := HD.
  Lemma eig_phis : exists g : nat -> R -> Complex.C -> Complex.C,
    (forall h k q, (1 <= k <= 3)%nat -> 0 < q <= 1 -> opn n (fun v => csub (mPHI n L k (q * h) v) (Z h (g k q) v)) err) /\
    (forall h v, veq (below n) (fst (as_Phi p N ETD34z h v))
       (erk_step (krogstad (mflow n (mphi n L 0) (1/2 * h)) (mflow n (mphi n L 0) (1 * h)) (Z h (g 1%nat (1/2))) (Z h (g 2%nat (1/2))) (Z h (g 1%nat 1)) (Z h (g 2%nat 1)) (Z h (g 3%nat 1))) N h v)) /\
    (forall h v, veq (below n) (fst (as_Phi p N ETD35z h v))
       (erk_step (etd5_method (mflow n (mphi n L 0) (1/4 * h)) (mflow n (mphi n L 0) (1/2 * h)) (mflow n (mphi n L 0) (3/4 * h)) (mflow n (mphi n L 0) (1 * h))
                (Z h (g 1%nat (1/4))) (Z h (g 2%nat (1/4))) (Z h (g 1%nat (1/2))) (Z h (g 2%nat (1/2))) (Z h (g 1%nat (3/4))) (Z h (g 2%nat (3/4)))
                (Z h (g 1%nat 1)) (Z h (g 2%nat 1)) (Z h (g 3%nat 1))) N h v)).
  Proof.
    destruct Hcfg as [Hc HM]. destruct (C47_etd_diagonalized unit p N (proj1 HD') HN Hc HM) as (g & [G1 G2] & G3). exists g. split; [|split].
    - intros h k q Hk Hq. exact (eig_near p g HD' Hc G1 G2 n L s t eq_refl eq_refl Hs Ht Hs0 Ht0 h k q Hk Hq).
    - intros h v. transitivity (erk_step (in_basis p (D_krogstad g h lam)) N h v); [intros i Hi; apply (proj1 (G3 h v i Hi))|].
      apply (erk_step_ext (below n) N HN); [|reflexivity]. assert (KF := cj_dfun p).
      assert (EX : forall q, op_eq (below n) (conj_op (mdot n S) (mdot n T) (dfun h lam (fun z => Cexp (RtoC q * z))%C)) (mflow n (mphi n L 0) (q * h))).
      { intros r a b Hab i Hi. rewrite (KF h _ (fun i => Cexp (RtoC r * (RtoC h * lam i))%C) (fun i _ => eq_refl) a b Hab i Hi).
        assert (X := mPHI_eig p HD' 0 (r * h) b i Hi). unfold mPHI in X. unfold mflow. etransitivity; [|symmetry; exact X].
        apply csum_ext. intros j _. cbn [phi p_eigs eig_problem]. replace (RtoC (r * h) * lam j)%C with (RtoC r * (RtoC h * lam j))%C by (rewrite RtoC_mult; ring). reflexivity. }
      apply (cj_krogstad p HD'); first [apply EX|apply KF; intros; reflexivity].
    - intros h v. transitivity (erk_step (in_basis p (D_etd5 g h lam)) N h v); [intros i Hi; apply (proj2 (G3 h v i Hi))|].
      apply (erk_step_ext (below n) N HN); [|reflexivity]. assert (KF := cj_dfun p).
      assert (EX : forall q, op_eq (below n) (conj_op (mdot n S) (mdot n T) (dfun h lam (fun z => Cexp (RtoC q * z))%C)) (mflow n (mphi n L 0) (q * h))).
      { intros r a b Hab i Hi. rewrite (KF h _ (fun i => Cexp (RtoC r * (RtoC h * lam i))%C) (fun i _ => eq_refl) a b Hab i Hi).
        assert (X := mPHI_eig p HD' 0 (r * h) b i Hi). unfold mPHI in X. unfold mflow. etransitivity; [|symmetry; exact X].
        apply csum_ext. intros j _. cbn [phi p_eigs eig_problem]. replace (RtoC (r * h) * lam j)%C with (RtoC r * (RtoC h * lam j))%C by (rewrite RtoC_mult; ring). reflexivity. }
      apply (cj_etd5 p HD'); first [apply EX|apply KF; intros; reflexivity].
  Qed.
  Lemma err_pos : 0 <= err.
  Proof. destruct Hcfg as [Hc HM]. assert (Hq := quad_error_pos cfg ltac:(lra)). apply Rmult_le_pos; [exact Hs0|apply Rmult_le_pos; assumption]. Qed.
End ExactEigen.

(** The law of RK4 for a matrix. *)
Lemma law_matrix n L N t0 t1 rho K u f J : smooth n 4 L N t0 t1 rho K u f J ->
  exists A Z, 0 <= A /\ (forall h, 0 < h <= t1 - t0 -> erk_close n A Z h 0 (law_erk RK4 (mflow n (mphi n L 0)) h) (law_erk RK4 (mflow n (mphi n L 0)) h)) /\
    bigO n R (adm t0 t1) 5 (fun t h => csub (erk_step (law_erk RK4 (mflow n (mphi n L 0)) h) N h (u t)) (u (t + h))) /\
    forall h v, veq (below n) (lawson RK4 (mflow n (mphi n L 0)) N h v) (erk_step (law_erk RK4 (mflow n (mphi n L 0)) h) N h v).
Proof.
  intros HS. assert (HF := series_is_flow n L).
  destruct (law_close n L (mphi n L 0) HF RK4 (t1 - t0)) as (A & Z & HA & Hcl).
  { cbn [RK4 tb_c]. repeat constructor; unfold Q2R; cbn; lra. }
  assert (HE := lawson_erk n L (mphi n L 0) HF N t0 t1 rho K u f J HS RK4).
  exists A, Z. split; [exact HA|]. split; [exact Hcl|]. split; [|exact HE].
  eapply O_ext; [|exact (rk4_local n 4 L (mphi n L 0) N t0 t1 rho K u f J HF HS ltac:(lia))].
  intros t h _ i Hi. cbn beta. unfold csub. rewrite (HE h (u t) i Hi). reflexivity.
Qed.

Theorem C80_if34_eigenbasis :
  forall n (L : cmat) N t0 t1 rho K u f J, smooth n 4 L N t0 t1 rho K u f J -> forall kap, 0 <= kap ->
  eig_claim n L N t0 t1 rho u kap 4 IF34z (fun _ => True) (fun _ _ _ => 0).
Proof.
  intros n L N t0 t1 rho K u f J HS kap Hkap. destruct (law_matrix n L N t0 t1 rho K u f J HS) as (A & Z & HA & Hcl & Hloc & HE).
  assert (HN := so_N _ _ _ _ _ _ _ _ _ _ _ HS). assert (HF := series_is_flow n L).
  apply (eig_runs n 4 L N t0 t1 rho K u f J HS kap 4 ltac:(lia) IF34z (fun _ => True) _ (law_erk RK4 (mflow n (mphi n L 0))) I A Z HA Hloc).
  - intros S T lam cfg s t HD _ _ _ _ _. split; [lra|]. exists (law_erk RK4 (mflow n (mphi n L 0))). split; [exact Hcl|]. intros h v. rewrite <- (HE h v).
    set (p := eig_problem Cops n L S T lam cfg). assert (HD' : diagonalizes p) by exact HD.
    assert (HZ := eig_flow p HD'). change (p_size p) with n in HZ. change (p_mat p) with L in HZ.
    rewrite <- (lawson_meq n L N (mphi n L 0) (eig_exp p) HF (mf_flow n L _ HZ) HN (flows_agree n L _ _ HZ HF) RK4 h v).
    rewrite <- (fsal_rk4 n (eig_exp p) N (mf_flow n L _ HZ) HN h v). intros i Hi. apply (C47_if34_diagonalized unit p N (proj1 HD') HN h v i Hi).
  - intros S T lam cfg _ HST. apply (eig_if34_ok n 4 L N t0 t1 rho K u f J HS kap Hkap S T lam cfg HST).
Qed.
Theorem C80_etd34_eigenbasis :
  forall n (L : cmat) N t0 t1 rho K u f J, smooth n 4 L N t0 t1 rho K u f J -> forall kap, 0 <= kap ->
  eig_claim n L N t0 t1 rho u kap 4 ETD34z contour_ok (fun cfg s t => 8 * (s * (quad_error cfg * t))).
Proof.
  intros n L N t0 t1 rho K u f J HS kap Hkap.
  assert (HT : 0 <= t1 - t0) by (assert (X := so_time _ _ _ _ _ _ _ _ _ _ _ HS); lra).
  assert (HF := series_is_flow n L). assert (HP := series_phi_ops n L (t1 - t0) HT). assert (HN := so_N _ _ _ _ _ _ _ _ _ _ _ HS).
  destruct (gkro_close n L (mphi n L 0) (mPHI n L) (t1 - t0) HF HP HT) as (A & HA & Hcl).
  apply (eig_runs n 4 L N t0 t1 rho K u f J HS kap 4 ltac:(lia) ETD34z contour_ok _ (gkro n (mphi n L 0) (mPHI n L)) I A 4 HA
           (kro_local n 4 L (mphi n L 0) N t0 t1 rho K u f J (mPHI n L) HF HS HP ltac:(lia))).
  - intros S T lam cfg s t HD Hcfg Hs Ht Hs0 Ht0. assert (HE := err_pos cfg s t Hs0 Ht0 Hcfg). split; [lra|].
    destruct (eig_phis n L S T lam cfg s t HD Hs Ht Hs0 Ht0 Hcfg N HN) as (g & nr & G & _).
    exists (fun h => krogstad (mflow n (mphi n L 0) (1/2 * h)) (mflow n (mphi n L 0) (1 * h))
      (fun v => mdot n S (fun i => (g 1%nat (1/2)%R (RtoC h * lam i) * mdot n T v i)%C)) (fun v => mdot n S (fun i => (g 2%nat (1/2)%R (RtoC h * lam i) * mdot n T v i)%C))
      (fun v => mdot n S (fun i => (g 1%nat 1%R (RtoC h * lam i) * mdot n T v i)%C)) (fun v => mdot n S (fun i => (g 2%nat 1%R (RtoC h * lam i) * mdot n T v i)%C))
      (fun v => mdot n S (fun i => (g 3%nat 1%R (RtoC h * lam i) * mdot n T v i)%C))).
    split; [|exact G]. intros h Hh. apply (Hcl h _ _ _ _ _ _ Hh HE); apply nr; (lia || lra).
  - intros S T lam cfg Hcfg HST. apply (eig_etd34_ok n 4 L N t0 t1 rho K u f J HS kap Hkap S T lam cfg Hcfg HST).
Qed.
Lemma etd35_eigen_runs n q p L N t0 t1 rho K u f J : (0 < p)%nat -> smooth n q L N t0 t1 rho K u f J ->
  bigO n R (adm t0 t1) (S p) (fun t h => csub (erk_step (getd5 n (mphi n L 0) (mPHI n L) h) N h (u t)) (u (t + h))) ->
  forall kap, 0 <= kap -> eig_claim n L N t0 t1 rho u kap p ETD35z contour_ok (fun cfg s t => 12 * (s * (quad_error cfg * t))).
Proof.
  intros Hp HS Hloc kap Hkap. assert (HT : 0 <= t1 - t0) by (assert (X := so_time _ _ _ _ _ _ _ _ _ _ _ HS); lra).
  assert (HF := series_is_flow n L). assert (HP := series_phi_ops n L (t1 - t0) HT). assert (HN := so_N _ _ _ _ _ _ _ _ _ _ _ HS).
  destruct (getd5_close n L (mphi n L 0) (mPHI n L) (t1 - t0) HF HP HT) as (A & HA & Hcl).
  apply (eig_runs n q L N t0 t1 rho K u f J HS kap p Hp ETD35z contour_ok _ (getd5 n (mphi n L 0) (mPHI n L)) I A 6 HA Hloc).
  - intros S T lam cfg s t HD Hcfg Hs Ht Hs0 Ht0. assert (HE := err_pos cfg s t Hs0 Ht0 Hcfg). split; [lra|].
    destruct (eig_phis n L S T lam cfg s t HD Hs Ht Hs0 Ht0 Hcfg N HN) as (g & nr & _ & G).
    set (Z := fun h (G : Complex.C -> Complex.C) (v : cvec) => mdot n S (fun i => (G (RtoC h * lam i) * mdot n T v i)%C)).
    exists (fun h => etd5_method (mflow n (mphi n L 0) (1/4 * h)) (mflow n (mphi n L 0) (1/2 * h)) (mflow n (mphi n L 0) (3/4 * h)) (mflow n (mphi n L 0) (1 * h))
                (Z h (g 1%nat (1/4))) (Z h (g 2%nat (1/4))) (Z h (g 1%nat (1/2))) (Z h (g 2%nat (1/2))) (Z h (g 1%nat (3/4))) (Z h (g 2%nat (3/4))) (Z h (g 1%nat 1)) (Z h (g 2%nat 1)) (Z h (g 3%nat 1))).
    split; [|exact G]. intros h Hh. apply (Hcl h _ _ _ _ _ _ _ _ _ _ Hh HE); apply nr; (lia || lra).
  - intros S T lam cfg Hcfg HST. apply (eig_etd35_ok n q L N t0 t1 rho K u f J HS kap Hkap S T lam cfg Hcfg HST).
Qed.
Theorem C80_etd35_eigenbasis :
  forall n (L : cmat) N t0 t1 rho K u f J J1, smooth n 4 L N t0 t1 rho K u f J -> Jsmooth n t0 t1 K J J1 -> forall kap, 0 <= kap ->
  eig_claim n L N t0 t1 rho u kap 4 ETD35z contour_ok (fun cfg s t => 12 * (s * (quad_error cfg * t))).
Proof.
  intros n L N t0 t1 rho K u f J J1 HS HJ. assert (HT : 0 <= t1 - t0) by (assert (X := so_time _ _ _ _ _ _ _ _ _ _ _ HS); lra).
  apply (etd35_eigen_runs n 4 4 L N t0 t1 rho K u f J ltac:(lia) HS).
  exact (etd5_local n 4 L (mphi n L 0) N t0 t1 rho K u f J J1 (mPHI n L) (series_is_flow n L) HS HJ (matrix_family n L _ HT) ltac:(lia)).
Qed.
Theorem C80_etd35_eigenbasis_commuting :
  forall n (L : cmat) N t0 t1 rho K u f J J1, smooth n 5 L N t0 t1 rho K u f J -> Jsmooth n t0 t1 K J J1 -> commutes n L t0 t1 J ->
  forall kap, 0 <= kap -> eig_claim n L N t0 t1 rho u kap 5 ETD35z contour_ok (fun cfg s t => 12 * (s * (quad_error cfg * t))).
Proof.
  intros n L N t0 t1 rho K u f J J1 HS HJ Hc. assert (HT : 0 <= t1 - t0) by (assert (X := so_time _ _ _ _ _ _ _ _ _ _ _ HS); lra).
  apply (etd35_eigen_runs n 5 5 L N t0 t1 rho K u f J ltac:(lia) HS).
  exact (etd5_local_commuting n 5 L (mphi n L 0) N t0 t1 rho K u f J J1 (mPHI n L) (series_is_flow n L) HS HJ (matrix_family n L _ HT) ltac:(lia) Hc).
Qed.

(** ** Matrix exponentials: IF4 and IF34 with [diag=False] *)
Record expdata := mk_expdata { x_L : cmat; x_f : cmat -> exn + cmat }.
Definition Lexp (n : nat) (L : cmat) (kap : R) (i : inst expdata) : Prop :=
  mle n (mdiff (x_L (i_L i)) L) (kap * i_eps i) /\ expm_near n kap (i_eps i) (x_f (i_L i)).
(** An exact problem: every matrix exponential is the sum of its series. *)
Definition exp_problem (n : nat) (L : cmat) : problem Cops unit :=
  mk_problem (A := Cops) (fun v w => (inr v, w)) n (fun _ => RtoC 0) L (mk_etdcfg (F := Rops) 1 1%nat 1) (fun M => inr (mexp n M)) (fun M => inr M)
    (fun _ _ => RtoC 0) (fun _ _ => RtoC 0) (fun _ => RtoC 0).

Section MatrixIF.
  Variables n q : nat.
  Variable L : cmat.
  Variable N : cvec -> cvec.
  Variables t0 t1 rho K : R.
  Variable u : R -> cvec.
  Variable fd : nat -> R -> cvec.
  Variable J : R -> cvec -> cvec.
  Hypothesis HS : smooth n q L N t0 t1 rho K u fd J.
  Variable kap : R.
  Hypothesis Hkap : 0 <= kap.
  Notation PX := (Lexp n L kap).
  Notation ok := (ok n PX N t0 t1 rho u kap).
  Notation mok := (mok n expdata PX N t0 t1 rho u kap).
  Notation moh := (moh n expdata PX N t0 t1 rho u kap).
  Notation zx i := (mscal (A := Cops) (i_h i) L).
  Notation zf i := (mscal (A := Fops (i_a i)) (i_h i) (x_L (i_L i))).
  Lemma xL_ok : mok (fun _ => L) (fun i => x_L (i_L i)).
  Proof.
    destruct (mle_exists n L) as (x & Hx & HM). exists x, kap. split; [exact Hx|]. split; [exact Hkap|]. apply (ev_all n). intros i Hi a b Ha Hb.
    split; [apply HM; assumption|]. destruct (va_L _ _ _ _ _ _ _ _ _ _ Hi) as [HL _]. apply HL; assumption.
  Qed.
  Lemma xz_ok : mok (fun i => zx i) (fun i => zf i).
  Proof.
    apply mok_cols. intros b Hb. apply (ok_scal n expdata PX N t0 t1 rho u kap i_h (fun _ a => L a b) (fun i a => x_L (i_L i) a b));
      [apply (soh_bnd n q L expdata PX N t0 t1 rho K u fd J HS); apply soh_h|apply (mok_col n expdata PX N t0 t1 rho u kap _ _ b Hb xL_ok)].
  Qed.
  Lemma xz2_ok : mok (fun i => mdivz (A := Cops) (zx i) 2) (fun i => mdivz (A := Fops (i_a i)) (zf i) 2).
  Proof.
    apply mok_cols. intros b Hb. apply (ok_divz n expdata PX N t0 t1 rho u kap (fun i a => zx i a b) (fun i a => zf i a b)).
    apply (mok_col n expdata PX N t0 t1 rho u kap _ _ b Hb xz_ok).
  Qed.
  Lemma xz_oh : moh (fun i => zx i) /\ moh (fun i => mdivz (A := Cops) (zx i) 2).
  Proof.
    destruct (mle_exists n L) as (x & Hx & HM).
    assert (E : forall i : inst expdata, valid n PX N t0 t1 rho u kap i -> mle n (zx i) (x * i_h i)).
    { intros i Hi a b Ha Hb. destruct (va_h _ _ _ _ _ _ _ _ _ _ Hi) as [Hh _]. change (zx i a b) with (RtoC (i_h i) * L a b)%C.
      rewrite Cmod_mult, Cmod_R, Rabs_pos_eq by lra. rewrite Rmult_comm. apply Rmult_le_compat_r; [lra|apply HM; assumption]. }
    split; exists x; (split; [exact Hx|]); apply (ev_all n); [exact E|]. intros i Hi a b Ha Hb. specialize (E i Hi a b Ha Hb).
    change (mdivz (A := Cops) (zx i) 2 a b) with (zx i a b / RtoC 2)%C. rewrite Cmod_div by (intros X; apply RtoC_inj in X; lra).
    rewrite Cmod_R, Rabs_pos_eq by lra. assert (P := Cmod_ge_0 (zx i a b)). lra.
  Qed.
  (** The stages with computed exponentials. *)
  Definition or_x (i : inst expdata) := or_exact n expdata (fun i => x_f (i_L i)) i.
  Definition if_exact (i : inst expdata) : cvec :=
    fst (if_form_n (A := Cops) N (i_h i) n (mk_if_coefs (mexp n (zx i)) (mexp n (mdivz (A := Cops) (zx i) 2))) (i_v i) (N (i_v i))).
  Definition if_rounded (i : inst expdata) : cvec :=
    fst (if_form_n (A := Fops (i_a i)) (i_N i) (i_h i) n
      (mk_if_coefs (or_x i (zx i) (zf i)) (or_x i (mdivz (A := Cops) (zx i) 2) (mdivz (A := Fops (i_a i)) (zf i) 2))) (i_v i) (i_N i (i_v i))).
  Lemma if_n_ok : ok if_exact if_rounded.
  Proof.
    assert (HX : forall i, PX i -> expm_near n kap (i_eps i) (x_f (i_L i))) by (intros i [_ H]; exact H).
    assert (Kv := ok_v n q L expdata PX N t0 t1 rho K u fd J HS kap).
    assert (KN := fun f g Hf Tf => ok_N n q L expdata PX N t0 t1 rho K u fd J HS kap Hkap f g Hf Tf).
    assert (E1 := mexp_all n expdata PX N t0 t1 rho u kap Hkap _ HX _ _ xz_ok (proj1 xz_oh)).
    assert (E2 := mexp_all n expdata PX N t0 t1 rho u kap Hkap _ HX _ _ xz2_ok (proj2 xz_oh)).
    exact (proj1 (if_form_n_ok n q L expdata PX N t0 t1 rho K u fd J HS kap i_v i_v (fun i => N (i_v i)) (fun i => i_N i (i_v i)) (fun _ => N) i_N Kv
      (KN _ _ Kv (tube_v n expdata PX N t0 t1 rho u kap)) KN _ _ _ _ E1 E2)).
  Qed.
End MatrixIF.

Theorem C80_if4_if34_matrix :
  forall n (L : cmat) N t0 t1 rho K u f J, smooth n 4 L N t0 t1 rho K u f J -> forall kap, 0 <= kap ->
  exists C h0 r0 e0 O0, 0 <= C /\ 0 < h0 /\ 0 < r0 /\ 0 < e0 /\
    forall a eps Om, rounds a eps Om -> 0 <= eps <= e0 -> O0 <= Om ->
    forall W (p : problem (Fops a) W) Nf, p_size p = n -> (forall v w y w', p_nl p v w = (inr y, w') -> y = Nf v) ->
      computes_near n u N t0 t1 rho kap eps Nf -> mle n (mdiff (p_mat p) L) (kap * eps) -> expm_near n kap eps (p_expm p) ->
      cs_rclaim n t0 t1 u 4 C h0 r0 p IF4n 0 eps /\ as_rclaim n t0 t1 u 4 C h0 r0 p IF34n 0 eps.
Proof.
  intros n L N t0 t1 rho K u f J HS kap Hkap. destruct (law_matrix n L N t0 t1 rho K u f J HS) as (A & Z & HA & Hcl & Hloc & HE).
  assert (HN := so_N _ _ _ _ _ _ _ _ _ _ _ HS). assert (HF := series_is_flow n L).
  set (p0 := exp_problem n L).
  assert (EX : forall i : inst expdata, veq (below n) (if_exact n L N i) (erk_step (law_erk RK4 (mflow n (mphi n L 0)) (i_h i)) N (i_h i) (i_v i))).
  { intros i. rewrite <- (HE (i_h i) (i_v i)).
    assert (HX0 : forall m e, p_expm p0 m <> inl e) by (intros m e; discriminate).
    assert (HX1 : exp_series p0) by (intros m e E; assert (X : mexp n m = e) by (cbn [p_expm exp_problem p0] in E; congruence); rewrite <- X; apply mexp_psi).
    destruct (expm_flow p0 HX0 HX1) as (Ex & HX & EXm).
    assert (HFx : flow (below n) (mflow n Ex)) by (apply (mflow_flow n Ex); apply HX).
    rewrite <- (lawson_meq n L N (mphi n L 0) Ex HF HFx HN EXm RK4 (i_h i) (i_v i)).
    intros j Hj. etransitivity; [|exact (C32_if4_matrix unit p0 N Ex HX HN (i_h i) (i_v i) j Hj)].
    rewrite (cs_Phi_form p0 N IF4n (i_h i) (c := mk_if_coefs (mexp n (mscal (A := Cops) (i_h i) L)) (mexp n (mdivz (A := Cops) (mscal (A := Cops) (i_h i) L) 2))) (i_v i) eq_refl). reflexivity. }
  destruct (ok_step_error n expdata _ N t0 t1 rho u kap (law_erk RK4 (mflow n (mphi n L 0))) _ _ EX (if_n_ok n 4 L N t0 t1 rho K u f J HS kap Hkap))
    as (B & h1 & e1 & O1 & HB & Hh1 & He1 & HW).
  destruct (rounded_runs n 4 L N t0 t1 rho K u f J HS (law_erk RK4 (mflow n (mphi n L 0))) 4 ltac:(lia) Hloc A Z B HA HB) as (C & h0 & r0 & H1 & H2 & H3 & H4).
  exists C, (Rmin h0 h1), r0, e1, O1. split; [exact H1|]. split; [apply Rmin_glb_lt; assumption|]. split; [exact H3|]. split; [exact He1|].
  intros a eps Om Ha He HO W p Nf En Hp HNf HL HX. assert (M1 := Rmin_l h0 h1). assert (M2 := Rmin_r h0 h1).
  assert (step : forall h x v, 0 < h <= Rmin h0 h1 -> h <= t1 - t0 -> t0 <= x <= t1 -> vle n (csub v (u x)) (rho / 4) ->
    vle n (csub (if_rounded n L (mk_inst x h v a eps Om Nf (mk_expdata (p_mat p) (p_expm p)))) (erk_step (law_erk RK4 (mflow n (mphi n L 0)) h) N h v)) (B * eps)).
  { intros h x v Hh Hh' Hx Hv.
    assert (V : valid n (Lexp n L kap) N t0 t1 rho u kap (mk_inst x h v a eps Om Nf (mk_expdata (p_mat p) (p_expm p)))).
    { split; cbn [i_t i_h i_v i_a i_eps i_Om i_N i_L]; try assumption; try lra. unfold Lexp. cbn [i_L i_eps x_L x_f]. tauto. }
    assert (Q := HW _ V). cbn [i_h i_eps i_Om i_v] in Q. apply Q; lra. }
  destruct (H4 a W p Nf 0 eps (Rmin h0 h1) Hp (Rle_refl 0) (proj1 He) M1) as [G1 G2]. split; [apply G1|apply G2]; intros h Hh Hh' Hg; exists (law_erk RK4 (mflow n (mphi n L 0)) h);
    (split; [apply Hcl; lra|]); intros x v Hx Hv; specialize (step h x v Hh Hh' Hx Hv);
    unfold if_rounded, or_x, or_exact in step; cbn [i_h i_v i_a i_N i_L x_L x_f] in step.
  - unfold cs_good in Hg. cbn [cs_uc] in Hg. unfold if4n_coeffs in Hg. destruct (p_expm p (mscal (A := Fops a) h (p_mat p))) as [x1|E1] eqn:X1; [discriminate|].
    destruct (p_expm p (mdivz (A := Fops a) (mscal (A := Fops a) h (p_mat p)) 2)) as [x2|E2] eqn:X2; [discriminate|].
    assert (U : cs_uc p IF4n h (cs_k0 (Fops a) IF4n) = (inr tt, mk_if_coefs E1 E2)) by (cbn [cs_uc]; unfold if4n_coeffs; rewrite X1, X2; reflexivity).
    rewrite (cs_Phi_form p Nf IF4n h v U). unfold cs_form. rewrite En. exact step.
  - unfold as_good in Hg. cbn [as_uc] in Hg. unfold if34n_coeffs in Hg. destruct (p_expm p (mscal (A := Fops a) h (p_mat p))) as [x1|E1] eqn:X1; [discriminate|].
    destruct (p_expm p (mdivz (A := Fops a) (mscal (A := Fops a) h (p_mat p)) 2)) as [x2|E2] eqn:X2; [discriminate|].
    assert (U : as_uc p IF34n h (as_k0 (Fops a) IF34n) = (inr tt, mk_if_coefs E1 E2)) by (cbn [as_uc]; unfold if34n_coeffs; rewrite X1, X2; reflexivity).
    rewrite (as_Phi_form p Nf IF34n h v U). unfold as_form. rewrite En. exact step.
Qed.

(** ** Not vacuous *)
(** The eigenvectors of [diag(-1, 1)], largest eigenvalue first. *)
Definition swap2 : cmat := fun i j => if Nat.eqb (i + j) 1 then RtoC 1 else RtoC 0.
Definition swL : cvec := fun i => match i with O => RtoC 1 | _ => RtoC (-1) end.
Lemma swap_spectral : spectral 2 (dmat ncL) swap2 swap2 swL.
Proof.
  split; [split|]; intros i j Hi Hj; destruct i as [|[|i]]; try lia; destruct j as [|[|j]]; try lia;
    unfold mprod, swap2, mident, diagm, dmat, ncL, swL; cbn; try (apply injective_projections; cbn; ring).
Qed.
Lemma swap_rows i : (i < 2)%nat -> rown 2 swap2 i <= 1.
Proof. intros Hi. unfold rown, swap2. destruct i as [|[|i]]; try lia; cbn; rewrite ?Cmod_0, ?Cmod_1; lra. Qed.
(** The linear equation of C73 in a format of [prec] bits, its matrix exponentials correctly rounded. *)
Definition rlinear (emin prec : Z) (M : nat) : problem (Fops (fmtc emin prec)) unit :=
  mk_problem (A := Fops (fmtc emin prec)) (fun (v : cvec) w => (inr (ncN v), w)) 2 ncL (dmat ncL) (fine_cfg M)
    (fun Z => inr (fun i j => fl_add (fmtc emin prec) (mexp 2 Z i j) (RtoC 0))) (fun M => inr M) swap2 swap2 swL.
Lemma rlinear_expm emin prec M eps Om : rounds (fmtc emin prec) eps Om -> 0 <= eps -> 3 <= Om -> expm_near 2 4 eps (p_expm (rlinear emin prec M)).
Proof.
  intros HR He HO Z E E' HZ HE EZ i j Hi Hj. cbn [p_expm rlinear] in EZ. assert (X : (fun i j => fl_add (fmtc emin prec) (mexp 2 Z i j) (RtoC 0)) = E') by congruence. rewrite <- X.
  unfold mdiff. rewrite (psi_unique 2 0 Z _ _ HE (mexp_psi 2 Z) i j Hi Hj). set (y := mexp 2 Z i j).
  assert (B : Cmod y <= 3).
  { eapply Rle_trans; [apply (entry_rown 2 (mexp 2 Z) i j Hj)|]. eapply Rle_trans; [apply (psi_norm 2 Z 1) with (r := O); [lra|exact HZ|apply mexp_psi|exact Hi]|]. apply exp_le_3. }
  assert (R := ro_add _ _ _ HR y (RtoC 0)). rewrite Cplus_0_r, Cmod_0 in R. specialize (R ltac:(lra) ltac:(lra) ltac:(lra)).
  eapply Rle_trans; [exact R|]. rewrite (Rmult_comm 4). apply Rmult_le_compat_l; lra.
Qed.
(** In the swapped basis and with matrix exponentials: with fine contours, precise and wide formats, all error terms are as small as wanted. *)
Example C80_not_vacuous :
  smooth 2 5 (dmat ncL) ncN 0 1 1 300 ncu ncf ncJ /\ Jsmooth 2 0 1 300 ncJ ncJ1 /\ spectral 2 (dmat ncL) swap2 swap2 swL /\
  exists C r0 C' h0' r0', 0 <= C /\ 0 < r0 /\ 0 <= C' /\ 0 < h0' /\ 0 < r0' /\
  forall e, 0 < e -> exists M emin prec h0 c d d', 0 < h0 /\ 0 <= c <= e /\ 0 <= d <= e /\ 0 <= d' <= e /\
    as_rclaim 2 0 1 ncu 4 C h0 r0 (rlinear emin prec M) ETD35z c d /\
    cs_rclaim 2 0 1 ncu 4 C' h0' r0' (rlinear emin prec M) IF4n 0 d' /\ as_rclaim 2 0 1 ncu 4 C' h0' r0' (rlinear emin prec M) IF34n 0 d'.
Proof.
  split; [exact nc_smooth|]. split; [exact nc_J|]. split; [exact swap_spectral|]. assert (HS4 := smooth_weak 2 5 4 _ _ _ _ _ _ _ _ _ ltac:(lia) nc_smooth).
  destruct (C80_etd35_eigenbasis 2 (dmat ncL) ncN 0 1 1 300 ncu ncf ncJ ncJ1 HS4 nc_J 4 ltac:(lra)) as (C & r0 & H1 & H2 & H3).
  destruct (C80_if4_if34_matrix 2 (dmat ncL) ncN 0 1 1 300 ncu ncf ncJ HS4 4 ltac:(lra)) as (C' & h0' & r0' & e0' & O0' & Q1 & Q2 & Q3 & Q4 & Q5).
  exists C, r0, C', h0', r0'. split; [exact H1|]. split; [exact H2|]. split; [exact Q1|]. split; [exact Q2|]. split; [exact Q3|].
  intros e He. destruct (fine_error e He) as (M & HM & HE).
  destruct (H3 swap2 swap2 swL (fine_cfg M) 1 1 swap_spectral (fine_ok M HM) swap_rows swap_rows ltac:(lra) ltac:(lra)) as (B & h0 & e0 & O0 & B1 & B2 & B3 & H5).
  set (z := Rmin (Rmin (e / (B + 1)) e) (Rmin e0 e0')).
  assert (PB : 0 < e / (B + 1)) by (apply Rdiv_lt_0_compat; lra). assert (Hz : 0 < z) by (unfold z; repeat apply Rmin_glb_lt; assumption).
  destruct (fmt_any z (Rmax 4 (Rmax O0 O0')) Hz) as (emin & prec & eps & Om & _ & HR & Heps & HOm).
  assert (M1 := Rmin_l (Rmin (e / (B + 1)) e) (Rmin e0 e0')). assert (M2 := Rmin_r (Rmin (e / (B + 1)) e) (Rmin e0 e0')). fold z in M1, M2.
  assert (M3 := Rmin_l (e / (B + 1)) e). assert (M4 := Rmin_r (e / (B + 1)) e). assert (M5 := Rmin_l e0 e0'). assert (M6 := Rmin_r e0 e0').
  assert (N1 := Rmax_l 4 (Rmax O0 O0')). assert (N2 := Rmax_r 4 (Rmax O0 O0')). assert (N3 := Rmax_l O0 O0'). assert (N4 := Rmax_r O0 O0').
  exists M, emin, prec, h0, (12 * (1 * (quad_error (fine_cfg M) * 1))), (B * eps), eps. split; [exact B2|].
  split; [split; [assert (X := quad_error_pos (fine_cfg M) ltac:(cbn; lra)); lra|lra]|].
  split; [split; [apply Rmult_le_pos; lra|]; apply Rle_trans with ((B + 1) * (e / (B + 1))); [apply Rmult_le_compat; lra|right; field; lra]|].
  split; [lra|].
  assert (HN : forall v w y w', p_nl (rlinear emin prec M) v w = (inr y, w') -> y = ncN v) by (intros v w y w' E; cbn [p_nl rlinear] in E; congruence).
  assert (HC : computes_near 2 ncu ncN 0 1 1 4 eps ncN).
  { intros t v Ht Hv i Hi. unfold csub. replace (ncN v i - ncN v i)%C with (RtoC 0) by ring. rewrite Cmod_0. lra. }
  assert (HM0 : forall X : cmat, mle 2 (mdiff X X) (4 * eps)).
  { intros X i j Hi Hj. unfold mdiff. replace (X i j - X i j)%C with (RtoC 0) by ring. rewrite Cmod_0. lra. }
  split.
  - apply (H5 (fmtc emin prec) eps Om HR ltac:(lra) ltac:(lra) unit (rlinear emin prec M) ncN eq_refl eq_refl HN HC (HM0 _) (HM0 _)).
    intros i Hi. unfold csub. cbn [p_eigs rlinear]. replace (swL i - swL i)%C with (RtoC 0) by ring. rewrite Cmod_0. lra.
  - apply (Q5 (fmtc emin prec) eps Om HR ltac:(lra) ltac:(lra) unit (rlinear emin prec M) ncN eq_refl HN HC (HM0 _)).
    apply (rlinear_expm emin prec M eps Om HR); lra.
Qed.

Print Assumptions C80_if34_eigenbasis.
Print Assumptions C80_etd34_eigenbasis.
Print Assumptions C80_etd35_eigenbasis.
Print Assumptions C80_etd35_eigenbasis_commuting.
Print Assumptions C80_if4_if34_matrix.
