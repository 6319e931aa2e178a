(** * C85: the equations of models.py in rounded arithmetic

    The operators returned by [kdv_ops], [burgers_ops] and [allen_cahn_ops], evaluated in rounded arithmetic with computed
    transforms and powers, are near the exact ones; so the whole runs in binary64 (C82) that use them stay near the solutions of
    C83. *)

From Coq Require Import ZArith List Bool Reals Lra Lia FunctionalExtensionality.
From Coquelicot Require Import Complex.
From Flocq Require Import Core BinarySingleNaN.
From Verif Require Import Scalars Control ControlCS ControlCSReal ControlAS ControlASReal Arrays SchemeBase SchemeIF SchemeETD4 SchemeETD5 Solvers
     CInst SpecRK SchemeIFReal SpecPhi SpecPoly ContourReal PropsPsi PropsETD ContourMatrix MatrixFlow PropsMatrix Config Grids Derivatives Fourier PropsGrids PropsDeriv
     Models PropsModels PropsSpectral PropsMean
     Asym Solution OrderWords OrderLocal LocalRK4 Stable Converge Voc LocalKro MatExp ConvRuns ConvMethods PropsConverge PropsOrder5 Polynomial ModelPoly Picard PropsModelRuns
     Rounding RoundingETD RoundingMat RoundingMatETD RoundingB64 PropsRounding PropsRoundingETD PropsRoundingMat
     PropsRoundingMatETD B64 B64Step PropsB64 RoundingRuns RoundingTimes PropsRounding64 PropsRuns64 ModelRounding.
Import ListNotations.
Local Open Scope R_scope.

(** ** The equations, as data *)
Inductive eqn := Kdv (kx : list R) | Burgers (kx : list R) | AllenCahn (x : list R).
(** The exact function, the length of its arrays, and the arrays for which it is defined. *)
Definition eq_fun (e : eqn) : list C -> exn + list C := match e with Kdv kx => kdv_nl kx | Burgers kx => burgers_nl kx | AllenCahn x => allen_cahn_nl x end.
Definition eq_size (e : eqn) : nat := match e with Kdv kx => length kx | Burgers kx => length kx | AllenCahn x => length (inner x) end.
Definition eq_ok (e : eqn) : Prop := match e with Kdv kx => (2 <= length kx)%nat | Burgers kx => (2 <= length kx)%nat | AllenCahn x => True end.
(** [g] is the function of models.py evaluated with the arithmetic [a], with transforms and powers of relative error [kf eps]. *)
Definition computed (a : arith) (kf eps Om : R) (e : eqn) (g : list C -> list C) : Prop :=
  match e with
  | Kdv kx => exists F G, rfft_near (2 * (length kx - 1)) kf eps Om F /\ irfft_near (2 * (length kx - 1)) kf eps Om G /\ g = kdv_nl_fl a F G kx
  | Burgers kx => exists F G, rfft_near (2 * (length kx - 1)) kf eps Om F /\ irfft_near (2 * (length kx - 1)) kf eps Om G /\ g = burgers_nl_fl a F G kx
  | AllenCahn x => exists P, cube_near kf eps Om P /\ g = allen_cahn_nl_fl a P x
  end.
Lemma eq_model e : eq_ok e -> model (eq_fun e) (eq_size e).
Proof. destruct e; cbn [eq_ok eq_fun eq_size]; intros H; constructor; exact H. Qed.

(** ** Nonlinear functions *)
Lemma list_bound (l : list R) : exists b, forall k, Rabs (at_ 0 l k) <= b.
Proof.
  unfold at_. induction l as [|x l [b IH]].
  - exists 0. intros [|k]; cbn; rewrite Rabs_R0; lra.
  - exists (Rmax (Rabs x) b). intros [|k]; cbn [nth]; [apply Rmax_l|]. eapply Rle_trans; [apply IH|apply Rmax_r].
Qed.
(** The functions of models.py in rounded arithmetic are near the exact ones, on bounded sets. *)
Theorem C85_nonlinear : forall e M kf, eq_ok e -> 0 <= M -> 0 <= kf -> exists kap O1, 0 <= kap /\
  forall a eps Om g, rounds a eps Om -> 0 <= eps <= 1 -> O1 <= Om -> computed a kf eps Om e g ->
  forall v, vle (eq_size e) v M -> exists r, eq_fun e (@tab C (eq_size e) v) = inr r /\
    forall i, (i < eq_size e)%nat -> Cmod (nth i (g (@tab C (eq_size e) v)) (RtoC 0) - nth i r (RtoC 0))%C <= kap * eps.
Proof.
  intros [kx|kx|x] M kf Hok HM Hkf; cbn [eq_ok eq_size eq_fun computed] in *.
  - destruct (list_bound kx) as [kb Hkb]. set (n := length kx) in *.
    destruct (av_pos kx n kb M kf Hok eq_refl Hkb HM Hkf) as (P1 & P2 & P3 & P4 & P5 & P6 & P7 & P8).
    set (B := av_B4 n kb M) in *. set (A := av_A4 n kb M kf) in *.
    exists (1 + (6 + 0) * (B + A) + (0 * (B + A) + 6 * A)), (av_Om n kb M kf + Rabs ((6 + 0) * (B + A) + (6 + 0) + (B + A))).
    split; [lra|]. intros a eps Om g HR He HO (F & G & HF & HG & ->) v Hv.
    rewrite (Rabs_pos_eq ((6 + 0) * (B + A) + (6 + 0) + (B + A))) in HO by lra.
    apply (advection_near kx n kb M kf Hok eq_refl Hkb HM Hkf a eps Om F G HR He ltac:(lra) HF HG v Hv).
    intros z z' D. fold B A in D.
    assert (Q : near 6 0 eps (RtoC (-6)) (RtoC (-6))) by (apply near_exact; [lra|]; rewrite Cmod_R, Rabs_left; lra).
    assert (X : near (6 * B) (1 + (6 + 0) * (B + A) + (0 * (B + A) + 6 * A)) eps (RtoC (-6) * z)%C (fl_mul a (RtoC (-6)) z')); [|apply X].
    assert (PO : 0 <= av_Om n kb M kf).
    { destruct (Om_parts kx n kb M kf Hok eq_refl Hkb HM Hkf _ (Rle_refl _)) as (O1 & _). assert (K := kb_pos kx kb Hkb). assert (0 <= (kb + 0) * (M + 0)) by (apply Rmult_le_pos; lra). lra. }
    apply near_mul with (Om := Om); try assumption; lra.
  - destruct (list_bound kx) as [kb Hkb]. set (n := length kx) in *.
    destruct (av_pos kx n kb M kf Hok eq_refl Hkb HM Hkf) as (P1 & P2 & P3 & P4 & P5 & P6 & P7 & P8).
    exists (av_A4 n kb M kf), (av_Om n kb M kf). split; [exact P8|]. intros a eps Om g HR He HO (F & G & HF & HG & ->) v Hv.
    apply (advection_near kx n kb M kf Hok eq_refl Hkb HM Hkf a eps Om F G HR He HO HF HG v Hv).
    intros z z' [_ D]. rewrite RtoC_m1. replace (- z' - - RtoC 1 * z)%C with (- (z' - z))%C by ring. rewrite Cmod_opp. exact D.
  - destruct (list_bound (inner x)) as [X HX]. assert (PX : 0 <= X) by (eapply Rle_trans; [apply Rabs_pos|apply (HX 0%nat)]).
    exists (ac_A3 X M kf), (ac_Om X M kf). destruct (ac_pos X M kf PX HM Hkf) as (_ & _ & _ & P4). split; [exact P4|].
    intros a eps Om g HR He HO (P & HP & ->) v Hv. set (n := length (inner x)) in *.
    unfold allen_cahn_nl. fold n. rewrite tab_len, Nat.eqb_refl. eexists. split; [reflexivity|]. intros i Hi.
    change (nth i ?l (RtoC 0)) with (at_ (RtoC 0) l i). unfold allen_cahn_nl_fl. rewrite tab_len, !tab_nth by exact Hi. cbv beta zeta.
    assert (Ei : forall B0 (d : B0) l, (if Nat.eqb n 1 then at_ d l 0 else at_ d l i) = at_ d l i).
    { intros B0 d l. destruct (Nat.eqb_spec n 1); [|reflexivity]. replace i with 0%nat by lia. reflexivity. }
    rewrite !Ei, !tab_nth by exact Hi. apply (allen_cahn_entry X M kf PX HM Hkf a eps Om P); try assumption; [apply HX|apply Hv, Hi].
Qed.

(** ** Linear operators *)
Lemma map_at {A B} (f : A -> B) l (da : A) (db : B) i : (i < length l)%nat -> nth i (map f l) db = f (nth i l da).
Proof. intros H. rewrite (nth_indep _ db (f da)) by (rewrite map_length; exact H). apply map_nth. Qed.
Theorem C85_kdv_lin : forall kx kf, 0 <= kf -> exists kap O1, 0 <= kap /\
  forall a eps Om P, rounds a eps Om -> 0 <= eps <= 1 -> O1 <= Om -> rpow_near kf eps Om P ->
    vle (length kx) (csub (of_list (kdv_lin_fl a P kx)) (of_list (kdv_lin kx))) (kap * eps).
Proof.
  intros kx kf Hkf. destruct (list_bound kx) as [kb Hkb]. assert (Pb : 0 <= kb) by (eapply Rle_trans; [apply Rabs_pos|apply (Hkb 0%nat)]).
  set (B := kb ^ 3). set (A := kf * (1 + B)). assert (PB : 0 <= B) by (apply pow_le; exact Pb). assert (PA : 0 <= A) by (apply Rmult_le_pos; lra).
  exists (1 + (1 + 0) * (B + A) + (0 * (B + A) + 1 * A)), (kb + B + ((1 + 0) * (B + A) + (1 + 0) + (B + A))). split; [lra|].
  intros a eps Om P HR He HO HP i Hi. unfold csub, of_list, kdv_lin_fl, kdv_lin. rewrite !(map_at _ kx 0 _ i Hi).
  change (nth i kx 0) with (at_ 0 kx i). set (k := at_ 0 kx i).
  assert (D : near B A eps (RtoC (k ^ 3)) (RtoC (P k 3%nat))) by (apply (rpow_entry kf eps Om); try assumption; [lra|lia|apply Hkb|fold B; lra]).
  assert (X : near (1 * B) (1 + (1 + 0) * (B + A) + (0 * (B + A) + 1 * A)) eps ((0, 1)%R * RtoC (k ^ 3))%C (fl_mul a (0, 1)%R (RtoC (P k 3%nat)))); [|apply X].
  apply near_mul with (Om := Om); try assumption; try lra. apply near_exact; [lra|]. rewrite Cmod_i, Rabs_R1. lra.
Qed.
Theorem C85_burgers_lin : forall kx mu kf, 0 <= kf -> exists kap O1, 0 <= kap /\
  forall a eps Om P, rounds a eps Om -> 0 <= eps <= 1 -> O1 <= Om -> rpow_near kf eps Om P ->
    vle (length kx) (csub (of_list (burgers_lin_fl a P kx mu)) (of_list (burgers_lin kx mu))) (kap * eps).
Proof.
  intros kx mu kf Hkf. destruct (list_bound kx) as [kb Hkb]. assert (Pb : 0 <= kb) by (eapply Rle_trans; [apply Rabs_pos|apply (Hkb 0%nat)]).
  set (B := kb ^ 2). set (A := kf * (1 + B)). assert (PB : 0 <= B) by (apply pow_le; exact Pb). assert (PA : 0 <= A) by (apply Rmult_le_pos; lra).
  set (c := Rabs (- mu)). assert (Pc : 0 <= c) by apply Rabs_pos. assert (PcB : 0 <= c * (B + A)) by (apply Rmult_le_pos; lra). assert (PcA : 0 <= c * A) by (apply Rmult_le_pos; lra).
  exists (1 + (c + 0) * (B + A) + (0 * (B + A) + c * A)), (kb + B + ((c + 0) * (B + A) + (c + 0) + (B + A))). split; [lra|].
  intros a eps Om P HR He HO HP i Hi. unfold csub, of_list, burgers_lin_fl, burgers_lin. rewrite !(map_at _ kx 0 _ i Hi).
  change (nth i kx 0) with (at_ 0 kx i). set (k := at_ 0 kx i).
  assert (D : near B A eps (RtoC (k ^ 2)) (RtoC (P k 2%nat))) by (apply (rpow_entry kf eps Om); try assumption; [lra|lia|apply Hkb|fold B; lra]).
  assert (X : near (c * B) (1 + (c + 0) * (B + A) + (0 * (B + A) + c * A)) eps (RtoC (- mu * k ^ 2)) (RtoC (rmul a (- mu) (P k 2%nat)))); [|apply X].
  unfold rmul. apply near_Re. rewrite RtoC_mult. apply near_mul with (Om := Om); try assumption; try lra. apply near_exact; [lra|]. rewrite Cmod_R. unfold c. lra.
Qed.
Lemma mat_bound (d : nat -> nat -> R) N : exists b, 0 <= b /\ forall i j, (i < N)%nat -> (j < N)%nat -> Rabs (d i j) <= b.
Proof.
  assert (R1 : forall (f : nat -> R) n, exists b, 0 <= b /\ forall i, (i < n)%nat -> Rabs (f i) <= b).
  { intros f n. induction n as [|n (b & Hb & H)]; [exists 0; split; [lra|intros; lia]|]. exists (Rmax b (Rabs (f n))). split; [eapply Rle_trans; [exact Hb|apply Rmax_l]|].
    intros i Hi. destruct (Nat.eq_dec i n) as [->|E]; [apply Rmax_r|]. eapply Rle_trans; [apply H; lia|apply Rmax_l]. }
  assert (R2 : forall n, exists b, 0 <= b /\ forall i j, (i < n)%nat -> (j < N)%nat -> Rabs (d i j) <= b).
  { induction n as [|n (b & Hb & H)]; [exists 0; split; [lra|intros; lia]|]. destruct (R1 (d n) N) as (c & Hc & Hc').
    exists (Rmax b c). split; [eapply Rle_trans; [exact Hb|apply Rmax_l]|]. intros i j Hi Hj. destruct (Nat.eq_dec i n) as [->|E].
    - eapply Rle_trans; [apply Hc', Hj|apply Rmax_r].
    - eapply Rle_trans; [apply H; lia|apply Rmax_l]. }
  destruct (R2 N) as (b & Hb & H). exists b. split; [exact Hb|]. intros; apply H; assumption.
Qed.
Theorem C85_allen_cahn_lin : forall d epsilon m, allen_cahn_lin d epsilon = inr m -> exists kap e1 O1, 0 <= kap /\ 0 < e1 /\
  forall a eps Om, rounds a eps Om -> 0 <= eps <= e1 -> O1 <= Om -> mle (m_rows m) (mdiff (allen_cahn_mat_fl a d epsilon) (mat_of m)) (kap * eps).
Proof.
  intros d epsilon m Em. unfold allen_cahn_lin in Em. destruct (Nat.eqb_spec (m_cols d) (m_rows d)) as [Hsq|]; [|discriminate]. injection Em as Em.
  set (N := m_cols d) in *. destruct (mat_bound (m_at d) N) as (b & Pb & Hb). destruct (am_pos N b epsilon Pb) as (_ & _ & _ & P4). assert (PN := pos_INR N).
  assert (P8 : 0 < / (8 * INR N + 1)) by (apply Rinv_0_lt_compat; lra).
  exists (am_A3 N b epsilon), (/ (8 * INR N + 1)), (am_Om N b epsilon). split; [exact P4|]. split; [exact P8|].
  intros a eps Om HR He HO i j Hi Hj. unfold mdiff, mat_of. rewrite <- Em in *. cbn [inner_mat mplus Models.mtimes mmul m_rows m_cols] in Hi, Hj.
  assert (E1 : eps <= 1). { eapply Rle_trans; [apply He|]. rewrite <- Rinv_1. apply Rinv_le_contravar; lra. }
  assert (E8 : INR N * eps <= / 8).
  { apply Rle_trans with (INR N * / (8 * INR N + 1)); [apply Rmult_le_compat_l; [exact PN|apply He]|]. apply Rmult_le_reg_r with (8 * INR N + 1); [lra|]. rewrite Rmult_assoc, Rinv_l by lra. lra. }
  cbn [mmul m_rows m_cols]. rewrite <- Hsq. fold N.
  apply (allen_cahn_mat_entry N b epsilon Pb a eps Om d i j HR ltac:(lra) E8 HO eq_refl Hb); lia.
Qed.

(** ** Runs *)
(** The problem given to the solver uses the computed function of the equation. *)
Definition uses_fl (e : eqn) (kf eps Om : R) {a W} (p : problem (Gops a) W) : Prop :=
  exists g, computed a kf eps Om e g /\ forall v w y w', p_nl p v w = (inr y, w') -> y = of_list (g (@tab C (eq_size e) v)).
(** What is claimed of runs in binary64 (claims of [PropsRounding64.v]) with a 1-D operator near [lin]: order four (IF45DP: five), up to the accumulated rounding
    errors and, for ETD, the error of the contour sums. *)
Definition if_1d (e : eqn) (lin : cvec) (t0 t1 : R) (u : R -> cvec) (kf : R) : Prop :=
  exists C h0 r0 e0 O0, 0 <= C /\ 0 < h0 /\ 0 < r0 /\ 0 < e0 /\
    forall a eps Om, rounds a eps Om -> scalars64 a -> 0 <= eps <= e0 -> O0 <= Om ->
    forall W (p : problem (Gops a) W), cfg64 (p_cfg p) -> uses_fl e kf eps Om p -> vle (eq_size e) (csub (p_vec p) lin) (kf * eps) ->
      cs_claim64 (eq_size e) t0 t1 u 4 C h0 r0 p IF4d 0 eps /\ as_claim64 (eq_size e) t0 t1 u 4 C h0 r0 p IF34d 0 eps.
Definition dp_1d (e : eqn) (lin : cvec) (t0 t1 : R) (u : R -> cvec) (kf : R) : Prop :=
  exists C B h0 r0 e0 O0, 0 <= C /\ 0 <= B /\ 0 < h0 /\ 0 < r0 /\ 0 < e0 /\
    forall a eps Om, rounds a eps Om -> scalars64 a -> 0 <= eps <= e0 -> O0 <= Om ->
    forall W (p : problem (Gops a) W), cfg64 (p_cfg p) -> uses_fl e kf eps Om p -> vle (eq_size e) (csub (p_vec p) lin) (kf * eps) ->
      as_claim64 (eq_size e) t0 t1 u 5 C h0 r0 p IF45DPd 0 (B * eps).
Definition etd_1d (e : eqn) (lin : cvec) (t0 t1 : R) (u : R -> cvec) (kf : R) (kc : cs_kind) (ka : as_kind) (c : R) : Prop :=
  exists C r0, 0 <= C /\ 0 < r0 /\ forall cfg : etdcfg Bops, contour_ok (low_cfg cfg) -> cfg64 cfg ->
  exists B h0 e0 O0, 0 <= B /\ 0 < h0 /\ 0 < e0 /\
    forall a eps Om, rounds a eps Om -> scalars64 a -> 0 <= eps <= e0 -> O0 <= Om ->
    forall W (p : problem (Gops a) W), p_cfg p = cfg -> uses_fl e kf eps Om p -> vle (eq_size e) (csub (p_vec p) lin) (kf * eps) ->
      cs_claim64 (eq_size e) t0 t1 u 4 C h0 r0 p kc (c * quad_error (low_cfg cfg)) (B * eps) /\
      as_claim64 (eq_size e) t0 t1 u 4 C h0 r0 p ka (c * quad_error (low_cfg cfg)) (B * eps).
(** Matrices: [p_expm] and [p_inv] are computed with errors of [kf eps] in the sense of C80 and C81. *)
Definition if_2d (e : eqn) (L : cmat) (t0 t1 : R) (u : R -> cvec) (kf : R) : Prop :=
  exists C h0 r0 e0 O0, 0 <= C /\ 0 < h0 /\ 0 < r0 /\ 0 < e0 /\
    forall a eps Om, rounds a eps Om -> scalars64 a -> 0 <= eps <= e0 -> O0 <= Om ->
    forall W (p : problem (Gops a) W), cfg64 (p_cfg p) -> p_size p = eq_size e -> uses_fl e kf eps Om p ->
      mle (eq_size e) (mdiff (p_mat p) L) (kf * eps) -> expm_near (eq_size e) kf eps (p_expm p) ->
      cs_claim64 (eq_size e) t0 t1 u 4 C h0 r0 p IF4n 0 eps /\ as_claim64 (eq_size e) t0 t1 u 4 C h0 r0 p IF34n 0 eps.
Definition etd_2d (e : eqn) (L : cmat) (t0 t1 : R) (u : R -> cvec) (kf : R) (kc : cs_kind) (ka : as_kind) (c : R) : Prop :=
  exists C r0, 0 <= C /\ 0 < r0 /\
  forall (cfg : etdcfg Bops) x, cfg64 cfg -> 0 < contour_radius (low_cfg cfg) -> (0 < contour_points cfg)%nat -> 0 < x <= contour_radius (low_cfg cfg) / 2 ->
  exists B h0 e0 O0, 0 <= B /\ 0 < h0 /\ 0 < e0 /\
    forall a eps Om, rounds a eps Om -> scalars64 a -> 0 <= eps <= e0 -> O0 <= Om ->
    forall W (p : problem (Gops a) W), p_cfg p = cfg -> p_size p = eq_size e -> uses_fl e kf eps Om p ->
      mle (eq_size e) (mdiff (p_mat p) L) (kf * eps) -> expm_near (eq_size e) kf eps (p_expm p) -> inv_near (eq_size e) kf eps Om (p_inv p) ->
      cs_claim64 (eq_size e) t0 t1 u 4 C h0 r0 p kc (c * merr (low_cfg cfg) x) (B * eps) /\
      as_claim64 (eq_size e) t0 t1 u 4 C h0 r0 p ka (c * merr (low_cfg cfg) x) (B * eps).
(** Eigenbasis: [L = S diag(lam) T], with computed eigenvectors and eigenvalues. *)
Definition eig_2d (e : eqn) (L : cmat) (t0 t1 : R) (u : R -> cvec) (kf : R) (ka : as_kind) (good : etdcfg Rops -> Prop) (er : etdcfg Rops -> R -> R -> R) : Prop :=
  exists C r0, 0 <= C /\ 0 < r0 /\
  forall S T lam (cfg : etdcfg Bops) s t, spectral (eq_size e) L S T lam -> good (low_cfg cfg) -> cfg64 cfg ->
    (forall i, (i < eq_size e)%nat -> rown (eq_size e) S i <= s) -> (forall i, (i < eq_size e)%nat -> rown (eq_size e) T i <= t) -> 0 <= s -> 0 <= t ->
  exists B h0 e0 O0, 0 <= B /\ 0 < h0 /\ 0 < e0 /\
    forall a eps Om, rounds a eps Om -> scalars64 a -> 0 <= eps <= e0 -> O0 <= Om ->
    forall W (p : problem (Gops a) W), p_cfg p = cfg -> p_size p = eq_size e -> uses_fl e kf eps Om p ->
      mle (eq_size e) (mdiff (p_S p) S) (kf * eps) -> mle (eq_size e) (mdiff (p_Sinv p) T) (kf * eps) -> vle (eq_size e) (csub (p_eigs p) lam) (kf * eps) ->
      as_claim64 (eq_size e) t0 t1 u 4 C h0 r0 p ka (er (low_cfg cfg) s t) (B * eps).

Lemma vle_kap n v k k' eps : k <= k' -> 0 <= eps -> vle n v (k * eps) -> vle n v (k' * eps).
Proof. intros H He G i Hi. eapply Rle_trans; [apply (G i Hi)|]. apply Rmult_le_compat_r; assumption. Qed.
Lemma mle_kap n v k k' eps : k <= k' -> 0 <= eps -> mle n v (k * eps) -> mle n v (k' * eps).
Proof. intros H He G i j Hi Hj. eapply Rle_trans; [apply (G i j Hi Hj)|]. apply Rmult_le_compat_r; assumption. Qed.
Lemma expm_kap n f k k' eps : k <= k' -> 0 <= eps -> expm_near n k eps f -> expm_near n k' eps f.
Proof. intros H He G M E E' H1 H2 H3. exact (mle_kap n _ k k' eps H He (G M E E' H1 H2 H3)). Qed.
Lemma inv_kap n f k k' eps Om : k <= k' -> 0 <= eps -> inv_near n k eps Om f -> inv_near n k' eps Om f.
Proof.
  intros H He G M Q Q' x y H1 H2 H3 H4 H5 H6 H7 H8. assert (K : k * eps <= k' * eps) by (apply Rmult_le_compat_r; assumption). assert (XY : 0 <= x * y) by (apply Rmult_le_pos; lra).
  assert (K1 : k * eps * (x * y) <= k' * eps * (x * y)) by (apply Rmult_le_compat_r; lra).
  assert (Z := G M Q Q' x y H1 H2 H3 H4 H5 ltac:(lra) H7 H8). intros i j Hi Hj. eapply Rle_trans; [apply (Z i j Hi Hj)|]. apply Rmult_le_compat_r; [|exact K]. apply Rmult_le_pos; lra.
Qed.
(** Along a solution, the computed function satisfies the hypothesis of C78 to C82. *)
Lemma uses_near e t0 t1 u N rho K kf : eq_ok e -> 0 <= kf -> 0 <= rho -> 0 <= K -> (forall v, applied (eq_fun e) (eq_size e) v = inr (N v)) -> (forall t, t0 <= t <= t1 -> vle (eq_size e) (u t) K) ->
  exists kap O1, kf <= kap /\ forall a eps Om W (p : problem (Gops a) W), rounds a eps Om -> 0 <= eps <= 1 -> O1 <= Om -> uses_fl e kf eps Om p ->
    exists Nf, (forall v w y w', p_nl p v w = (inr y, w') -> y = Nf v) /\ computes_near (eq_size e) u N t0 t1 rho kap eps Nf.
Proof.
  intros Hok Hkf Hrho HK HN Hu. destruct (C85_nonlinear e (K + rho) kf Hok ltac:(lra) Hkf) as (k1 & O1 & P1 & H). exists (Rmax kf k1), O1. split; [apply Rmax_l|].
  intros a eps Om W p HR He HO (g & Hg & Hp). exists (fun v => of_list (g (@tab C (eq_size e) v))). split; [exact Hp|].
  intros t w Ht Hw. apply (vle_kap _ _ k1); [apply Rmax_r|lra|].
  assert (Hv : vle (eq_size e) w (K + rho)) by (intros i Hi; apply (Cmod_le_diff (w i) (u t i)); [apply (Hu t Ht i Hi)|apply (Hw i Hi)]).
  destruct (H a eps Om g HR He HO Hg w Hv) as (r & Er & Hr). intros i Hi. unfold csub. assert (X := HN w). unfold applied in X. rewrite Er in X. injection X as <-.
  apply (Hr i Hi).
Qed.

Theorem C85_runs : forall e lin t0 t1 u kf, eq_ok e -> t0 < t1 -> 0 <= kf -> solves (eq_size e) (diag_of lin) (eq_fun e) t0 t1 u ->
  if_1d e (of_list lin) t0 t1 u kf /\ dp_1d e (of_list lin) t0 t1 u kf /\ etd_1d e (of_list lin) t0 t1 u kf ETD4d ETD34d 8 /\ etd_1d e (of_list lin) t0 t1 u kf ETD5d ETD35d 12.
Proof.
  intros e lin t0 t1 u kf Hok Ht Hkf Hu.
  destruct (C83_smooth _ _ (diag_of lin) t0 t1 u 5 (eq_model e Hok) Ht Hu) as (N & rho & K & g & J & J1 & HN & HS5 & HJ). rewrite diag_of_dmat in HS5.
  assert (HS := smooth_weak _ 5 4 _ _ _ _ _ _ _ _ _ ltac:(lia) HS5).
  assert (Prho := so_rho _ _ _ _ _ _ _ _ _ _ _ HS). assert (PK := so_K _ _ _ _ _ _ _ _ _ _ _ HS).
  destruct (uses_near e t0 t1 u N rho K kf Hok Hkf ltac:(lra) PK HN (so_u _ _ _ _ _ _ _ _ _ _ _ HS)) as (kap & O1 & Hk & Hn).
  assert (Pk : 0 <= kap) by lra.
  assert (Etd : forall kc ka c, both_claim64 (eq_size e) (of_list lin) N t0 t1 rho u kap 4 kc ka (fun cfg => c * quad_error cfg) -> etd_1d e (of_list lin) t0 t1 u kf kc ka c).
  { intros kc ka c (C & r0 & H1 & H2 & H3). exists C, r0. split; [exact H1|]. split; [exact H2|]. intros cfg Hc H64.
    destruct (H3 cfg Hc H64) as (B & h0 & e0 & O0 & B1 & B2 & B3 & B4). exists B, h0, (Rmin e0 1), (Rmax O0 O1).
    split; [exact B1|]. split; [exact B2|]. split; [apply Rmin_glb_lt; lra|]. intros a eps Om HR Ha He HO W p Hp Hf HL.
    assert (M1 := Rmin_l e0 1). assert (M2 := Rmin_r e0 1). assert (M3 := Rmax_l O0 O1). assert (M4 := Rmax_r O0 O1).
    destruct (Hn a eps Om W p HR ltac:(lra) ltac:(lra) Hf) as (Nf & X1 & X2).
    apply (B4 a eps Om HR Ha ltac:(lra) ltac:(lra) W p Nf Hp X1 X2). apply (vle_kap _ _ kf); [exact Hk|lra|exact HL]. }
  split; [|split; [|split]].
  - destruct (C82_if4_if34 _ _ _ _ _ _ _ _ _ _ HS kap Pk) as (C & h0 & r0 & e0 & O0 & H1 & H2 & H3 & H4 & H5).
    exists C, h0, r0, (Rmin e0 1), (Rmax O0 O1). split; [exact H1|]. split; [exact H2|]. split; [exact H3|]. split; [apply Rmin_glb_lt; lra|].
    intros a eps Om HR Ha He HO W p Hc Hf HL.
    assert (M1 := Rmin_l e0 1). assert (M2 := Rmin_r e0 1). assert (M3 := Rmax_l O0 O1). assert (M4 := Rmax_r O0 O1).
    destruct (Hn a eps Om W p HR ltac:(lra) ltac:(lra) Hf) as (Nf & X1 & X2).
    apply (H5 a eps Om HR Ha ltac:(lra) ltac:(lra) W p Nf Hc X1 X2). apply (vle_kap _ _ kf); [exact Hk|lra|exact HL].
  - destruct (C82_if45dp _ _ _ _ _ _ _ _ _ _ _ HS5 HJ kap Pk) as (C & B & h0 & r0 & e0 & O0 & H1 & H1b & H2 & H3 & H4 & H5).
    exists C, B, h0, r0, (Rmin e0 1), (Rmax O0 O1). split; [exact H1|]. split; [exact H1b|]. split; [exact H2|]. split; [exact H3|]. split; [apply Rmin_glb_lt; lra|].
    intros a eps Om HR Ha He HO W p Hc Hf HL.
    assert (M1 := Rmin_l e0 1). assert (M2 := Rmin_r e0 1). assert (M3 := Rmax_l O0 O1). assert (M4 := Rmax_r O0 O1).
    destruct (Hn a eps Om W p HR ltac:(lra) ltac:(lra) Hf) as (Nf & X1 & X2).
    apply (H5 a eps Om HR Ha ltac:(lra) ltac:(lra) W p Nf Hc X1 X2). apply (vle_kap _ _ kf); [exact Hk|lra|exact HL].
  - apply Etd. exact (C82_etd4_etd34 _ _ _ _ _ _ _ _ _ _ HS kap Pk).
  - apply Etd. exact (C82_etd5_etd35 _ _ _ _ _ _ _ _ _ _ _ HS HJ kap Pk).
Qed.

Theorem C85_runs_matrix : forall e L t0 t1 u kf, eq_ok e -> t0 < t1 -> 0 <= kf -> solves (eq_size e) L (eq_fun e) t0 t1 u ->
  if_2d e L t0 t1 u kf /\ etd_2d e L t0 t1 u kf ETD4n ETD34n 8 /\ etd_2d e L t0 t1 u kf ETD5n ETD35n 12 /\
  eig_2d e L t0 t1 u kf IF34z (fun _ => True) (fun _ _ _ => 0) /\
  eig_2d e L t0 t1 u kf ETD34z contour_ok (fun cfg s t => 8 * (s * (quad_error cfg * t))) /\
  eig_2d e L t0 t1 u kf ETD35z contour_ok (fun cfg s t => 12 * (s * (quad_error cfg * t))).
Proof.
  intros e L t0 t1 u kf Hok Ht Hkf Hu.
  destruct (C83_smooth _ _ L t0 t1 u 4 (eq_model e Hok) Ht Hu) as (N & rho & K & g & J & J1 & HN & HS & HJ).
  assert (Prho := so_rho _ _ _ _ _ _ _ _ _ _ _ HS). assert (PK := so_K _ _ _ _ _ _ _ _ _ _ _ HS).
  destruct (uses_near e t0 t1 u N rho K kf Hok Hkf ltac:(lra) PK HN (so_u _ _ _ _ _ _ _ _ _ _ _ HS)) as (kap & O1 & Hk & Hn).
  assert (Pk : 0 <= kap) by lra.
  assert (Etd : forall kc ka c, full_claim64 (eq_size e) L N t0 t1 rho u kap 4 kc ka c -> etd_2d e L t0 t1 u kf kc ka c).
  { intros kc ka c (C & r0 & H1 & H2 & H3). exists C, r0. split; [exact H1|]. split; [exact H2|]. intros cfg x Hc G1 G2 G3.
    destruct (H3 cfg x Hc G1 G2 G3) as (B & h0 & e0 & O0 & B1 & B2 & B3 & B4). exists B, h0, (Rmin e0 1), (Rmax O0 O1).
    split; [exact B1|]. split; [exact B2|]. split; [apply Rmin_glb_lt; lra|]. intros a eps Om HR Ha He HO W p Hp Hsz Hf HL HE HI.
    assert (M1 := Rmin_l e0 1). assert (M2 := Rmin_r e0 1). assert (M3 := Rmax_l O0 O1). assert (M4 := Rmax_r O0 O1).
    destruct (Hn a eps Om W p HR ltac:(lra) ltac:(lra) Hf) as (Nf & X1 & X2).
    apply (B4 a eps Om HR Ha ltac:(lra) ltac:(lra) W p Nf Hp Hsz X1 X2).
    - apply (mle_kap _ _ kf); [exact Hk|lra|exact HL].
    - apply (expm_kap _ _ kf); [exact Hk|lra|exact HE].
    - apply (inv_kap _ _ kf); [exact Hk|lra|exact HI]. }
  assert (Eig : forall ka good er, eig_claim64 (eq_size e) L N t0 t1 rho u kap 4 ka good er -> eig_2d e L t0 t1 u kf ka good er).
  { intros ka good er (C & r0 & H1 & H2 & H3). exists C, r0. split; [exact H1|]. split; [exact H2|]. intros S T lam cfg s t G1 G2 G3 G4 G5 G6 G7.
    destruct (H3 S T lam cfg s t G1 G2 G3 G4 G5 G6 G7) as (B & h0 & e0 & O0 & B1 & B2 & B3 & B4). exists B, h0, (Rmin e0 1), (Rmax O0 O1).
    split; [exact B1|]. split; [exact B2|]. split; [apply Rmin_glb_lt; lra|]. intros a eps Om HR Ha He HO W p Hp Hsz Hf HL HE HI.
    assert (M1 := Rmin_l e0 1). assert (M2 := Rmin_r e0 1). assert (M3 := Rmax_l O0 O1). assert (M4 := Rmax_r O0 O1).
    destruct (Hn a eps Om W p HR ltac:(lra) ltac:(lra) Hf) as (Nf & X1 & X2).
    apply (B4 a eps Om HR Ha ltac:(lra) ltac:(lra) W p Nf Hp Hsz X1 X2).
    - apply (mle_kap _ _ kf); [exact Hk|lra|exact HL].
    - apply (mle_kap _ _ kf); [exact Hk|lra|exact HE].
    - apply (vle_kap _ _ kf); [exact Hk|lra|exact HI]. }
  split; [|split; [|split; [|split; [|split]]]].
  - destruct (C82_if4_if34_matrix _ _ _ _ _ _ _ _ _ _ HS kap Pk) as (C & h0 & r0 & e0 & O0 & H1 & H2 & H3 & H4 & H5).
    exists C, h0, r0, (Rmin e0 1), (Rmax O0 O1). split; [exact H1|]. split; [exact H2|]. split; [exact H3|]. split; [apply Rmin_glb_lt; lra|].
    intros a eps Om HR Ha He HO W p Hc Hsz Hf HL HE.
    assert (M1 := Rmin_l e0 1). assert (M2 := Rmin_r e0 1). assert (M3 := Rmax_l O0 O1). assert (M4 := Rmax_r O0 O1).
    destruct (Hn a eps Om W p HR ltac:(lra) ltac:(lra) Hf) as (Nf & X1 & X2).
    apply (H5 a eps Om HR Ha ltac:(lra) ltac:(lra) W p Nf Hc Hsz X1 X2).
    + apply (mle_kap _ _ kf); [exact Hk|lra|exact HL].
    + apply (expm_kap _ _ kf); [exact Hk|lra|exact HE].
  - apply Etd. exact (C82_etd4_etd34_matrix _ _ _ _ _ _ _ _ _ _ HS kap Pk).
  - apply Etd. exact (C82_etd5_etd35_matrix _ _ _ _ _ _ _ _ _ _ _ HS HJ kap Pk).
  - apply Eig. exact (C82_if34_eigenbasis _ _ _ _ _ _ _ _ _ _ HS kap Pk).
  - apply Eig. exact (C82_etd34_eigenbasis _ _ _ _ _ _ _ _ _ _ HS kap Pk).
  - apply Eig. exact (C82_etd35_eigenbasis _ _ _ _ _ _ _ _ _ _ _ HS HJ kap Pk).
Qed.

(** ** The operators of models.py together *)
Lemma computed_kap a k k' eps Om e g : k <= k' -> 0 <= eps -> computed a k eps Om e g -> computed a k' eps Om e g.
Proof.
  intros H He. assert (K : k * eps <= k' * eps) by (apply Rmult_le_compat_r; assumption).
  assert (HF : forall m F, rfft_near m k eps Om F -> rfft_near m k' eps Om F).
  { intros m F G x B H1 H2 H3 H4 i Hi. eapply Rle_trans; [apply (G x B H1 H2 H3 H4 i Hi)|]. apply Rmult_le_compat_r; lra. }
  assert (HG : forall m F, irfft_near m k eps Om F -> irfft_near m k' eps Om F).
  { intros m F G x B H1 H2 H3 H4 i Hi. eapply Rle_trans; [apply (G x B H1 H2 H3 H4 i Hi)|]. apply Rmult_le_compat_r; lra. }
  destruct e; cbn [computed].
  - intros (F & G & H1 & H2 & ->). exists F, G. split; [exact (HF _ _ H1)|]. split; [exact (HG _ _ H2)|reflexivity].
  - intros (F & G & H1 & H2 & ->). exists F, G. split; [exact (HF _ _ H1)|]. split; [exact (HG _ _ H2)|reflexivity].
  - intros (P & H1 & ->). exists P. split; [|reflexivity]. intros z Hz. eapply Rle_trans; [apply (H1 z Hz)|]. apply Rmult_le_compat_r; [|exact K].
    assert (0 <= Cmod z ^ 3) by (apply pow_le, Cmod_ge_0). lra.
Qed.
Lemma uses_kap e k k' eps Om a W (p : problem (Gops a) W) : k <= k' -> 0 <= eps -> uses_fl e k eps Om p -> uses_fl e k' eps Om p.
Proof. intros H He (g & Hg & Hp). exists g. split; [exact (computed_kap a k k' eps Om e g H He Hg)|exact Hp]. Qed.
(** Both results of [kdv_ops] computed, used for a run. *)
Definition kdv_run (kx : list R) (kf eps Om : R) {a W} (p : problem (Gops a) W) : Prop :=
  uses_fl (Kdv kx) kf eps Om p /\ exists P, rpow_near kf eps Om P /\ p_vec p = of_list (kdv_lin_fl a P kx).
Definition burgers_run (kx : list R) (mu kf eps Om : R) {a W} (p : problem (Gops a) W) : Prop :=
  uses_fl (Burgers kx) kf eps Om p /\ exists P, rpow_near kf eps Om P /\ p_vec p = of_list (burgers_lin_fl a P kx mu).
Definition allen_cahn_run (x : list R) (d : marr) (epsilon kf eps Om : R) {a W} (p : problem (Gops a) W) : Prop :=
  uses_fl (AllenCahn x) kf eps Om p /\ p_size p = length (inner x) /\ p_mat p = allen_cahn_mat_fl a d epsilon.
(** From every initial array there is exactly one solution (C83); with errors of size [kf eps] in the transforms and powers of numpy,
    the runs in binary64 with the computed operators stay near it, as C82 says. *)
Theorem C85_kdv (kx : list R) (t0 : R) (v : cvec) : (2 <= length kx)%nat ->
  exists t1 u, t0 < t1 /\ (forall i, (i < length kx)%nat -> u t0 i = v i) /\ solves (length kx) (diag_of (kdv_lin kx)) (kdv_nl kx) t0 t1 u /\
  forall kf, 0 <= kf -> exists k2 O2, let e := Kdv kx in let lin := of_list (kdv_lin kx) in
    (if_1d e lin t0 t1 u k2 /\ dp_1d e lin t0 t1 u k2 /\ etd_1d e lin t0 t1 u k2 ETD4d ETD34d 8 /\ etd_1d e lin t0 t1 u k2 ETD5d ETD35d 12) /\
    forall a eps Om W (p : problem (Gops a) W), rounds a eps Om -> 0 <= eps <= 1 -> O2 <= Om -> kdv_run kx kf eps Om p ->
      uses_fl e k2 eps Om p /\ vle (eq_size e) (csub (p_vec p) lin) (k2 * eps).
Proof.
  intros H. destruct (C83_existence _ _ (diag_of (kdv_lin kx)) (Mkdv kx H) t0 v) as (t1 & u & Ht & H0 & Hu). exists t1, u.
  split; [exact Ht|]. split; [exact H0|]. split; [exact Hu|]. intros kf Hkf. destruct (C85_kdv_lin kx kf Hkf) as (k1 & O1 & P1 & Hl).
  assert (M1 := Rmax_l kf k1). assert (M2 := Rmax_r kf k1). assert (Pm2 : 0 <= Rmax kf k1) by lra. exists (Rmax kf k1), O1. cbv zeta. split; [exact (C85_runs (Kdv kx) _ t0 t1 u _ H Ht Pm2 Hu)|].
  intros a eps Om W p HR He HO (Hp & P & HP & EL). split; [exact (uses_kap _ kf _ eps Om a W p M1 (proj1 He) Hp)|].
  rewrite EL. apply (vle_kap _ _ k1); [exact M2|lra|]. exact (Hl a eps Om P HR He HO HP).
Qed.
Theorem C85_burgers (kx : list R) (mu t0 : R) (v : cvec) : (2 <= length kx)%nat ->
  exists t1 u, t0 < t1 /\ (forall i, (i < length kx)%nat -> u t0 i = v i) /\ solves (length kx) (diag_of (burgers_lin kx mu)) (burgers_nl kx) t0 t1 u /\
  forall kf, 0 <= kf -> exists k2 O2, let e := Burgers kx in let lin := of_list (burgers_lin kx mu) in
    (if_1d e lin t0 t1 u k2 /\ dp_1d e lin t0 t1 u k2 /\ etd_1d e lin t0 t1 u k2 ETD4d ETD34d 8 /\ etd_1d e lin t0 t1 u k2 ETD5d ETD35d 12) /\
    forall a eps Om W (p : problem (Gops a) W), rounds a eps Om -> 0 <= eps <= 1 -> O2 <= Om -> burgers_run kx mu kf eps Om p ->
      uses_fl e k2 eps Om p /\ vle (eq_size e) (csub (p_vec p) lin) (k2 * eps).
Proof.
  intros H. destruct (C83_existence _ _ (diag_of (burgers_lin kx mu)) (Mburgers kx H) t0 v) as (t1 & u & Ht & H0 & Hu). exists t1, u.
  split; [exact Ht|]. split; [exact H0|]. split; [exact Hu|]. intros kf Hkf. destruct (C85_burgers_lin kx mu kf Hkf) as (k1 & O1 & P1 & Hl).
  assert (M1 := Rmax_l kf k1). assert (M2 := Rmax_r kf k1). assert (Pm2 : 0 <= Rmax kf k1) by lra. exists (Rmax kf k1), O1. cbv zeta. split; [exact (C85_runs (Burgers kx) _ t0 t1 u _ H Ht Pm2 Hu)|].
  intros a eps Om W p HR He HO (Hp & P & HP & EL). split; [exact (uses_kap _ kf _ eps Om a W p M1 (proj1 He) Hp)|].
  rewrite EL. apply (vle_kap _ _ k1); [exact M2|lra|]. exact (Hl a eps Om P HR He HO HP).
Qed.
Theorem C85_allen_cahn (x : list R) (d m : marr) (epsilon t0 : R) (v : cvec) : allen_cahn_lin d epsilon = inr m -> m_rows d = length x ->
  exists t1 u, t0 < t1 /\ (forall i, (i < length (inner x))%nat -> u t0 i = v i) /\ solves (length (inner x)) (mat_of m) (allen_cahn_nl x) t0 t1 u /\
  forall kf, 0 <= kf -> exists k2 e2 O2, let e := AllenCahn x in let L := mat_of m in 0 < e2 /\
    (if_2d e L t0 t1 u k2 /\ etd_2d e L t0 t1 u k2 ETD4n ETD34n 8 /\ etd_2d e L t0 t1 u k2 ETD5n ETD35n 12 /\
     eig_2d e L t0 t1 u k2 IF34z (fun _ => True) (fun _ _ _ => 0) /\
     eig_2d e L t0 t1 u k2 ETD34z contour_ok (fun cfg s t => 8 * (s * (quad_error cfg * t))) /\
     eig_2d e L t0 t1 u k2 ETD35z contour_ok (fun cfg s t => 12 * (s * (quad_error cfg * t)))) /\
    forall a eps Om W (p : problem (Gops a) W), rounds a eps Om -> 0 <= eps <= e2 -> O2 <= Om -> allen_cahn_run x d epsilon kf eps Om p ->
      uses_fl e k2 eps Om p /\ p_size p = eq_size e /\ mle (eq_size e) (mdiff (p_mat p) L) (k2 * eps).
Proof.
  intros Em Hd. destruct (C83_allen_cahn x d m epsilon t0 v Em Hd) as (Er & _ & t1 & u & Ht & H0 & Hu & _). exists t1, u.
  split; [exact Ht|]. split; [exact H0|]. split; [exact Hu|]. intros kf Hkf. destruct (C85_allen_cahn_lin d epsilon m Em) as (k1 & e1 & O1 & P1 & P2 & Hl).
  assert (M1 := Rmax_l kf k1). assert (M2 := Rmax_r kf k1). assert (Pm2 : 0 <= Rmax kf k1) by lra. exists (Rmax kf k1), (Rmin e1 1), O1. cbv zeta. split; [apply Rmin_glb_lt; lra|].
  split; [exact (C85_runs_matrix (AllenCahn x) _ t0 t1 u _ I Ht Pm2 Hu)|].
  assert (M3 := Rmin_l e1 1). intros a eps Om W p HR He HO (Hp & Hsz & EL). split; [exact (uses_kap _ kf _ eps Om a W p M1 (proj1 He) Hp)|]. split; [exact Hsz|].
  rewrite EL. apply (mle_kap _ _ k1); [exact M2|lra|]. cbn [eq_size]. rewrite <- Er. exact (Hl a eps Om HR ltac:(lra) HO).
Qed.

(** ** The hypotheses on the transforms and powers can be met *)
(** Transforms evaluated as sums in the rounded arithmetic, with computed roots of unity; cubes as products. *)
Theorem C85_transforms_as_sums : forall m kw eps Om a Wf Wb, (0 < m)%nat -> 0 <= kw -> rounds a eps Om -> 0 <= eps <= 1 -> INR m * eps <= / 8 -> kw * eps <= 1 ->
  roots_near m kw eps Wf Wb ->
  rfft_near m (INR m * (1 + 8 * INR m + kw)) eps Om (rfft_sums a Wf) /\ irfft_near m (INR m * (1 + 8 * INR m + kw)) eps Om (irfft_sums a Wb).
Proof. intros. split; [eapply rfft_sums_near|eapply irfft_sums_near]; eassumption. Qed.
Theorem C85_cube_as_products : forall a eps Om, rounds a eps Om -> 0 <= eps <= 1 -> 2 <= Om -> cube_near 6 eps (Om / 8) (fun z => fl_mul a z (fl_mul a z z)).
Proof. exact cube_products. Qed.

(** The Burgers equation with wave numbers 0 and 1 (the solution of [C83_not_vacuous]) in the arithmetic of numpy, transforms by sums
    with exact roots of unity, squares by products. *)
Definition wf2 (k j : nat) : C := Cexp (0, - (2 * PI * INR j * INR k / INR 2))%R.
Definition wb2 (j k : nat) : C := (RtoC (/ INR 2) * Cexp (0, 2 * PI * INR j * INR k / INR 2)%R)%C.
Definition burgers64 : problem (Gops np64) unit :=
  mk_problem (A := Gops np64) (fun (v : cvec) w => (inr (of_list (burgers_nl_fl np64 (rfft_sums np64 wf2) (irfft_sums np64 wb2) two_modes (@tab C 2 v))), w)) 2
    (of_list (burgers_lin_fl np64 (fun k p => k ^ p) two_modes 1)) (fun _ _ => RtoC 0) (mk_etdcfg (F := Bops) (b64_ofZ 1) 32%nat (b64_ofZ 1))
    (fun M => inr M) (fun M => inr M) (fun _ _ => RtoC 1) (fun _ _ => RtoC 1) (fun _ => RtoC 0).
Example C85_not_vacuous : rounds np64 (bpow radix2 (-46)) (bpow radix2 500) /\ scalars64 np64 /\ cfg64 (p_cfg burgers64) /\ contour_ok (low_cfg (p_cfg burgers64)) /\
  burgers_run two_modes 1 34 (bpow radix2 (-46)) (bpow radix2 500) burgers64 /\ solves 2 (diag_of (burgers_lin two_modes 1)) (burgers_nl two_modes) 0 1 decay.
Proof.
  split; [exact np64_rounds|]. split; [exact np64_scalars|]. assert (F1 : B2R (b64_ofZ 1) = 1) by (apply B2R_ofZ; lia).
  split; [|split; [|split; [|apply C83_not_vacuous]]].
  - split; [|split]; [apply B2R_ofZ; lia|apply B2R_ofZ; lia|]. change (contour_points (p_cfg burgers64)) with 32%nat. lia.
  - split; [|cbn [low_cfg contour_points p_cfg burgers64]; lia]. cbn [low_cfg modecutoff contour_radius p_cfg burgers64]. rewrite F1. lra.
  - assert (Pe := bpow_gt_0 radix2 (-46)). assert (P4 : bpow radix2 (-46) <= bpow radix2 (-4)) by (apply bpow_le; lia).
    assert (E4 : bpow radix2 (-4) = / 16) by (cbn; lra). rewrite E4 in P4. split.
    + exists (burgers_nl_fl np64 (rfft_sums np64 wf2) (irfft_sums np64 wb2) two_modes). split.
      * exists (rfft_sums np64 wf2), (irfft_sums np64 wb2).
        destruct (C85_transforms_as_sums 2 0 (bpow radix2 (-46)) (bpow radix2 500) np64 wf2 wb2 ltac:(lia) ltac:(lra) np64_rounds ltac:(lra) ltac:(cbn [INR]; lra) ltac:(lra)) as [H1 H2].
        { intros k j Hk Hj. unfold wf2, wb2. split; match goal with |- Cmod (?z - ?z)%C <= _ => replace (z - z)%C with (RtoC 0) by ring end; rewrite Cmod_0; lra. }
        replace (INR 2 * (1 + 8 * INR 2 + 0)) with 34 in H1, H2 by (cbn [INR]; ring). split; [exact H1|]. split; [exact H2|reflexivity].
      * intros v w y w' E. assert (X := f_equal fst E). cbn [fst p_nl burgers64] in X. injection X as <-. reflexivity.
    + exists (fun k p => k ^ p). split; [|reflexivity]. intros k p _ _ _. replace (k ^ p - k ^ p) with 0 by ring. rewrite Rabs_R0.
      apply Rmult_le_pos; [lra|]. assert (X := Rabs_pos (k ^ p)). lra.
Qed.

Print Assumptions C85_nonlinear.
Print Assumptions C85_kdv_lin.
Print Assumptions C85_burgers_lin.
Print Assumptions C85_allen_cahn_lin.
Print Assumptions C85_runs.
Print Assumptions C85_runs_matrix.
Print Assumptions C85_kdv.
Print Assumptions C85_burgers.
Print Assumptions C85_allen_cahn.
Print Assumptions C85_transforms_as_sums.
Print Assumptions C85_cube_as_products.
