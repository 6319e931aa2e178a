(** * The operators of models.py in rounded arithmetic

    The functions of [Models.v] evaluated with an arithmetic of [Rounding.v], for arrays of matching lengths, and their distance
    from the exact ones. The transforms of numpy, its powers and the scalar products of its matrix product are arguments; their
    errors are bounded by hypotheses. *)

From Coq Require Import ZArith List Bool Reals Lra Lia.
From Coquelicot Require Import Complex.
From Verif Require Import Scalars Arrays CInst SpecRK SchemeIFReal SpecPhi SpecPoly ContourReal ContourMatrix Config Grids Derivatives Fourier PropsGrids PropsDeriv
     Models PropsModels PropsSpectral PropsMean Asym Solution Polynomial ModelPoly Rounding RoundingMat.
Import ListNotations.
Local Open Scope R_scope.

(** ** The transforms of numpy, computed *)
(** [np.fft.rfft] of real arrays of [m] entries: the error is at most [kap eps] times the size of the data; nothing is said of data
    whose transform may overflow. *)
Definition rfft_near (m : nat) (kap eps Om : R) (F : list R -> list C) : Prop :=
  forall x B, length x = m -> 0 <= B -> (forall j, (j < m)%nat -> Rabs (at_ 0 x j) <= B) -> 8 * INR m * (B + 1) <= Om ->
    forall k, (k <= m / 2)%nat -> Cmod (at_ (RtoC 0) (F x) k - at_ (RtoC 0) (rfft x) k)%C <= kap * eps * (1 + B).
(** [np.fft.irfft] giving [m] entries. *)
Definition irfft_near (m : nat) (kap eps Om : R) (G : list C -> nat -> list R) : Prop :=
  forall v B, length v = (m / 2 + 1)%nat -> 0 <= B -> (forall k, (k <= m / 2)%nat -> Cmod (at_ (RtoC 0) v k) <= B) -> 8 * INR m * (B + 1) <= Om ->
    forall j, (j < m)%nat -> Rabs (at_ 0 (G v m) j - at_ 0 (irfft v m) j) <= kap * eps * (1 + B).
(** [k ** p] for real and complex [k]. *)
Definition rpow_near (kap eps Om : R) (P : R -> nat -> R) : Prop :=
  forall k p, (1 <= p <= 3)%nat -> Rabs k <= Om -> Rabs (k ^ p) <= Om -> Rabs (P k p - k ^ p) <= kap * eps * (1 + Rabs (k ^ p)).
Definition cube_near (kap eps Om : R) (P : C -> C) : Prop :=
  forall z, Cmod z + Cmod z ^ 2 + Cmod z ^ 3 <= Om -> Cmod (P z - cpow z 3)%C <= kap * eps * (1 + Cmod z ^ 3).

(** ** The functions *)
(** A product of two real numbers is the real part of their complex product. *)
Definition rmul (a : arith) (x y : R) : R := fst (fl_mul a (RtoC x) (RtoC y)).
(** rkstiff/models.py:141-143 and 190-192, for arrays [kx] and [uf] of the same length: [u = irfft(uf)], [ux = irfft(1j * kx * uf)],
    [s(rfft(u * ux))], where [s] is the multiplication by -6 or the change of sign. [1j * kx] is exact. *)
Definition advection_fl (a : arith) (F : list R -> list C) (G : list C -> nat -> list R) (s : C -> C) (kx : list R) (uf : list C) : list C :=
  let m := (2 * (length uf - 1))%nat in
  let u := G uf m in
  let d := tab (length uf) (fun k => fl_mul a (0, at_ 0 kx k)%R (at_ (RtoC 0) uf k)) in
  let ux := G d m in
  let r := F (tab m (fun j => rmul a (at_ 0 u j) (at_ 0 ux j))) in
  tab (length uf) (fun k => s (at_ (RtoC 0) r k)).
(** rkstiff/models.py:140-143. *)
Definition kdv_nl_fl (a : arith) F G (kx : list R) : list C -> list C := advection_fl a F G (fl_mul a (RtoC (-6))) kx.
(** rkstiff/models.py:189-192. *)
Definition burgers_nl_fl (a : arith) F G (kx : list R) : list C -> list C := advection_fl a F G Copp kx.
(** rkstiff/models.py:243-245, for [u] of the length of [x[1:-1]]; [P] is [np.power(., 3)]. *)
Definition allen_cahn_nl_fl (a : arith) (P : C -> C) (x : list R) (u : list C) : list C :=
  tab (length u) (fun k => fl_sub a (RtoC (at_ 0 (inner x) k)) (P (fl_add a (at_ (RtoC 0) u k) (RtoC (at_ 0 (inner x) k))))).
(** rkstiff/models.py:138: [1j * kx**3]. *)
Definition kdv_lin_fl (a : arith) (P : R -> nat -> R) (kx : list R) : list C := map (fun k => fl_mul a (0, 1)%R (RtoC (P k 3%nat))) kx.
(** rkstiff/models.py:187: [-mu * kx**2]. *)
Definition burgers_lin_fl (a : arith) (P : R -> nat -> R) (kx : list R) (mu : R) : list C := map (fun k => RtoC (rmul a (- mu) (P k 2%nat))) kx.
(** rkstiff/models.py:239-241 for a square array [d]: entries of [d.dot(d)], of [epsilon * d2 + eye], without the first and last row
    and column. *)
Definition allen_cahn_mat_fl (a : arith) (d : marr) (epsilon : R) : cmat := fun i j =>
  let d2 := fst (fl_dot a (m_cols d) (fun i k => RtoC (m_at d i k)) (fun k => RtoC (m_at d k (S j))) (S i)) in
  RtoC (fst (fl_add a (RtoC (rmul a epsilon d2)) (RtoC (if Nat.eqb i j then 1 else 0)))).

(** ** Distances *)
Lemma Re_near (z : C) (x : R) e : Cmod (z - RtoC x)%C <= e -> Cmod (RtoC (fst z) - RtoC x)%C <= e.
Proof.
  intros H. rewrite <- RtoC_minus, Cmod_R. eapply Rle_trans; [|exact H]. replace (fst z - x) with (fst (z - RtoC x)%C) by (cbn; ring). apply parts_Cmod.
Qed.
Lemma fst_sub (a b : C) : Rabs (fst a - fst b) <= Cmod (a - b)%C.
Proof. replace (fst a - fst b) with (fst (a - b)%C) by (cbn; ring). apply parts_Cmod. Qed.
Lemma unit_exp y : Cmod (Cexp (0, y)%R) = 1.
Proof. rewrite Cmod_Cexp. apply exp_0. Qed.
Lemma dft_diff m f g D k : (forall j, (j < m)%nat -> Cmod (f j - g j)%C <= D) -> Cmod (dft m f k - dft m g k)%C <= INR m * D.
Proof.
  intros H. unfold dft. rewrite csum_minus. apply csum_norm_const. intros j Hj.
  match goal with |- Cmod (?x * ?e - ?y * ?e)%C <= _ => replace (x * e - y * e)%C with ((x - y) * e)%C by ring end.
  rewrite Cmod_mult, unit_exp, Rmult_1_r. apply H, Hj.
Qed.
Lemma idft_diff m f g D j : (0 < m)%nat -> (forall k, (k < m)%nat -> Cmod (f k - g k)%C <= D) -> Cmod (idft m f j - idft m g j)%C <= D.
Proof.
  intros Hm H. unfold idft. match goal with |- Cmod (?c * ?x - ?c * ?y)%C <= _ => replace (c * x - c * y)%C with (c * (x - y))%C by ring end.
  rewrite csum_minus, Cmod_mult, Cmod_R. assert (Pm : 0 < INR m) by (apply lt_0_INR; exact Hm). assert (Im := Rinv_0_lt_compat _ Pm).
  rewrite Rabs_pos_eq by lra. apply Rle_trans with (/ INR m * (INR m * D)); [|right; field; lra]. apply Rmult_le_compat_l; [lra|].
  apply csum_norm_const. intros k Hk.
  match goal with |- Cmod (?x * ?e - ?y * ?e)%C <= _ => replace (x * e - y * e)%C with ((x - y) * e)%C by ring end.
  rewrite Cmod_mult, unit_exp, Rmult_1_r. apply H, Hk.
Qed.
Lemma herm_diff m (f g : nat -> C) D : (forall k, (k <= m / 2)%nat -> Cmod (f k - g k)%C <= D) -> forall k, (k < m)%nat -> Cmod (hermitian m f k - hermitian m g k)%C <= D.
Proof.
  intros H k Hk. unfold hermitian.
  destruct (Nat.eqb k 0 || Nat.eqb (2 * k) m) eqn:E1.
  - assert (Hk2 : (k <= m / 2)%nat).
    { apply Nat.div_le_lower_bound; [lia|]. apply Bool.orb_true_iff in E1. destruct E1 as [E|E]; apply Nat.eqb_eq in E; lia. }
    rewrite <- RtoC_minus, Cmod_R. eapply Rle_trans; [apply fst_sub|apply H; exact Hk2].
  - apply Bool.orb_false_iff in E1. destruct E1 as [E1 E2]. apply Nat.eqb_neq in E1. apply Nat.eqb_neq in E2.
    destruct (Nat.ltb_spec (2 * k) m) as [E|E].
    + apply H. apply Nat.div_le_lower_bound; lia.
    + replace (Cconj (f (m - k)%nat) - Cconj (g (m - k)%nat))%C with (Cconj (f (m - k)%nat - g (m - k)%nat)%C) by (apply C_eq; cbn; ring).
      rewrite Cmod_Cconj. apply H. apply Nat.div_le_lower_bound; lia.
Qed.
Lemma irfft_diff m (v w : list C) D : (0 < m)%nat -> (forall k, (k <= m / 2)%nat -> Cmod (at_ (RtoC 0) v k - at_ (RtoC 0) w k)%C <= D) ->
  forall j, (j < m)%nat -> Rabs (at_ 0 (irfft v m) j - at_ 0 (irfft w m) j) <= D.
Proof.
  intros Hm H j Hj. unfold irfft. rewrite !tab_nth by exact Hj. eapply Rle_trans; [apply fst_sub|]. apply idft_diff; [exact Hm|]. apply herm_diff, H.
Qed.
Lemma irfft_bound m (v : list C) B : (0 < m)%nat -> (forall k, (k <= m / 2)%nat -> Cmod (at_ (RtoC 0) v k) <= B) -> forall j, (j < m)%nat -> Rabs (at_ 0 (irfft v m) j) <= B.
Proof.
  intros Hm H j Hj. assert (X := irfft_diff m v nil B Hm). assert (Z : at_ 0 (irfft nil m) j = 0).
  { unfold irfft. rewrite tab_nth by exact Hj. unfold idft. rewrite (csum_ext m _ (fun _ => RtoC 0)).
    - assert (Q : csum m (fun _ => RtoC 0) = RtoC 0) by (clear; induction m as [|m IH]; cbn [csum]; [reflexivity|]; rewrite IH; ring). rewrite Q. cbn. ring.
    - intros k _. unfold hermitian, at_. assert (N0 : forall i, nth i (@nil C) (RtoC 0) = RtoC 0) by (intros [|i]; reflexivity). rewrite !N0.
      destruct (_ || _); [cbn [fst RtoC]; ring|]. destruct (Nat.ltb _ _); [ring|]. unfold Cconj. cbn [fst snd RtoC]. apply C_eq; cbn; ring. }
  replace (at_ 0 (irfft v m) j) with (at_ 0 (irfft v m) j - at_ 0 (irfft nil m) j) by (rewrite Z; ring). apply X; [|exact Hj]. intros k Hk.
  assert (N0 : at_ (RtoC 0) (@nil C) k = RtoC 0) by (destruct k; reflexivity). rewrite N0. unfold Cminus. replace (- RtoC 0)%C with (RtoC 0) by (apply C_eq; cbn; ring).
  rewrite Cplus_0_r. apply H, Hk.
Qed.
Lemma rfft_diff m (x y : list R) D k : length x = m -> length y = m -> (forall j, (j < m)%nat -> Rabs (at_ 0 x j - at_ 0 y j) <= D) -> (k <= m / 2)%nat ->
  Cmod (at_ (RtoC 0) (rfft x) k - at_ (RtoC 0) (rfft y) k)%C <= INR m * D.
Proof.
  intros Hx Hy H Hk. unfold rfft. rewrite Hx, Hy, !tab_nth by lia. apply dft_diff. intros j Hj. rewrite <- RtoC_minus, Cmod_R. apply H, Hj.
Qed.
Lemma rfft_bound m (x : list R) B k : length x = m -> (forall j, (j < m)%nat -> Rabs (at_ 0 x j) <= B) -> (k <= m / 2)%nat -> Cmod (at_ (RtoC 0) (rfft x) k) <= INR m * B.
Proof.
  intros Hx H Hk. unfold rfft. rewrite Hx, !tab_nth by lia. unfold dft. apply csum_norm_const. intros j Hj. rewrite Cmod_mult, unit_exp, Rmult_1_r, Cmod_R. apply H, Hj.
Qed.

(** A number known exactly. *)
Lemma near_exact B eps x : 0 <= eps -> Cmod x <= B -> near B 0 eps x x.
Proof. intros He H. split; [exact H|]. replace (x - x)%C with (RtoC 0) by ring. rewrite Cmod_0. lra. Qed.
Lemma near_Re B A eps (x : R) z : near B A eps (RtoC x) z -> near B A eps (RtoC x) (RtoC (fst z)).
Proof. intros [H1 H2]. split; [exact H1|]. apply Re_near, H2. Qed.

(** ** Nonlinear functions *)
Section Advection.
  Variables (kx : list R) (n : nat) (kb M kf : R).
  Hypothesis Hn : (2 <= n)%nat.
  Hypothesis Hkx : length kx = n.
  Hypothesis Hkb : forall k, Rabs (at_ 0 kx k) <= kb.
  Hypothesis HM : 0 <= M.
  Hypothesis Hkf : 0 <= kf.
  Let m := (2 * (n - 1))%nat.
  Definition av_B1 := kb * M.
  Definition av_A1 := 1 + (kb + 0) * (M + 0) + (0 * (M + 0) + kb * 0).
  Definition av_A0 := kf * (1 + M).
  Definition av_A2 := kf * (1 + (av_B1 + av_A1)) + av_A1.
  Definition av_B3 := M * av_B1.
  Definition av_A3 := 1 + (M + av_A0) * (av_B1 + av_A2) + (av_A0 * (av_B1 + av_A2) + M * av_A2).
  Definition av_B4 := INR m * av_B3.
  Definition av_A4 := kf * (1 + (av_B3 + av_A3)) + INR m * av_A3.
  Definition av_Om := (kb + 0) * (M + 0) + (kb + 0) + (M + 0) + 8 * INR m * (M + 1) + 8 * INR m * (av_B1 + av_A1 + 1) +
    ((M + av_A0) * (av_B1 + av_A2) + (M + av_A0) + (av_B1 + av_A2)) + 8 * INR m * (av_B3 + av_A3 + 1).
  Lemma kb_pos : 0 <= kb.
  Proof. eapply Rle_trans; [apply Rabs_pos|apply (Hkb 0)]. Qed.
  Lemma Pm : 0 < INR m.
  Proof. apply lt_0_INR. unfold m. lia. Qed.
  Lemma av_pos : 0 <= av_B1 /\ 0 <= av_A1 /\ 0 <= av_A0 /\ 0 <= av_A2 /\ 0 <= av_B3 /\ 0 <= av_A3 /\ 0 <= av_B4 /\ 0 <= av_A4.
  Proof.
    assert (K := kb_pos). assert (P := Pm).
    assert (H1 : 0 <= av_B1) by (apply Rmult_le_pos; lra). assert (H2 : 0 <= av_A1) by (unfold av_A1; assert (0 <= kb * M) by (apply Rmult_le_pos; lra); lra).
    assert (H3 : 0 <= av_A0) by (apply Rmult_le_pos; lra). assert (H4 : 0 <= av_A2) by (unfold av_A2; assert (0 <= kf * (1 + (av_B1 + av_A1))) by (apply Rmult_le_pos; lra); lra).
    assert (H5 : 0 <= av_B3) by (apply Rmult_le_pos; lra).
    assert (H6 : 0 <= av_A3).
    { unfold av_A3. assert (0 <= (M + av_A0) * (av_B1 + av_A2)) by (apply Rmult_le_pos; lra). assert (0 <= av_A0 * (av_B1 + av_A2)) by (apply Rmult_le_pos; lra).
      assert (0 <= M * av_A2) by (apply Rmult_le_pos; lra). lra. }
    assert (H7 : 0 <= av_B4) by (apply Rmult_le_pos; lra).
    assert (H8 : 0 <= av_A4) by (unfold av_A4; assert (0 <= kf * (1 + (av_B3 + av_A3))) by (apply Rmult_le_pos; lra); assert (0 <= INR m * av_A3) by (apply Rmult_le_pos; lra); lra).
    tauto.
  Qed.
  Lemma half_m : (m / 2 = n - 1)%nat.
  Proof. unfold m. rewrite Nat.mul_comm, Nat.div_mul by lia. reflexivity. Qed.

  Variables (a : arith) (eps Om : R) (F : list R -> list C) (G : list C -> nat -> list R).
  Hypothesis HR : rounds a eps Om.
  Hypothesis He : 0 <= eps <= 1.
  Hypothesis HO : av_Om <= Om.
  Hypothesis HF : rfft_near m kf eps Om F.
  Hypothesis HG : irfft_near m kf eps Om G.
  Variable v : cvec.
  Hypothesis Hv : vle n v M.
  Let uf := @tab C n v.
  Let d := tab n (fun k => (0, at_ 0 kx k)%R * at_ (RtoC 0) uf k)%C.
  Let d' := tab n (fun k => fl_mul a (0, at_ 0 kx k)%R (at_ (RtoC 0) uf k)).
  Let ux := irfft d m.
  Let u := irfft uf m.
  Lemma Om_parts : (kb + 0) * (M + 0) + (kb + 0) + (M + 0) <= Om /\ 8 * INR m * (M + 1) <= Om /\ 8 * INR m * (av_B1 + av_A1 + 1) <= Om /\
    (M + av_A0) * (av_B1 + av_A2) + (M + av_A0) + (av_B1 + av_A2) <= Om /\ 8 * INR m * (av_B3 + av_A3 + 1) <= Om.
  Proof.
    destruct av_pos as (P1 & P2 & P3 & P4 & P5 & P6 & P7 & P8). assert (K := kb_pos). assert (P := Pm).
    assert (Q1 : 0 <= (kb + 0) * (M + 0)) by (apply Rmult_le_pos; lra). assert (Q2 : 0 <= 8 * INR m * (M + 1)) by (apply Rmult_le_pos; lra).
    assert (Q3 : 0 <= 8 * INR m * (av_B1 + av_A1 + 1)) by (apply Rmult_le_pos; lra). assert (Q4 : 0 <= (M + av_A0) * (av_B1 + av_A2)) by (apply Rmult_le_pos; lra).
    assert (Q5 : 0 <= 8 * INR m * (av_B3 + av_A3 + 1)) by (apply Rmult_le_pos; lra). unfold av_Om in HO. repeat split; lra.
  Qed.
  Lemma uf_at k : (k < n)%nat -> at_ (RtoC 0) uf k = v k.
  Proof. intros H. unfold uf. now rewrite tab_nth. Qed.
  Lemma adv_u j : (j < m)%nat -> near M av_A0 eps (RtoC (at_ 0 u j)) (RtoC (at_ 0 (G uf m) j)).
  Proof.
    intros Hj. assert (Hb : forall k, (k <= m / 2)%nat -> Cmod (at_ (RtoC 0) uf k) <= M) by (intros k Hk; rewrite half_m in Hk; rewrite uf_at by lia; apply Hv; lia).
    destruct Om_parts as (_ & O2 & _). split.
    - rewrite Cmod_R. apply irfft_bound; [unfold m in *; lia|exact Hb|exact Hj].
    - rewrite <- RtoC_minus, Cmod_R. replace (av_A0 * eps) with (kf * eps * (1 + M)) by (unfold av_A0; ring).
      apply HG; [unfold uf; rewrite tab_len, half_m; lia|exact HM|exact Hb|exact O2|exact Hj].
  Qed.
  Lemma Cmod_i x : Cmod (0, x)%R = Rabs x.
  Proof. unfold Cmod. cbn [fst snd]. rewrite <- sqrt_Rsqr_abs. f_equal. unfold Rsqr. ring. Qed.
  Lemma adv_d k : (k < n)%nat -> near av_B1 av_A1 eps (at_ (RtoC 0) d k) (at_ (RtoC 0) d' k).
  Proof.
    intros Hk. unfold d, d'. rewrite !tab_nth by exact Hk. destruct Om_parts as (O1 & _). unfold av_B1, av_A1.
    apply near_mul with (Om := Om); [exact HR|exact He|apply kb_pos|lra|exact HM|lra| | |exact O1].
    - apply near_exact; [lra|]. rewrite Cmod_i. apply Hkb.
    - apply near_exact; [lra|]. rewrite uf_at by exact Hk. apply Hv, Hk.
  Qed.
  Lemma adv_ux j : (j < m)%nat -> near av_B1 av_A2 eps (RtoC (at_ 0 ux j)) (RtoC (at_ 0 (G d' m) j)).
  Proof.
    intros Hj. destruct av_pos as (P1 & P2 & P3 & P4 & P5 & P6 & P7 & P8). destruct Om_parts as (_ & _ & O3 & _).
    assert (Hm : (0 < m)%nat) by lia. split.
    - rewrite Cmod_R. apply irfft_bound; [exact Hm| |exact Hj]. intros k Hk. rewrite half_m in Hk. apply (adv_d k). lia.
    - rewrite <- RtoC_minus, Cmod_R. assert (E1 : Rabs (at_ 0 (G d' m) j - at_ 0 (irfft d' m) j) <= kf * eps * (1 + (av_B1 + av_A1))).
      { apply HG; [unfold d'; rewrite tab_len, half_m; lia|lia || lra| |exact O3|exact Hj].
        intros k Hk. rewrite half_m in Hk. apply (near_le _ _ _ _ _ P2 He (adv_d k ltac:(lia))). }
      assert (E2 : Rabs (at_ 0 (irfft d' m) j - at_ 0 ux j) <= av_A1 * eps).
      { apply irfft_diff; [exact Hm| |exact Hj]. intros k Hk. rewrite half_m in Hk. apply (adv_d k). lia. }
      replace (at_ 0 (G d' m) j - at_ 0 ux j) with ((at_ 0 (G d' m) j - at_ 0 (irfft d' m) j) + (at_ 0 (irfft d' m) j - at_ 0 ux j)) by ring.
      eapply Rle_trans; [apply Rabs_triang|]. unfold av_A2. lra.
  Qed.
  Let x := tab m (fun j => at_ 0 u j * at_ 0 ux j).
  Let x' := tab m (fun j => rmul a (at_ 0 (G uf m) j) (at_ 0 (G d' m) j)).
  Lemma adv_prod j : (j < m)%nat -> near av_B3 av_A3 eps (RtoC (at_ 0 x j)) (RtoC (at_ 0 x' j)).
  Proof.
    intros Hj. unfold x, x'. rewrite !tab_nth by exact Hj. unfold rmul. apply near_Re. rewrite RtoC_mult.
    destruct av_pos as (P1 & P2 & P3 & P4 & P5 & P6 & P7 & P8). destruct Om_parts as (_ & _ & _ & O4 & _). unfold av_B3, av_A3.
    apply near_mul with (Om := Om); [exact HR|exact He|exact HM|exact P3|exact P1|exact P4|apply adv_u, Hj|apply adv_ux, Hj|exact O4].
  Qed.
  Lemma adv_r k : (k < n)%nat -> near av_B4 av_A4 eps (at_ (RtoC 0) (rfft x) k) (at_ (RtoC 0) (F x') k).
  Proof.
    intros Hk. destruct av_pos as (P1 & P2 & P3 & P4 & P5 & P6 & P7 & P8). destruct Om_parts as (_ & _ & _ & _ & O5).
    assert (Hk2 : (k <= m / 2)%nat) by (rewrite half_m; lia). assert (Lx : length x = m) by apply tab_len. assert (Lx' : length x' = m) by apply tab_len. split.
    - apply rfft_bound; [exact Lx| |exact Hk2]. intros j Hj. rewrite <- Cmod_R. apply (adv_prod j Hj).
    - assert (E1 : Cmod (at_ (RtoC 0) (F x') k - at_ (RtoC 0) (rfft x') k)%C <= kf * eps * (1 + (av_B3 + av_A3))).
      { apply HF; [exact Lx'|lra| |exact O5|exact Hk2]. intros j Hj. rewrite <- Cmod_R. apply (near_le _ _ _ _ _ P6 He (adv_prod j Hj)). }
      assert (E2 : Cmod (at_ (RtoC 0) (rfft x') k - at_ (RtoC 0) (rfft x) k)%C <= INR m * (av_A3 * eps)).
      { apply rfft_diff; [exact Lx'|exact Lx| |exact Hk2]. intros j Hj. rewrite <- Cmod_R, RtoC_minus. apply (adv_prod j Hj). }
      eapply Rle_trans; [apply (Cmod_sub_3 _ _ _ _ _ E1 E2)|]. unfold av_A4. lra.
  Qed.
  Lemma advection_exact c : advection c kx uf = inr (map (Cmult (RtoC c)) (rfft x)).
  Proof.
    unfold advection, irfft_default, ik_times, uf. rewrite !tab_len, Hkx, Nat.eqb_refl. cbn [orb].
    replace (Nat.eqb (2 * (n - 1)) 0) with false by (symmetry; apply Nat.eqb_neq; lia). rewrite !tab_len.
    replace (Nat.eqb n 1) with false by (symmetry; apply Nat.eqb_neq; lia).
    replace (Nat.eqb (2 * (n - 1)) 0) with false by (symmetry; apply Nat.eqb_neq; lia). fold m.
    assert (E : forall w, length (irfft w m) = m) by (intros; apply tab_len). rewrite E. reflexivity.
  Qed.
  Lemma rfft_x_len : length (rfft x) = n.
  Proof. unfold rfft. rewrite tab_len. unfold x. rewrite tab_len, half_m. lia. Qed.
  (** Before the scaling, both functions are entrywise near each other. *)
  Lemma advection_entries s k : (k < n)%nat -> at_ (RtoC 0) (advection_fl a F G s kx uf) k = s (at_ (RtoC 0) (F x') k).
  Proof. intros Hk. unfold advection_fl. assert (E : length uf = n) by apply tab_len. rewrite E. rewrite tab_nth by exact Hk. reflexivity. Qed.
  Lemma advection_near s c kap : (forall z z', near av_B4 av_A4 eps z z' -> Cmod (s z' - RtoC c * z)%C <= kap * eps) ->
    exists r, advection c kx uf = inr r /\ forall k, (k < n)%nat -> Cmod (nth k (advection_fl a F G s kx uf) (RtoC 0) - nth k r (RtoC 0))%C <= kap * eps.
  Proof.
    intros Hs. eexists. split; [apply advection_exact|]. intros k Hk. rewrite nth_map_mult by (rewrite rfft_x_len; exact Hk).
    assert (E := advection_entries s k Hk). unfold at_ at 1 in E. rewrite E. apply (Hs _ _ (adv_r k Hk)).
  Qed.
End Advection.

(** [x - (u + x)**3]. *)
Lemma cube_diff (z w : C) B : Cmod z <= B -> Cmod w <= B -> Cmod (cpow w 3 - cpow z 3)%C <= 3 * (B * B) * Cmod (w - z)%C.
Proof.
  intros Hz Hw. cbn [cpow]. replace (w * (w * (w * RtoC 1)) - z * (z * (z * RtoC 1)))%C with ((w - z) * (w * w + w * z + z * z))%C by ring.
  rewrite Cmod_mult, Rmult_comm. apply Rmult_le_compat_r; [apply Cmod_ge_0|]. assert (Gz := Cmod_ge_0 z). assert (Gw := Cmod_ge_0 w).
  assert (P : forall p q, Cmod p <= B -> Cmod q <= B -> Cmod (p * q)%C <= B * B) by (intros p q Hp Hq; rewrite Cmod_mult; apply Rmult_le_compat; try apply Cmod_ge_0; assumption).
  eapply Rle_trans; [apply Cmod_triangle|]. assert (T := Cmod_triangle (w * w)%C (w * z)%C). assert (Q1 := P w w Hw Hw). assert (Q2 := P w z Hw Hz). assert (Q3 := P z z Hz Hz). lra.
Qed.
Lemma cpow3_mod z : Cmod (cpow z 3) = Cmod z ^ 3.
Proof. cbn [cpow]. rewrite !Cmod_mult, Cmod_1. ring. Qed.
Section AllenCahn.
  Variables (X M kf : R).
  Hypothesis HX : 0 <= X.
  Hypothesis HM : 0 <= M.
  Hypothesis Hkf : 0 <= kf.
  Definition ac_A1 := 1 + (M + X + 0 + 0) + (0 + 0).
  Definition ac_D := M + X + ac_A1.
  Definition ac_A2 := kf * (1 + ac_D ^ 3) + 3 * (ac_D * ac_D) * ac_A1.
  Definition ac_A3 := 1 + (X + ac_D ^ 3 + 0 + ac_A2) + (0 + ac_A2).
  Definition ac_Om := (M + X + 0 + 0) + (ac_D + ac_D ^ 2 + ac_D ^ 3) + (X + ac_D ^ 3 + 0 + ac_A2).
  Lemma ac_pos : 0 <= ac_A1 /\ 0 <= ac_D /\ 0 <= ac_A2 /\ 0 <= ac_A3.
  Proof.
    assert (H1 : 0 <= ac_A1) by (unfold ac_A1; lra). assert (H2 : 0 <= ac_D) by (unfold ac_D; lra). assert (H3 : 0 <= ac_D ^ 3) by (apply pow_le; exact H2).
    assert (H4 : 0 <= ac_A2). { unfold ac_A2. assert (0 <= kf * (1 + ac_D ^ 3)) by (apply Rmult_le_pos; lra). assert (0 <= 3 * (ac_D * ac_D) * ac_A1); [|lra]. apply Rmult_le_pos; [|exact H1]. assert (0 <= ac_D * ac_D) by (apply Rmult_le_pos; exact H2). lra. }
    assert (H5 : 0 <= ac_A3) by (unfold ac_A3; lra). tauto.
  Qed.
  Lemma allen_cahn_entry a eps Om P (x : R) (z : C) : rounds a eps Om -> 0 <= eps <= 1 -> ac_Om <= Om -> cube_near kf eps Om P -> Rabs x <= X -> Cmod z <= M ->
    Cmod (fl_sub a (RtoC x) (P (fl_add a z (RtoC x))) - (RtoC x - cpow (z + RtoC x) 3))%C <= ac_A3 * eps.
  Proof.
    intros HR He HO HP Hx Hz. destruct ac_pos as (P1 & P2 & P3 & P4). assert (D2 : 0 <= ac_D ^ 2) by (apply pow_le; exact P2). assert (D3 : 0 <= ac_D ^ 3) by (apply pow_le; exact P2). unfold ac_Om in HO.
    assert (Nx : near X 0 eps (RtoC x) (RtoC x)) by (apply near_exact; [lra|rewrite Cmod_R; exact Hx]).
    assert (N1 : near (M + X) ac_A1 eps (z + RtoC x)%C (fl_add a z (RtoC x))).
    { apply near_add with (Om := Om); [exact HR|exact He|exact HM|lra|exact HX|lra|apply near_exact; [lra|exact Hz]|exact Nx|lra]. }
    assert (Q := near_le _ _ _ _ _ P1 He N1). fold ac_D in Q. set (y := (z + RtoC x)%C) in *. set (y' := fl_add a z (RtoC x)) in *.
    assert (Qy : Cmod y <= ac_D) by (destruct N1 as [N1 _]; unfold ac_D; lra). assert (G := Cmod_ge_0 y'). assert (Gy := Cmod_ge_0 y).
    assert (W2 : Cmod y' ^ 2 <= ac_D ^ 2) by (apply pow_incr; lra). assert (W3 : Cmod y' ^ 3 <= ac_D ^ 3) by (apply pow_incr; lra).
    assert (N2 : near (ac_D ^ 3) ac_A2 eps (cpow y 3) (P y')).
    { split; [rewrite cpow3_mod; apply pow_incr; lra|]. assert (E1 := HP y' ltac:(lra)). assert (E2 := cube_diff y y' ac_D Qy Q).
      eapply Rle_trans; [apply (Cmod_sub_3 _ _ _ _ _ E1 E2)|]. unfold ac_A2.
      assert (K1 : kf * eps * (1 + Cmod y' ^ 3) <= kf * eps * (1 + ac_D ^ 3)) by (apply Rmult_le_compat_l; [apply Rmult_le_pos; lra|lra]).
      assert (K2 : 3 * (ac_D * ac_D) * Cmod (y' - y)%C <= 3 * (ac_D * ac_D) * (ac_A1 * eps)).
      { apply Rmult_le_compat_l; [|apply N1]. assert (0 <= ac_D * ac_D) by (apply Rmult_le_pos; exact P2). lra. }
      lra. }
    assert (N3 : near (X + ac_D ^ 3) ac_A3 eps (RtoC x - cpow y 3)%C (fl_sub a (RtoC x) (P y'))); [|apply N3].
    unfold ac_A3. apply near_sub with (Om := Om); try assumption; lra.
  Qed.
End AllenCahn.

(** ** Linear operators *)
Lemma rpow_entry kf eps Om P k p kb : 0 <= kf -> 0 <= eps -> rpow_near kf eps Om P -> (1 <= p <= 3)%nat -> 0 <= kb -> Rabs k <= kb -> kb + kb ^ p <= Om ->
  near (kb ^ p) (kf * (1 + kb ^ p)) eps (RtoC (k ^ p)) (RtoC (P k p)).
Proof.
  intros Hkf He HP Hp Pb Hk HO. assert (D : 0 <= kb ^ p) by (apply pow_le; exact Pb).
  assert (K : Rabs (k ^ p) <= kb ^ p) by (rewrite <- RPow_abs; apply pow_incr; split; [apply Rabs_pos|exact Hk]).
  split; [rewrite Cmod_R; exact K|]. rewrite <- RtoC_minus, Cmod_R. eapply Rle_trans; [apply HP; [exact Hp|lra|lra]|].
  replace (kf * (1 + kb ^ p) * eps) with (kf * eps * (1 + kb ^ p)) by ring. apply Rmult_le_compat_l; [apply Rmult_le_pos; lra|lra].
Qed.
Lemma rsum_csum n f : RtoC (rsum n f) = csum n (fun k => RtoC (f k)).
Proof. induction n as [|n IH]; cbn [rsum csum]; [reflexivity|]. rewrite RtoC_plus, IH. reflexivity. Qed.
Section AllenCahnMatrix.
  Variables (N : nat) (b ep : R).
  Hypothesis Hb : 0 <= b.
  Definition am_B1 := INR N * (b * b).
  Definition am_A1 := INR N * (1 + 4 * INR N * (b * b + 1)).
  Definition am_A2 := 1 + (Rabs ep + 0) * (am_B1 + am_A1) + (0 * (am_B1 + am_A1) + Rabs ep * am_A1).
  Definition am_A3 := 1 + (Rabs ep * am_B1 + 1 + am_A2 + 0) + (am_A2 + 0).
  Definition am_Om := b + b * b + 4 * INR N * (b * b + 1) + ((Rabs ep + 0) * (am_B1 + am_A1) + (Rabs ep + 0) + (am_B1 + am_A1)) + (Rabs ep * am_B1 + 1 + am_A2 + 0).
  Lemma am_pos : 0 <= am_B1 /\ 0 <= am_A1 /\ 0 <= am_A2 /\ 0 <= am_A3.
  Proof.
    assert (PN := pos_INR N). assert (B2 : 0 <= b * b) by (apply Rmult_le_pos; exact Hb). assert (Pe := Rabs_pos ep).
    assert (H1 : 0 <= am_B1) by (apply Rmult_le_pos; assumption).
    assert (H2 : 0 <= am_A1) by (apply Rmult_le_pos; [exact PN|]; assert (0 <= 4 * INR N * (b * b + 1)) by (apply Rmult_le_pos; lra); lra).
    assert (H3 : 0 <= am_A2) by (unfold am_A2; assert (0 <= Rabs ep * (am_B1 + am_A1)) by (apply Rmult_le_pos; lra); assert (0 <= Rabs ep * am_A1) by (apply Rmult_le_pos; lra); lra).
    assert (H4 : 0 <= am_A3) by (unfold am_A3; assert (0 <= Rabs ep * am_B1) by (apply Rmult_le_pos; lra); lra). tauto.
  Qed.
  Lemma allen_cahn_mat_entry a eps Om (d : marr) i j : rounds a eps Om -> 0 <= eps <= 1 -> INR N * eps <= / 8 -> am_Om <= Om -> m_cols d = N ->
    (forall i j, (i < N)%nat -> (j < N)%nat -> Rabs (m_at d i j) <= b) -> (S i < N)%nat -> (S j < N)%nat ->
    Cmod (allen_cahn_mat_fl a d ep i j - RtoC (m_at (inner_mat (mplus (mtimes ep (mmul d d)) (meye N N))) i j))%C <= am_A3 * eps.
  Proof.
    intros HR He HN HO Hd Hm Hi Hj. destruct am_pos as (P1 & P2 & P3 & P4). assert (PN := pos_INR N). assert (B2 : 0 <= b * b) by (apply Rmult_le_pos; exact Hb). assert (Pe := Rabs_pos ep).
    unfold allen_cahn_mat_fl. cbn [inner_mat mplus Models.mtimes mmul meye m_at m_rows m_cols]. rewrite Hd. cbn [Nat.eqb].
    set (S2 := rsum N (fun k => m_at d (S i) k * m_at d k (S j))).
    assert (Q4 : 0 <= 4 * INR N * (b * b + 1)) by (apply Rmult_le_pos; lra). assert (Q5 : 0 <= Rabs ep * (am_B1 + am_A1)) by (apply Rmult_le_pos; lra).
    assert (Q6 : 0 <= Rabs ep * am_B1) by (apply Rmult_le_pos; lra). unfold am_Om in HO.
    assert (Hk : forall k, (k < N)%nat -> Rabs (m_at d (S i) k * m_at d k (S j)) <= b * b).
    { intros k Hk. rewrite Rabs_mult. apply Rmult_le_compat; try apply Rabs_pos; apply Hm; assumption. }
    assert (N1 : near am_B1 am_A1 eps (RtoC S2) (RtoC (fst (fl_dot a N (fun i k => RtoC (m_at d i k)) (fun k => RtoC (m_at d k (S j))) (S i))))).
    { apply near_Re. split.
      - unfold S2. rewrite rsum_csum. unfold am_B1. apply csum_norm_const. intros k Hk1. rewrite Cmod_R. apply Hk, Hk1.
      - unfold S2. rewrite rsum_csum, (csum_ext N _ (fun k => RtoC (m_at d (S i) k) * RtoC (m_at d k (S j)))%C) by (intros; apply RtoC_mult).
        unfold am_A1. replace (INR N * (1 + 4 * INR N * (b * b + 1)) * eps) with (INR N * eps * (1 + 4 * INR N * (b * b + 1))) by ring.
        apply (ro_dot _ _ _ HR N (fun i k => RtoC (m_at d i k)) (fun k => RtoC (m_at d k (S j))) (S i) (b * b)); [exact B2| |exact HN|lra].
        intros k Hk1. rewrite <- RtoC_mult, !Cmod_R. assert (X1 := Hm (S i) k Hi Hk1). assert (X2 := Hm k (S j) Hk1 Hj). split; [lra|]. split; [lra|]. apply Hk, Hk1. }
    assert (N2 : near (Rabs ep * am_B1) am_A2 eps (RtoC (ep * S2)) (RtoC (rmul a ep (fst (fl_dot a N (fun i k => RtoC (m_at d i k)) (fun k => RtoC (m_at d k (S j))) (S i)))))).
    { unfold rmul. apply near_Re. rewrite RtoC_mult. unfold am_A2. apply near_mul with (Om := Om); try assumption; try lra. apply near_exact; [lra|]. rewrite Cmod_R. lra. }
    assert (N3 : near (Rabs ep * am_B1 + 1) am_A3 eps (RtoC (ep * S2 + (if Nat.eqb i j then 1 else 0)))
      (RtoC (fst (fl_add a (RtoC (rmul a ep (fst (fl_dot a N (fun i k => RtoC (m_at d i k)) (fun k => RtoC (m_at d k (S j))) (S i))))) (RtoC (if Nat.eqb i j then 1 else 0)))))).
    { apply near_Re. rewrite RtoC_plus. unfold am_A3. apply near_add with (Om := Om); try assumption; try lra. apply near_exact; [lra|]. rewrite Cmod_R. destruct (Nat.eqb i j); [rewrite Rabs_R1|rewrite Rabs_R0]; lra. }
    apply N3.
  Qed.
End AllenCahnMatrix.

(** ** Sums evaluated in rounded arithmetic meet the hypotheses on the transforms *)
(** Computed roots of unity, and the transforms as products of matrices with vectors. *)
Definition roots_near (m : nat) (kw eps : R) (Wf Wb : nat -> nat -> C) : Prop :=
  forall k j, (k < m)%nat -> (j < m)%nat ->
    Cmod (Wf k j - Cexp (0, - (2 * PI * INR j * INR k / INR m))%R)%C <= kw * eps /\
    Cmod (Wb j k - RtoC (/ INR m) * Cexp (0, 2 * PI * INR j * INR k / INR m)%R)%C <= kw * eps.
Definition rfft_sums (a : arith) (Wf : nat -> nat -> C) (x : list R) : list C :=
  tab (length x / 2 + 1) (fl_dot a (length x) Wf (fun j => RtoC (at_ 0 x j))).
Definition irfft_sums (a : arith) (Wb : nat -> nat -> C) (v : list C) (m : nat) : list R :=
  tab m (fun j => fst (fl_dot a m Wb (hermitian m (at_ (RtoC 0) v)) j)).
Section Sums.
  Variables (m : nat) (kw eps Om : R) (a : arith).
  Hypothesis Hm : (0 < m)%nat.
  Hypothesis Hkw : 0 <= kw.
  Hypothesis HR : rounds a eps Om.
  Hypothesis He : 0 <= eps <= 1.
  Hypothesis Hme : INR m * eps <= / 8.
  Hypothesis Hk1 : kw * eps <= 1.
  Lemma dot_near (W E : nat -> nat -> C) (v : nat -> C) i B : 0 <= B -> 8 * INR m * (B + 1) <= Om ->
    (forall k, (k < m)%nat -> Cmod (E i k) <= 1 /\ Cmod (W i k - E i k)%C <= kw * eps /\ Cmod (v k) <= B) ->
    Cmod (fl_dot a m W v i - csum m (fun k => E i k * v k)%C)%C <= INR m * (1 + 8 * INR m + kw) * eps * (1 + B).
  Proof.
    intros PB HO H. assert (Im : 1 <= INR m) by (replace 1 with (INR 1) by reflexivity; apply le_INR; lia).
    assert (OB : 8 * (B + 1) <= Om) by (eapply Rle_trans; [|exact HO]; apply Rmult_le_compat_r; lra).
    assert (HW : forall k, (k < m)%nat -> Cmod (W i k) <= 2). { intros k Hk. destruct (H k Hk) as (H1 & H2 & _). eapply Rle_trans; [apply (Cmod_le_diff _ _ _ _ H1 H2)|lra]. }
    assert (D1 : Cmod (fl_dot a m W v i - csum m (fun k => W i k * v k)%C)%C <= INR m * eps * (1 + 4 * INR m * (2 * B + 1))).
    { apply (ro_dot _ _ _ HR m W v i (2 * B)); [lra| |exact Hme|]. 2:{ eapply Rle_trans; [|exact HO]. replace (4 * INR m * (2 * B + 1)) with (INR m * (8 * B + 4)) by ring. replace (8 * INR m * (B + 1)) with (INR m * (8 * B + 8)) by ring. apply Rmult_le_compat_l; lra. }
      intros k Hk. destruct (H k Hk) as (_ & _ & H3). assert (X := HW k Hk). split; [lra|]. split; [lra|]. rewrite Cmod_mult. apply Rmult_le_compat; try apply Cmod_ge_0; assumption. }
    assert (D2 : Cmod (csum m (fun k => W i k * v k)%C - csum m (fun k => E i k * v k)%C)%C <= INR m * (kw * eps * B)).
    { rewrite csum_minus. apply csum_norm_const. intros k Hk. destruct (H k Hk) as (_ & H2 & H3).
      replace (W i k * v k - E i k * v k)%C with ((W i k - E i k) * v k)%C by ring. rewrite Cmod_mult. apply Rmult_le_compat; try apply Cmod_ge_0; assumption. }
    eapply Rle_trans; [apply (Cmod_sub_3 _ _ _ _ _ D1 D2)|]. 
    replace (INR m * (1 + 8 * INR m + kw) * eps * (1 + B)) with (INR m * eps * (1 + 8 * INR m + 8 * INR m * B + B) + INR m * (kw * eps * B) + INR m * (kw * eps)) by ring.
    assert (Z1 : 0 <= INR m * (kw * eps)) by (repeat apply Rmult_le_pos; lra).
    assert (Z2 : INR m * eps * (1 + 4 * INR m * (2 * B + 1)) <= INR m * eps * (1 + 8 * INR m + 8 * INR m * B + B)); [|lra].
    apply Rmult_le_compat_l; [apply Rmult_le_pos; lra|]. lra.
  Qed.
  Lemma rfft_sums_near Wf Wb : roots_near m kw eps Wf Wb -> rfft_near m (INR m * (1 + 8 * INR m + kw)) eps Om (rfft_sums a Wf).
  Proof.
    intros HW x B Lx PB Hx HO k Hk. assert (Hkm : (k < m)%nat) by (apply Nat.le_lt_trans with (m / 2)%nat; [exact Hk|]; apply Nat.div_lt; lia).
    unfold rfft_sums, rfft. rewrite Lx, !tab_nth by lia. unfold dft.
    rewrite (csum_ext m _ (fun j => Cexp (0, - (2 * PI * INR j * INR k / INR m))%R * RtoC (at_ 0 x j))%C) by (intros; ring).
    apply (dot_near Wf (fun k j => Cexp (0, - (2 * PI * INR j * INR k / INR m))%R) (fun j => RtoC (at_ 0 x j)) k B PB HO).
    intros j Hj. destruct (HW k j Hkm Hj) as [H1 _]. split; [rewrite unit_exp; lra|]. split; [exact H1|]. rewrite Cmod_R. apply Hx, Hj.
  Qed.
  Lemma irfft_sums_near Wf Wb : roots_near m kw eps Wf Wb -> irfft_near m (INR m * (1 + 8 * INR m + kw)) eps Om (irfft_sums a Wb).
  Proof.
    intros HW v B Lv PB Hv HO j Hj. assert (Im : 1 <= INR m) by (replace 1 with (INR 1) by reflexivity; apply le_INR; lia).
    unfold irfft_sums, irfft. rewrite !tab_nth by exact Hj. eapply Rle_trans; [apply fst_sub|]. unfold idft. rewrite <- csum_scal.
    rewrite (csum_ext m _ (fun k => (RtoC (/ INR m) * Cexp (0, 2 * PI * INR j * INR k / INR m)%R) * hermitian m (at_ (RtoC 0) v) k)%C) by (intros; ring).
    apply (dot_near Wb (fun j k => (RtoC (/ INR m) * Cexp (0, 2 * PI * INR j * INR k / INR m)%R)%C) (hermitian m (at_ (RtoC 0) v)) j B PB HO).
    intros k Hk. destruct (HW k j Hk Hj) as [_ H2]. split; [|split; [exact H2|]].
    - rewrite Cmod_mult, unit_exp, Cmod_R, Rmult_1_r. rewrite Rabs_pos_eq by (left; apply Rinv_0_lt_compat; lra). rewrite <- Rinv_1. apply Rinv_le_contravar; lra.
    - assert (X := herm_diff m (at_ (RtoC 0) v) (fun _ => RtoC 0) B).
      assert (Z : hermitian m (fun _ => RtoC 0) k = RtoC 0).
      { unfold hermitian. destruct (_ || _); [reflexivity|]. destruct (Nat.ltb _ _); [reflexivity|]. unfold Cconj. cbn [fst snd RtoC]. apply C_eq; cbn; ring. }
      assert (Y : Cmod (hermitian m (at_ (RtoC 0) v) k - hermitian m (fun _ => RtoC 0) k)%C <= B).
      { apply X; [|exact Hk]. intros i Hi. replace (at_ (RtoC 0) v i - RtoC 0)%C with (at_ (RtoC 0) v i) by ring. apply Hv, Hi. }
      rewrite Z in Y. replace (hermitian m (at_ (RtoC 0) v) k - RtoC 0)%C with (hermitian m (at_ (RtoC 0) v) k) in Y by ring. exact Y.
  Qed.
End Sums.
(** [z * (z * z)], as numpy evaluates a complex cube. *)
Lemma cube_products a eps Om : rounds a eps Om -> 0 <= eps <= 1 -> 2 <= Om -> cube_near 6 eps (Om / 8) (fun z => fl_mul a z (fl_mul a z z)).
Proof.
  intros HR He H1 z Hz. assert (G := Cmod_ge_0 z). set (r := Cmod z) in *. assert (G2 : 0 <= r ^ 2) by (apply pow_le; exact G). assert (G3 : 0 <= r ^ 3) by (apply pow_le; exact G).
  assert (Z2 : Cmod (z * z)%C = r ^ 2) by (rewrite Cmod_mult; fold r; ring).
  assert (E1 : Cmod (fl_mul a z z - z * z)%C <= eps * (1 + r ^ 2)) by (rewrite <- Z2; apply (ro_mul _ _ _ HR); fold r; lra).
  set (y := fl_mul a z z) in *. assert (Y : Cmod y <= r ^ 2 + (1 + r ^ 2)).
  { assert (K : eps * (1 + r ^ 2) <= 1 * (1 + r ^ 2)) by (apply Rmult_le_compat_r; lra). apply (Cmod_le_diff y (z * z)%C); [lra|lra]. }
  assert (ZY : Cmod (z * y)%C <= 2 * r ^ 3 + r).
  { rewrite Cmod_mult. fold r. replace (2 * r ^ 3 + r) with (r * (r ^ 2 + (1 + r ^ 2))) by ring. apply Rmult_le_compat_l; assumption. }
  assert (Y2 : r ^ 2 + (1 + r ^ 2) <= Om) by lra.
  assert (E2 : Cmod (fl_mul a z y - z * y)%C <= eps * (1 + (2 * r ^ 3 + r))).
  { eapply Rle_trans; [apply (ro_mul _ _ _ HR); fold r; lra|]. apply Rmult_le_compat_l; lra. }
  assert (E3 : Cmod (z * y - cpow z 3)%C <= r * (eps * (1 + r ^ 2))).
  { cbn [cpow]. replace (z * y - z * (z * (z * RtoC 1)))%C with (z * (y - z * z))%C by ring. rewrite Cmod_mult. fold r. apply Rmult_le_compat_l; assumption. }
  eapply Rle_trans; [apply (Cmod_sub_3 _ _ _ _ _ E2 E3)|].
  replace (eps * (1 + (2 * r ^ 3 + r)) + r * (eps * (1 + r ^ 2))) with (eps * (1 + 3 * r ^ 3 + 2 * r)) by ring.
  replace (6 * eps * (1 + r ^ 3)) with (eps * (6 * (1 + r ^ 3))) by ring. apply Rmult_le_compat_l; [lra|].
  assert (r <= 1 + r ^ 3); [|lra]. destruct (Rle_dec r 1) as [L|L]; [lra|]. assert (1 * (1 * r) <= r * (r * r)) by (repeat (apply Rmult_le_compat; try lra)). cbn [pow]. lra.
Qed.
