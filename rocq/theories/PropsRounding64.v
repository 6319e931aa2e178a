(** * C82: whole runs in binary64

    Times, step sizes, the step control and the vector arithmetic are all rounded. In C78 to C81 scalars were exact; here the
    models are read over binary64 scalars ([RoundingRuns.v]): times are rounded sums, so that they drift away from the sums of the
    step sizes, and the recorded vectors belong to the drifted times. *)

From Coq Require Import ZArith List Bool Reals Lra Lia FunctionalExtensionality.
From Coquelicot Require Import Complex.
From Flocq Require Import Core BinarySingleNaN.
From Verif Require Import Scalars Control ControlCS ControlCSReal ControlAS ControlASReal ControlSim ControlSound PropsControl Arrays SchemeBase
     SchemeIF SchemeETD4 SchemeETD5 Solvers SchemeFacts SchemeSound SchemeFamily SchemePartial SchemeForm CInst SpecRK
     SchemeIFReal PropsCache PropsIF SpecPhi SpecPoly ContourReal SpecERK SchemeETDReal SchemeETDCoefs PropsPsi PropsETD
     PropsLinear ContourMatrix MatrixFlow PropsMatrix Asym Solution LocalRK4 Stable Converge Voc LocalKro MatExp ConvRuns ConvMethods PropsConverge
     OrderWords OrderLocal OrderMethods PropsOrder5 Estimate Rounding RoundingB64 PropsRounding B64 B64Step PropsB64 RoundingRuns RoundingTimes.
Import ListNotations.
Local Open Scope R_scope.

(** ** Solutions are Lipschitz in time *)
Lemma solution_lip n q L N t0 t1 rho K u fd J : smooth n q L N t0 t1 rho K u fd J ->
  exists La, 0 <= La /\ forall s t, t0 <= s <= t1 -> t0 <= t <= t1 -> vle n (csub (u s) (u t)) (La * Rabs (s - t)).
Proof.
  intros HS. destruct (L_bound n L) as (B & HB & GB). assert (HK := so_K _ _ _ _ _ _ _ _ _ _ _ HS).
  assert (PBK : 0 <= B * K) by (apply Rmult_le_pos; assumption).
  exists (2 * (B * K + K)). split; [lra|].
  assert (G : forall s t, t0 <= s -> s <= t -> t <= t1 -> vle n (csub (u t) (u s)) (2 * (B * K + K) * (t - s))).
  { intros s t H1 H2 H3 i Hi.
    assert (Y := taylor_cplx (B * K + K) (t - s) 1 (fun k x => match k with O => u (s + x) i | _ => (mdot n L (u (s + x)%R) i + N (u (s + x)%R) i)%C end)).
    assert (D : forall k x, (k < 1)%nat -> 0 <= x <= t - s -> is_Cder (fun x => u (s + x) i) x (mdot n L (u (s + x)%R) i + N (u (s + x)%R) i)%C).
    { intros k x _ Hx. refine (is_Cder_shift (fun y => u y i) s x _ _). apply (so_eq _ _ _ _ _ _ _ _ _ _ _ HS); [lra|exact Hi]. }
    assert (Bd : forall x, 0 <= x <= t - s -> Cmod (mdot n L (u (s + x)%R) i + N (u (s + x)%R) i)%C <= B * K + K).
    { intros x Hx. assert (Hx' : t0 <= s + x <= t1) by lra. eapply Rle_trans; [apply Cmod_triangle|].
      assert (Z1 := GB (u (s + x)) K HK (so_u _ _ _ _ _ _ _ _ _ _ _ HS (s + x) Hx') i Hi).
      assert (Z2 := so_bnd _ _ _ _ _ _ _ _ _ _ _ HS 0%nat (s + x) ltac:(lia) Hx' i Hi). rewrite (so_f0 _ _ _ _ _ _ _ _ _ _ _ HS (s + x) Hx' i Hi) in Z2. lra. }
    assert (Hts : 0 <= t - s <= t - s) by lra.
    specialize (Y ltac:(intros k x Hk Hx; destruct k as [|k]; [exact (D 0%nat x Hk Hx)|lia]) Bd (t - s) Hts).
    cbn beta iota in Y.
    assert (E : forall F : nat -> R -> C, ctay F 1 (t - s) = F 0%nat 0).
    { intros F. unfold ctay. cbn [csum fact pow INR]. replace (1 / 1) with 1 by field. ring. }
    rewrite E in Y. replace (s + (t - s)) with t in Y by ring. rewrite Rplus_0_r in Y. unfold csub. eapply Rle_trans; [exact Y|]. right. cbn [pow]. ring. }
  intros s t Hs Ht. destruct (Rle_dec s t) as [Hl|Hl].
  - assert (X := G s t (proj1 Hs) Hl (proj2 Ht)). rewrite Rabs_left1 by lra. intros i Hi. specialize (X i Hi). unfold csub in *.
    replace (u s i - u t i)%C with (- (u t i - u s i))%C by ring. rewrite Cmod_opp. replace (- (s - t)) with (t - s) by ring. exact X.
  - rewrite Rabs_pos_eq by lra. apply G; lra.
Qed.

(** ** Steps at rounded times *)
Section Drift.
  Variable n : nat.
  Variables t0 t1 : R.
  Variable u : R -> cvec.
  Variable p : nat.
  Variable La : R.
  Hypothesis HLa : 0 <= La.
  Hypothesis Hlip : forall s t, t0 <= s <= t1 -> t0 <= t <= t1 -> vle n (csub (u s) (u t)) (La * Rabs (s - t)).

  Lemma drift m (tau ha : nat -> R) ka : (forall j, (j < m)%nat -> Rabs (tau (S j) - (tau j + ha j)) <= ka) ->
    forall j, (j <= m)%nat -> Rabs (tau j - (tau 0%nat + total (firstn j (map ha (seq 0 m))))) <= INR j * ka.
  Proof.
    intros H. induction j as [|j IH]; intros Hj.
    - cbn [firstn]. unfold total. cbn [fold_right]. replace (tau 0%nat - (tau 0%nat + 0)) with 0 by ring. rewrite Rabs_R0. change (INR 0) with 0. lra.
    - specialize (IH ltac:(lia)). specialize (H j ltac:(lia)). rewrite firstn_S_app, total_app, S_INR by lia. set (s := total (firstn j (map ha (seq 0 m)))) in *.
      replace (tau (S j) - (tau 0%nat + (s + ha j))) with ((tau (S j) - (tau j + ha j)) + (tau j - (tau 0%nat + s))) by ring.
      eapply Rle_trans; [apply Rabs_triang|]. lra.
  Qed.

  (** A sequence of steps whose sizes and values are those of a method [Psi] covered by [near_steps], at rounded times. *)
  Lemma near_run C hb r0 (goodR : R -> Prop) Psi e eps (Phi : b64 -> cvec -> cvec) (good : b64 -> Prop) : 0 <= C -> 0 <= eps ->
    near_steps n t0 t1 u p C hb r0 goodR Psi e eps ->
    (forall h, h_ok h -> good h -> goodR (B2R h) /\ forall v, Phi h v = Psi (B2R h) v) ->
    forall v tf m tau ha us ka H d, trace64 Phi good t0 tf v m tau ha us ->
    (forall j, (j < m)%nat -> Rabs (tau (S j) - (tau j + B2R (ha j))) <= ka) -> (forall j, (j < m)%nat -> B2R (ha j) <= H) -> 0 <= ka ->
    0 <= H <= hb -> H <= 1 -> 0 <= d -> d + e + INR m * eps <= r0 -> vle n (csub v (u t0)) d ->
    (forall j, (j <= m)%nat -> t0 <= tau j <= t1) -> t0 + total (map (fun j => B2R (ha j)) (seq 0 m)) <= t1 ->
    forall j, (j <= m)%nat -> vle n (csub (us j) (u (tau j))) (C * (d + e + H ^ p + INR m * eps) + La * (INR m * ka)).
  Proof.
    intros HC He Hns Htr v tf m tau ha us ka H d (T0 & U0 & Hst) Hka Hmax Pka HH H1 Hd Hde Hv Htau Htot j Hj.
    set (hr := fun j => B2R (ha j)) in *. set (hs := map hr (seq 0 m)) in *.
    assert (Hsz : forall i, (i < m)%nat -> h_ok (ha i)).
    { intros i Hi. destruct (Hst i Hi) as (_ & _ & S3 & S4 & _). split; [exact S3|]. assert (X := Hmax i Hi). rewrite Rabs_pos_eq; unfold hr in *; lra. }
    assert (Hus : forall i, (i < m)%nat -> us (S i) = Psi (hr i) (us i)).
    { intros i Hi. destruct (Hst i Hi) as (_ & _ & _ & _ & S5 & S6). rewrite S6. apply (Htr (ha i) (Hsz i Hi) S5). }
    assert (EU := trace_list Psi us hr Hus Hj). rewrite U0 in EU. fold hs in EU.
    assert (All : Forall (fun h => 0 < h <= H) hs /\ Forall goodR hs).
    { unfold hs. split; apply Forall_map, Forall_forall; intros i Hi; apply in_seq in Hi; destruct (Hst i ltac:(lia)) as (_ & _ & _ & S4 & S5 & _).
      - split; [exact S4|apply Hmax; lia].
      - apply (Htr (ha i) (Hsz i ltac:(lia)) S5). }
    destruct All as [A1 A2].
    assert (Sub : forall P : R -> Prop, Forall P hs -> Forall P (firstn j hs)).
    { intros P HP. apply Forall_forall. intros x Hx. rewrite Forall_forall in HP. apply HP. rewrite <- (firstn_skipn j hs). apply in_or_app. left. exact Hx. }
    assert (P1 : Forall (fun h => 0 < h) hs) by (eapply Forall_impl; [|exact A1]; intros x Hx; cbn beta in Hx; lra).
    assert (Tj := total_firstn hs j P1). assert (Tp := total_nonneg _ (Sub _ P1)).
    assert (Lj : INR (length (firstn j hs)) * eps <= INR m * eps).
    { apply Rmult_le_compat_r; [exact He|]. apply le_INR. rewrite firstn_length. unfold hs. rewrite map_length, seq_length. lia. }
    assert (G := Hns (firstn j hs) v d H (Sub _ A1) (Sub _ A2) ltac:(lra) HH Hd ltac:(lra) Hv).
    assert (D := drift m tau hr ka Hka j Hj). rewrite T0 in D. fold hs in D.
    assert (Hjm : INR j * ka <= INR m * ka) by (apply Rmult_le_compat_r; [exact Pka|apply le_INR; exact Hj]).
    assert (Z := Hlip (t0 + total (firstn j hs)) (tau j) ltac:(lra) (Htau j Hj)).
    rewrite EU. eapply vle_mono; [eapply vle_ext; [|exact (vle_add n _ _ _ _ G Z)]|].
    - intros i _. unfold cadd, csub. ring.
    - apply Rplus_le_compat.
      + apply Rmult_le_compat_l; [exact HC|]. lra.
      + apply Rmult_le_compat_l; [exact HLa|]. rewrite Rabs_minus_sym. lra.
  Qed.
End Drift.

(** ** What is claimed of the runs *)
Section Claims.
  Variable n : nat.
  Variables t0 t1 : R.
  Variable u : R -> cvec.
  Variable p : nat.
  (** Constant steps; [ka] is the distance of neighbouring binary64 numbers at the end of the run. *)
  Definition cs_claim64 (C h0 r0 : R) {a W} (pr : problem (Gops a) W) (k : cs_kind) (e eps : R) : Prop :=
    forall fuel v (s0 sf h : pynum (T Bops)) (o : csobj Bops (vec (Gops a)) W (cs_model pr k)) w r o' w' d,
      is_finite (val s0) = true -> is_finite (val sf) = true -> is_finite (val h) = true ->
      rval s0 = t0 -> 0 <= t0 <= rval sf -> 0 < rval h <= h0 -> rval sf + rval h <= bpow radix2 1023 ->
      let hr := rval h in let ka := ulp64 (rval sf + hr) in
      rval sf + hr + ka * (1 + (rval sf - t0) / hr) <= t1 -> 0 <= d -> d + e + (eps + ka) / hr <= r0 -> vle n (csub v (u t0)) d ->
      cs_evolve (F := Bops) fuel v s0 sf h true 1 o w = (r, o', w') ->
      accurate n u (C * (d + e + hr ^ p + (eps + ka) / hr)) (map rval (c_t o')) (c_u o') /\
      forall v', r = Ret v' -> exists t, rval sf <= t <= rval sf + hr + ka /\ vle n (csub v' (u t)) (C * (d + e + hr ^ p + (eps + ka) / hr)).
  (** Adaptive steps; [H] bounds the gaps between the computed times. *)
  Definition as_claim64 (C h0 r0 : R) {a W} (pr : problem (Gops a) W) (k : as_kind) (e eps : R) : Prop :=
    forall cfg compute_s fuel v (s0 sf : pynum (T Bops)) hi (o : asobj Bops (vec (Gops a)) W (as_model pr k)) w r o' w' d H,
      valid64 cfg -> finite_factors compute_s ->
      is_finite (val s0) = true -> is_finite (val sf) = true ->
      rval s0 = t0 -> 0 <= t0 < rval sf -> rval sf < bpow radix2 1023 -> start_ok t0 (rval sf) hi -> 0 <= d -> vle n (csub v (u t0)) d ->
      as_evolve consts64 cfg compute_s fuel v s0 sf hi true 1 o w = (r, o', w') ->
      let m := INR (length (a_t o')) in let ka := ulp64 (succ64 (rval sf)) in
      gaps_at_most H (map rval (a_t o')) -> 0 <= H -> H + ka <= h0 -> d + e + m * (eps + ka) <= r0 -> succ64 (rval sf) + m * ka <= t1 ->
      accurate n u (C * (d + e + (H + ka) ^ p + m * (eps + ka))) (map rval (a_t o')) (a_u o') /\
      forall v', r = Ret v' -> vle n (csub v' (u (rval sf))) (C * (d + e + (H + ka) ^ p + m * (eps + ka))).
End Claims.

Lemma accurate_trace n u e (tau : nat -> R) (us : nat -> cvec) m : (forall j, (j <= m)%nat -> vle n (csub (us j) (u (tau j))) e) ->
  accurate n u e (map tau (seq 0 (S m))) (map us (seq 0 (S m))).
Proof.
  intros H. unfold accurate. assert (G : forall l, (forall j, In j l -> (j <= m)%nat) -> Forall2 (fun t v => vle n (csub v (u t)) e) (map tau l) (map us l)).
  { induction l as [|j l IH]; intros Hl; [constructor|]. cbn [map]. constructor; [apply H, Hl; left; reflexivity|apply IH; intros i Hi; apply Hl; right; exact Hi]. }
  apply G. intros j Hj. apply in_seq in Hj. lia.
Qed.

(** ** From exact scalars to binary64 scalars *)
Section Lift.
  Variables n q : nat.
  Variable L : nat -> nat -> C.
  Variable N : cvec -> cvec.
  Variables t0 t1 rho K : R.
  Variable u : R -> cvec.
  Variable fd : nat -> R -> cvec.
  Variable J : R -> cvec -> cvec.
  Hypothesis HS : smooth n q L N t0 t1 rho K u fd J.
  Variable p : nat.

  (** The adaptive part is stated for any method [Psi] with exact step sizes that takes the same steps. *)
  Theorem lift64_any C r0 : 0 <= C -> 0 < r0 ->
    exists C' r0', 0 <= C' /\ 0 < r0' /\
    forall a W (pr : problem (Gops a) W) e eps hb, scalars64 a -> cfg64 (p_cfg pr) -> 0 <= e -> 0 <= eps ->
      (forall k, cs_rclaim n t0 t1 u p C hb r0 (lower pr) k e eps -> cs_claim64 n t0 t1 u p C' (Rmin hb 1) r0' pr k e eps) /\
      (forall k Nf (goodR : R -> Prop) (Psi : R -> cvec -> cvec),
         (exists Inv, as_sound1 (as_model pr k) (as_Phi pr Nf k) (as_good pr k) Inv) -> near_steps n t0 t1 u p C hb r0 goodR Psi e eps ->
         (forall h, h_ok h -> as_good pr k h -> goodR (B2R h) /\ forall v, fst (as_Phi pr Nf k h v) = Psi (B2R h) v) ->
         as_claim64 n t0 t1 u p C' (Rmin hb 1) r0' pr k e eps).
  Proof.
    intros HC Hr0. destruct (solution_lip _ _ _ _ _ _ _ _ _ _ _ HS) as (La & HLa & Hlip).
    assert (HT := so_time _ _ _ _ _ _ _ _ _ _ _ HS). set (M1 := 2 * (t1 - t0) + 1). assert (HM1 : 1 <= M1) by (unfold M1; lra).
    assert (PCL : 0 <= C + La) by lra.
    exists ((C + La) * M1), (Rmin 1 (r0 / M1)). split; [apply Rmult_le_pos; lra|]. split; [apply Rmin_glb_lt; [lra|apply Rdiv_lt_0_compat; lra]|].
    assert (Rm1 := Rmin_l 1 (r0 / M1)). assert (Rm2 := Rmin_r 1 (r0 / M1)).
    assert (Rm3 : r0 / M1 <= r0). { apply Rmult_le_reg_r with M1; [lra|]. replace (r0 / M1 * M1) with (r0 * 1) by (field; lra). apply Rmult_le_compat_l; lra. }
    intros a W pr e eps hb Ha Hcfg He Heps. assert (Rb1 := Rmin_l hb 1). assert (Rb2 := Rmin_r hb 1). split.
    - intros k [(Nf & HNL & Hns) _] fuel v s0 sf h o w r o' w' d F0 Ff Fh E0 Hsf Hh Hbig hr ka Hend Hd Hde Hv E.
      destruct (cs_model_sound1_eq pr Nf HNL k (fun x y => cs_uc_eq Ha pr Hcfg k x y)) as [Inv HM].
      assert (Hsf' : 0 <= rval s0 <= rval sf) by (cbn beta in *; lra). assert (Hh0 : 0 < rval h) by (cbn beta in *; lra).
      destruct (cs_times64 HM fuel v s0 sf h o w F0 Ff Fh Hsf' Hh0 Hbig E) as (m & tau & us & Htr & Et & Eu & Hret).
      cbn beta in *. rewrite E0 in *. fold hr in Hh, Hh0, Hbig |- *. set (tf := B2R (val sf)) in *.
      assert (Pka : 0 <= ka) by apply ulp_ge_0.
      assert (Pe : 0 <= (eps + ka) / hr) by (apply Rmult_le_pos; [lra|left; apply Rinv_0_lt_compat; lra]).
      assert (Kh : ka <= hr).
      { assert (X : (eps + ka) / hr * hr <= 1 * hr) by (apply Rmult_le_compat_r; lra). replace ((eps + ka) / hr * hr) with (eps + ka) in X by (field; lra). lra. }
      destruct Htr as (T0 & U0 & Hst).
      assert (Hka : forall j, (j < m)%nat -> Rabs (tau (S j) - (tau j + B2R (val h))) <= ka / 2).
      { intros j Hj. destruct (Hst j Hj) as (S1 & S2 & _). rewrite S1. assert (X : Rabs (rnd (tau j + B2R (val h)) - (tau j + B2R (val h))) <= / 2 * ulp64 (tau j + B2R (val h))) by apply (error_le_half_ulp radix2 fx).
        eapply Rle_trans; [exact X|]. assert (ulp64 (tau j + B2R (val h)) <= ka) by (apply ulp_le_pos; [exact fexp_ok|exact fexp_mono| |]; unfold hr in *; lra). lra. }
      assert (Grow : forall j, (j <= m)%nat -> t0 + INR j * (hr / 2) <= tau j).
      { induction j as [|j IH]; intros Hj; [change (INR 0) with 0; lra|]. specialize (IH ltac:(lia)). assert (X := Hka j ltac:(lia)). apply Rabs_le_inv in X. rewrite S_INR. fold hr in X. lra. }
      assert (Hm : INR m * hr <= 2 * (tf - t0) + hr).
      { destruct m as [|m]; [change (INR 0) with 0; lra|]. rewrite S_INR. assert (X := Grow m ltac:(lia)). destruct (Hst m ltac:(lia)) as (_ & S2 & _). lra. }
      assert (Ps : 0 <= (tf - t0) / hr) by (apply Rmult_le_pos; [lra|left; apply Rinv_0_lt_compat; lra]).
      assert (Ps2 : 0 <= ka * ((tf - t0) / hr)) by (apply Rmult_le_pos; assumption).
      assert (HmT : INR m * hr <= M1) by (unfold M1; lra).
      assert (Hmax : forall j, (j <= m)%nat -> t0 <= tau j <= tf + hr + ka).
      { intros j Hj. assert (P1 := Grow j Hj). assert (0 <= INR j * (hr / 2)) by (apply Rmult_le_pos; [apply pos_INR|lra]). split; [lra|].
        destruct j as [|j]; [lra|]. assert (X := Hka j ltac:(lia)). apply Rabs_le_inv in X. fold hr in X. destruct (Hst j ltac:(lia)) as (_ & S2 & _). lra. }
      assert (TR : forall j, total (map (fun _ : nat => hr) (seq 0 j)) = INR j * hr).
      { intros j. unfold total. generalize 0%nat. induction j as [|j IH]; intros b; [cbn; lra|]. cbn [seq map fold_right]. rewrite IH, S_INR. lra. }
      assert (Htot : t0 + total (map (fun j : nat => B2R (val h)) (seq 0 m)) <= t1).
      { fold hr. rewrite TR. destruct m as [|m]; [change (INR 0) with 0; lra|]. rewrite S_INR.
        destruct (Hst m ltac:(lia)) as (_ & S2 & _). assert (G := Grow m ltac:(lia)).
        assert (D := drift (S m) tau (fun _ => hr) (ka / 2) Hka m ltac:(lia)). cbn beta in D.
        assert (Ef : firstn m (map (fun _ : nat => hr) (seq 0 (S m))) = map (fun _ => hr) (seq 0 m)).
        { rewrite seq_S, map_app, firstn_app, map_length, seq_length, Nat.sub_diag, firstn_O, app_nil_r. rewrite <- (seq_length m 0) at 1. rewrite <- (map_length (fun _ : nat => hr)). apply firstn_all. }
        rewrite Ef, TR, T0 in D. apply Rabs_le_inv in D.
        assert (I : INR m * (ka / 2) <= ka * ((tf - t0) / hr)).
        { replace (ka * ((tf - t0) / hr)) with ((tf - t0) * / hr * ka) by (unfold Rdiv; ring). replace (INR m * (ka / 2)) with (INR m / 2 * ka) by field.
          apply Rmult_le_compat_r; [exact Pka|]. apply Rmult_le_reg_r with hr; [lra|]. replace ((tf - t0) * / hr * hr) with (tf - t0) by (field; lra). lra. }
        lra. }
      assert (MI : INR m <= M1 / hr). { apply Rmult_le_reg_r with hr; [lra|]. replace (M1 / hr * hr) with M1 by (field; lra). exact HmT. }
      assert (Pm := pos_INR m). assert (Pp : 0 <= hr ^ p) by (apply pow_le; lra).
      assert (Pi : 0 < / hr) by (apply Rinv_0_lt_compat; lra). assert (Pei : 0 <= eps / hr) by (apply Rmult_le_pos; lra). assert (Pki : 0 <= ka / hr) by (apply Rmult_le_pos; lra).
      assert (Esum : (eps + ka) / hr = eps / hr + ka / hr) by (field; lra).
      assert (X1 : INR m * eps <= M1 * (eps / hr)). { replace (M1 * (eps / hr)) with (M1 / hr * eps) by (field; lra). apply Rmult_le_compat_r; assumption. }
      assert (X2 : INR m * ka <= M1 * (ka / hr)). { replace (M1 * (ka / hr)) with (M1 / hr * ka) by (field; lra). apply Rmult_le_compat_r; assumption. }
      assert (Xd : 0 <= (M1 - 1) * (d + e)) by (apply Rmult_le_pos; lra). assert (Xp : 0 <= (M1 - 1) * hr ^ p) by (apply Rmult_le_pos; lra).
      assert (Hde' : d + e + INR m * eps <= r0).
      { assert (M1 * (d + e + (eps + ka) / hr) <= M1 * (r0 / M1)) by (apply Rmult_le_compat_l; lra). replace (M1 * (r0 / M1)) with r0 in H by (field; lra).
        rewrite Esum in H. assert (0 <= M1 * (ka / hr)) by (apply Rmult_le_pos; lra). lra. }
      assert (Hka1 : forall j, (j < m)%nat -> Rabs (tau (S j) - (tau j + B2R (val h))) <= ka) by (intros j Hj; assert (X := Hka j Hj); lra).
      assert (Hmax1 : forall j, (j <= m)%nat -> t0 <= tau j <= t1) by (intros j Hj; assert (X := Hmax j Hj); lra).
      assert (HH1 : 0 <= hr <= hb) by lra. assert (HH2 : hr <= 1) by lra.
      assert (G : forall j, (j <= m)%nat -> vle n (csub (us j) (u (tau j))) ((C + La) * M1 * (d + e + hr ^ p + (eps + ka) / hr))).
      { intros j Hj.
        assert (Y := near_run n t0 t1 u p La HLa Hlip C hb r0 (cs_good (lower pr) k) (cs_Phi (lower pr) Nf k) e eps (cs_Phi pr Nf k) (cs_good pr k) HC Heps Hns
                    (fun x Hx Hg => cs_Phi_64 Ha Hcfg Nf Hx Hg) v tf m tau (fun _ => val h) us ka hr d (conj T0 (conj U0 Hst))
                    Hka1 (fun i _ => Rle_refl _) Pka HH1 HH2 Hd Hde' Hv
                    Hmax1 Htot j Hj).
        eapply vle_mono; [exact Y|]. rewrite Rmult_assoc, Rmult_plus_distr_r. apply Rplus_le_compat.
        - apply Rmult_le_compat_l; [exact HC|]. rewrite Esum. assert (0 <= M1 * (ka / hr)) by (apply Rmult_le_pos; lra). lra.
        - apply Rmult_le_compat_l; [exact HLa|]. rewrite Esum. assert (0 <= M1 * (eps / hr)) by (apply Rmult_le_pos; lra). lra. }
      split.
      + assert (A := accurate_trace n u _ tau us m G). rewrite <- Et in A. exact (eq_ind_r (fun l : list cvec => accurate n u _ _ l) A Eu).
      + intros v' Ev. destruct (Hret v' Ev) as [-> Hge]. exists (tau m). split; [|apply G; lia]. split; [exact Hge|apply (Hmax m); lia].
    - intros k Nf goodR Psi [Inv HM] Hns Hsame cfg compute_s fuel v s0 sf hi o w r o' w' d H Hcf Hff F0 Ff E0 Hsf Hbig Hst0 Hd Hv E mm ka HG HH HHk Hde Hend.
      assert (Hsf' : 0 <= rval s0 < rval sf) by (cbn beta in *; lra). assert (Hst1 : start_ok (rval s0) (rval sf) hi) by (cbn beta in *; rewrite E0; exact Hst0).
      destruct (as_times64 HM Hcf Hff fuel v s0 sf hi o w F0 Ff Hsf' Hbig Hst1 E) as (m & tau & ha & us & Htr & Hin & Et & Eu & Hret).
      cbn beta in *. rewrite E0 in *. set (tf := B2R (val sf)) in *.
      assert (Em : mm = INR m + 1).
      { unfold mm. rewrite <- S_INR. f_equal. assert (X := f_equal (@length R) Et). rewrite !map_length, seq_length in X. exact X. }
      clearbody mm. subst mm. assert (Pm := pos_INR m).
      assert (Pka : 0 <= ka) by apply ulp_ge_0.
      destruct Htr as (T0 & U0 & Hst).
      assert (Ftf : fmt tf) by apply fmt_b.
      assert (Stf : tf <= succ64 tf) by apply succ_ge_id.
      assert (Utf : succ64 tf - tf <= ka).
      { rewrite succ_eq_pos by lra. assert (ulp64 tf <= ka) by (apply ulp_le_pos; [exact fexp_ok|exact fexp_mono|lra|exact Stf]). lra. }
      assert (Hka : forall j, (j < m)%nat -> Rabs (tau (S j) - (tau j + B2R (ha j))) <= ka).
      { intros j Hj. destruct (Hst j Hj) as (S1 & S2 & _). assert (I := Hin (S j) ltac:(lia)). 
        assert (X : Rabs (rnd (tau j + B2R (ha j)) - (tau j + B2R (ha j))) <= / 2 * ulp64 (rnd (tau j + B2R (ha j)))).
        { apply (error_le_half_ulp_round radix2 fx (fun x => negb (Z.even x))). }
        rewrite <- S1 in X. assert (ulp64 (tau (S j)) <= ka) by (apply ulp_le_pos; [exact fexp_ok|exact fexp_mono|lra|lra]). lra. }
      assert (Pmk : 0 <= INR m * ka) by (apply Rmult_le_pos; assumption). assert (Pme : 0 <= INR m * eps) by (apply Rmult_le_pos; assumption).
      assert (Hmax : forall j, (j < m)%nat -> B2R (ha j) <= H + ka).
      { intros j Hj. assert (X := Hka j Hj). apply Rabs_le_inv in X.
        assert (Y : tau (S j) - tau j <= H).
        { assert (HG' : gaps_at_most H (map tau (seq 0 (S m)))) by exact (eq_ind _ (fun l => gaps_at_most H l) HG _ Et).
          assert (Z := HG' j ltac:(rewrite map_length, seq_length; lia)).
          assert (V : forall i, (i <= m)%nat -> nth i (map tau (seq 0 (S m))) 0 = tau i).
          { intros i Hi. rewrite (nth_indep _ 0 (tau 0%nat)) by (rewrite map_length, seq_length; lia). rewrite map_nth, seq_nth by lia. reflexivity. }
          rewrite !V in Z by lia. exact Z. }
        lra. }
      assert (Htau : forall j, (j <= m)%nat -> t0 <= tau j <= t1) by (intros j Hj; assert (X := Hin j Hj); lra).
      assert (Htot : t0 + total (map (fun j => B2R (ha j)) (seq 0 m)) <= t1).
      { assert (D := drift m tau (fun j => B2R (ha j)) ka Hka m (Nat.le_refl m)). rewrite T0 in D.
        set (hs := map (fun j => B2R (ha j)) (seq 0 m)) in *. assert (Fa : firstn m hs = hs). { rewrite <- (seq_length m 0) at 1. rewrite <- (map_length (fun j => B2R (ha j))). apply firstn_all. }
        rewrite Fa in D. apply Rabs_le_inv in D. assert (I := Hin m (Nat.le_refl m)). lra. }
      assert (Pp : 0 <= (H + ka) ^ p) by (apply pow_le; lra).
      assert (G : forall j, (j <= m)%nat -> vle n (csub (us j) (u (tau j))) (C * (d + e + (H + ka) ^ p + INR m * eps) + La * (INR m * ka))).
      { assert (H1 : 0 <= H + ka <= hb) by lra. assert (H2 : H + ka <= 1) by lra. assert (H3 : d + e + INR m * eps <= r0) by lra.
        exact (near_run n t0 t1 u p La HLa Hlip C hb r0 goodR Psi e eps (fun h v => fst (as_Phi pr Nf k h v)) (as_good pr k) HC Heps Hns Hsame
                    v tf m tau ha us ka (H + ka) d (conj T0 (conj U0 Hst)) Hka Hmax Pka H1 H2 Hd H3 Hv Htau Htot). }
      set (Q := d + e + (H + ka) ^ p + (INR m + 1) * (eps + ka)).
      assert (HQ : C * (d + e + (H + ka) ^ p + INR m * eps) + La * (INR m * ka) + La * ka <= (C + La) * M1 * Q).
      { assert (PQ : 0 <= Q) by (unfold Q; lra).
        assert (X1 : C * (d + e + (H + ka) ^ p + INR m * eps) <= C * Q) by (apply Rmult_le_compat_l; [exact HC|unfold Q; lra]).
        assert (X2 : La * (INR m * ka + ka) <= La * Q) by (apply Rmult_le_compat_l; [exact HLa|unfold Q; lra]).
        assert (X3 : (C + La) * Q * 1 <= (C + La) * Q * M1) by (apply Rmult_le_compat_l; [apply Rmult_le_pos; assumption|exact HM1]). lra. }
      assert (PLk : 0 <= La * ka) by (apply Rmult_le_pos; assumption).
      split.
      + assert (A := accurate_trace n u _ tau us m (fun j Hj => vle_mono n _ _ ((C + La) * M1 * Q) (G j Hj) ltac:(lra))). rewrite <- Et in A. exact (eq_ind_r (fun l : list cvec => accurate n u _ _ l) A Eu).
      + intros v' Ev. destruct (Hret v' Ev) as [-> Hge]. assert (I := Hin m (Nat.le_refl m)).
        assert (Z := Hlip (tau m) tf (Htau m (Nat.le_refl m)) ltac:(lra)). rewrite Rabs_pos_eq in Z by lra.
        eapply vle_mono; [eapply vle_ext; [|exact (vle_add n _ _ _ _ (G m (Nat.le_refl m)) Z)]|].
        * intros i _. unfold cadd, csub. ring.
        * assert (La * (tau m - tf) <= La * ka) by (apply Rmult_le_compat_l; lra). lra.
  Qed.
  Theorem lift64 C r0 : 0 <= C -> 0 < r0 ->
    exists C' r0', 0 <= C' /\ 0 < r0' /\
    forall a W (pr : problem (Gops a) W) e eps hb, scalars64 a -> cfg64 (p_cfg pr) -> 0 <= e -> 0 <= eps ->
      (forall k, cs_rclaim n t0 t1 u p C hb r0 (lower pr) k e eps -> cs_claim64 n t0 t1 u p C' (Rmin hb 1) r0' pr k e eps) /\
      (forall k, k <> IF45DPd -> as_rclaim n t0 t1 u p C hb r0 (lower pr) k e eps -> as_claim64 n t0 t1 u p C' (Rmin hb 1) r0' pr k e eps).
  Proof.
    intros HC Hr0. destruct (lift64_any C r0 HC Hr0) as (C' & r0' & P1 & P2 & P3). exists C', r0'. split; [exact P1|]. split; [exact P2|].
    intros a W pr e eps hb Ha Hcfg He Heps. destruct (P3 a W pr e eps hb Ha Hcfg He Heps) as [G1 G2]. split; [exact G1|].
    intros k Hk [(Nf & HNL & Hns) _]. apply (G2 k Nf (as_good (lower pr) k) (fun h v => fst (as_Phi (lower pr) Nf k h v))).
    - exact (as_model_sound1_eq pr Nf HNL k (fun x y => as_uc_eq Ha pr Hcfg x y Hk)).
    - exact Hns.
    - intros x Hx Hg. exact (conj (proj1 (as_Phi_64 Ha Hcfg Nf Hk Hx Hg)) (fun y => f_equal fst (proj2 (as_Phi_64 Ha Hcfg Nf Hk Hx Hg) y))).
  Qed.
End Lift.
