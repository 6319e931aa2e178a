(** * C77: the error estimate of IF45DP near a smooth solution

    The error weights coded in rkstiff/if45dp.py sum to -9/320 instead of 0 (C35). So near a smooth solution the estimate is
    [-(9/320) h N(u(t)) + O(h (h + d))], whatever the problem: it is of order one. An accepted step is therefore at most
    proportional to the tolerance, and the number of steps grows like the inverse of the tolerance. *)

From Coq Require Import ZArith List Bool Reals Lra Lia FunctionalExtensionality QArith Qreals Setoid Morphisms.
From Coquelicot Require Import Hierarchy Derive RInt Complex.
From Verif Require Import Scalars Control ControlCS ControlCSReal ControlAS ControlASReal ControlSim ControlSound PropsControl Arrays SchemeBase
     SchemeIF SchemeETD4 SchemeETD5 Solvers SchemeFacts SchemeSound SchemeFamily SchemePartial SchemeForm CInst SpecRK
     SchemeIFReal PropsCache PropsIF SpecPhi SpecPoly ContourReal SpecERK SchemeETDReal SchemeETDCoefs PropsPsi PropsETD
     PropsLinear ContourMatrix MatrixFlow PropsMatrix Tolerance PropsTolerance Asym Solution LocalRK4 Stable Converge Voc LocalKro MatExp ConvRuns ConvMethods
     PropsConverge OrderWords OrderLocal OrderMethods OrderSharp PropsOrder5 Estimate Raises ControlAccept PropsEstimate ControlTested PropsAccept.
Import ListNotations.
Local Open Scope R_scope.

(** ** The leading term *)
Lemma dp_hat_local n p L Ex N t0 tf rho K u f J J1 PH : matflow n L Ex -> smooth n p L N t0 tf rho K u f J -> Jsmooth n t0 tf K J J1 -> phi_family n L (tf - t0) Ex PH ->
  (1 <= p)%nat ->
  bigO n R (adm t0 tf) 2 (fun t h => csub (csub (erk_step (law_erk (without_weights DP5 DP5_hat_coded) (mflow n Ex) h) N h (u t)) (u (t + h))) (rscal (9 / 320 * h) (N (u t)))).
Proof.
  intros HF HS HJ HP H1.
  assert (X := table_local n p L Ex N t0 tf rho K u f J J1 PH HF HS HJ HP 1 (law_table (without_weights DP5 DP5_hat_coded)) H1 ltac:(vm_compute; reflexivity)).
  assert (E : flocal 1 (law_table (without_weights DP5 DP5_hat_coded)) = ([((9 # 320)%Q, ([], 0%nat))], 1%nat)) by (vm_compute; reflexivity).
  rewrite E in X. clear E. cbn [fst snd] in X. eapply O_ext; [|exact X]. intros t h Ha i Hi.
  assert (HN := so_N _ _ _ _ _ _ _ _ _ _ _ HS).
  assert (Ht : t0 <= t <= tf) by (destruct Ha as (A1 & A2 & A3); lra).
  unfold csub. rewrite (erk_step_ext (below n) N HN _ _ h (u t) (u t) (law_table_eq n L (tf - t0) Ex PH HP (without_weights DP5 DP5_hat_coded) h eq_refl) (fun _ _ => eq_refl) i Hi).
  f_equal. rewrite fval_cons, fval_nil. unfold tval, wval, wbase, wdeg. cbn [fst snd fold_right Nat.leb]. unfold cadd, czero, cscal.
  rewrite (so_f0 _ _ _ _ _ _ _ _ _ _ _ HS t Ht i Hi). 
  replace (Q2R (9 # 320) * h ^ 1) with (9 / 320 * h) by (unfold Q2R; cbn; field). ring.
Qed.

(** One attempt from a vector within [d] of the solution. *)
Definition dp_leading (n : nat) (t0 t1 : R) (u : R -> cvec) (C h0 r0 : R) {W} (p : problem Cops W) (N : cvec -> cvec) : Prop :=
  forall t h v d, t0 <= t -> 0 < h <= h0 -> t + h <= t1 -> 0 <= d <= r0 -> vle n (csub v (u t)) d ->
    vle n (csub (snd (as_Phi p N IF45DPd h v)) (rscal (- 9 / 320 * h) (N (u t)))) (C * h * (h + d)).

Theorem C77_leading_term :
  forall n (L : cvec) N t0 t1 rho K u f J J1, smooth n 1 (dmat L) N t0 t1 rho K u f J -> Jsmooth n t0 t1 K J J1 ->
  exists C h0 r0, 0 <= C /\ 0 < h0 /\ 0 < r0 /\
    forall W (p : problem Cops W), p_vec p = L -> dp_leading n t0 t1 u C h0 r0 p N.
Proof.
  intros n L N t0 t1 rho K u f J J1 HS HJ. assert (HF := dexp_flow n L). assert (HN := so_N _ _ _ _ _ _ _ _ _ _ _ HS).
  assert (HT : 0 <= t1 - t0) by (assert (X := so_time _ _ _ _ _ _ _ _ _ _ _ HS); lra).
  assert (Hc : forall b, Forall (fun c => 0 <= Q2R c <= 1) (tb_c (without_weights DP5 b))).
  { intros b. cbn [without_weights DP5 tb_c]. repeat constructor; unfold Q2R; cbn; lra. }
  destruct (law_close n (dmat L) (dexp L) HF DP5 (t1 - t0) (Hc [])) as (A1 & S1 & HA1 & Hc1).
  destruct (law_close n (dmat L) (dexp L) HF (without_weights DP5 DP5_hat_coded) (t1 - t0) (Hc _)) as (A2 & S2 & HA2 & Hc2).
  destruct (near_step n 1 (dmat L) N t0 t1 rho K u f J HS A1 S1 HA1) as (D1 & k1 & HD1 & Hk1 & P1).
  destruct (near_step n 1 (dmat L) N t0 t1 rho K u f J HS A2 S2 HA2) as (D2 & k2 & HD2 & Hk2 & P2).
  assert (X1 : bigO n R (adm t0 t1) 2 (fun t h => csub (erk_step (law_erk DP5 (mflow n (dexp L)) h) N h (u t)) (u (t + h)))).
  { assert (X := table_local n 1 (dmat L) (dexp L) N t0 t1 rho K u f J J1 (dPHI L) HF HS HJ (diag_family n L _ HT) 1 (law_table DP5) (le_n _) ltac:(vm_compute; reflexivity)).
    assert (E : flocal 1 (law_table DP5) = ([], 1%nat)) by (vm_compute; reflexivity). rewrite E in X. clear E. cbn [fst snd] in X.
    eapply O_ext; [|exact X]. intros t h _ i Hi. rewrite fval_nil. unfold csub, czero.
    rewrite (erk_step_ext (below n) N HN _ _ h (u t) (u t) (law_table_eq n (dmat L) (t1 - t0) (dexp L) (dPHI L) (diag_family n L _ HT) DP5 h eq_refl) (fun _ _ => eq_refl) i Hi). ring. }
  destruct X1 as (C1 & h1 & HC1 & Hh1 & G1).
  destruct (dp_hat_local n 1 (dmat L) (dexp L) N t0 t1 rho K u f J J1 (dPHI L) HF HS HJ (diag_family n L _ HT) (le_n _)) as (C2 & h2 & HC2 & Hh2 & G2).
  assert (Hrho := so_rho _ _ _ _ _ _ _ _ _ _ _ HS).
  exists (C1 + C2 + D1 + D2), (Rmin (Rmin h1 h2) (Rmin k1 k2)), (rho / 2).
  split; [lra|]. split; [repeat apply Rmin_glb_lt; assumption|]. split; [lra|].
  intros W p E t h v d Ht Hh Hth Hd Hv.
  assert (M1 := Rmin_l (Rmin h1 h2) (Rmin k1 k2)). assert (M2 := Rmin_r (Rmin h1 h2) (Rmin k1 k2)).
  assert (M3 := Rmin_l h1 h2). assert (M4 := Rmin_r h1 h2). assert (M5 := Rmin_l k1 k2). assert (M6 := Rmin_r k1 k2).
  assert (Hht : 0 < h <= t1 - t0) by lra.
  assert (Q1 := P1 _ _ t h v d 0 (Hc1 h Hht) ltac:(lra) ltac:(lra) ltac:(lra) ltac:(lra) Hv).
  assert (Q2 := P2 _ _ t h v d 0 (Hc2 h Hht) ltac:(lra) ltac:(lra) ltac:(lra) ltac:(lra) Hv).
  assert (R1 := G1 t h (conj Ht (conj (proj1 Hh) Hth)) ltac:(lra)). assert (R2 := G2 t h (conj Ht (conj (proj1 Hh) Hth)) ltac:(lra)).
  cbn beta in R1, R2.
  set (m1 := law_erk DP5 (mflow n (dexp L)) h) in *. set (m2 := law_erk (without_weights DP5 DP5_hat_coded) (mflow n (dexp L)) h) in *.
  assert (Y : forall tb, veq (below n) (lawson tb (dflow L) N h v) (erk_step (law_erk tb (mflow n (dexp L)) h) N h v)).
  { intros tb. rewrite (veq_all _ _ (lawson_if_step all (dflow L) N (dflow_flow L) (respects_all N) tb h v)), <- law_erk_step.
    apply (erk_step_ext (below n) N HN); [|reflexivity].
    apply law_erk_eq. intros s a b Hab i Hi. rewrite (dexp_dflow n L s b i Hi). unfold dflow. rewrite (Hab i Hi). reflexivity. }
  eapply vle_mono; [eapply vle_ext; [|exact (vle_add n _ _ _ _ (vle_add n _ _ _ _ Q1 R1) (vle_rscal n (-1) _ _ (vle_add n _ _ _ _ Q2 R2)))]|].
  - intros i Hi. unfold cadd, csub, cscal. rewrite C35_error_vector, E, (Y DP5 i Hi), (Y (without_weights DP5 DP5_hat_coded) i Hi). fold m1 m2.
    replace (- 9 / 320 * h) with (- (9 / 320 * h)) by field. rewrite RtoC_m1, RtoC_opp. ring.
  - rewrite (Rabs_left (-1)) by lra.
    assert (Z1 : 0 <= (D1 + D2) * h * h) by (apply Rmult_le_pos; [apply Rmult_le_pos; lra|lra]).
    assert (Z2 : 0 <= (C1 + C2) * h * d) by (apply Rmult_le_pos; [apply Rmult_le_pos; lra|lra]). nra.
Qed.

(** ** Accepted steps *)
(** A component that takes part in the test and carries an estimate of size [s]. *)
Lemma sig_norm_carries n cut M (u v : cvec) i s : (i < n)%nat -> cut * M < Cmod (u i) -> 0 <= s -> s <= Cmod (v i) -> s <= sig_norm n cut M u v.
Proof.
  intros Hi Hs H0 H. rewrite <- (sqrt_pow2 s H0). apply sqrt_le_1_alt.
  apply Rle_trans with (if Rlt_dec (cut * M) (Cmod (u i)) then Cmod (v i) ^ 2 else 0).
  - destruct (Rlt_dec (cut * M) (Cmod (u i))) as [_|X]; [apply pow_incr; lra|contradiction].
  - apply (rsum_ge n (fun i => if Rlt_dec (cut * M) (Cmod (u i)) then Cmod (v i) ^ 2 else 0)); [|exact Hi].
    intros l _. destruct (Rlt_dec _ _); [apply pow_le, Cmod_ge_0|lra].
Qed.
Lemma Cmod_near_le (a b : Complex.C) d : Cmod (a - b)%C <= d -> Cmod a <= Cmod b + d.
Proof. intros H. assert (X := Cmod_triangle (a - b)%C b). replace (a - b + b)%C with a in X by ring. lra. Qed.
Lemma Forall2_nth A B (P : A -> B -> Prop) l l' a b j : Forall2 P l l' -> (j < length l)%nat -> P (nth j l a) (nth j l' b).
Proof. intros H. revert j. induction H as [|x y l l' Hp _ IH]; intros [|j] Hj; cbn in *; try lia; [exact Hp|apply IH; lia]. Qed.
Lemma total_bound hs x : Forall (fun h => h <= x) hs -> total hs <= INR (length hs) * x.
Proof. unfold total. induction 1 as [|h hs Hh _ IH]; [cbn; lra|]. cbn [fold_right length]. rewrite S_INR. lra. Qed.

(** Component [i] carries a nonlinear term of size at least [nu] and stays above the cutoff, with the margin [D] that the run
    needs; [K] bounds the solution. *)
Definition dp_steps (n : nat) (t0 t1 K : R) (u : R -> cvec) (C h0 r0 : R) {W} (p : problem Cops W) (N : cvec -> cvec) : Prop :=
  forall (ks : consts (T Rops)) cfg q fuel v (s0 sf : pynum (T Rops)) hi (o : asobj Rops (vec Cops) W (as_model p IF45DPd)) w r o' w' d H nu i,
    (0 < MIN_S ks < 1 /\ 1 <= MAX_S ks) -> valid_config cfg -> 0 <= adapt_cutoff cfg -> (0 < q)%nat ->
    val s0 = t0 -> val s0 < val sf -> val sf <= t1 -> match hi with Some h => 0 < val h | None => True end ->
    0 <= d <= r0 -> vle n (csub v (u t0)) d ->
    as_evolve ks cfg (compute_s_vec cfg q n) fuel v s0 sf hi true 1 o w = (r, o', w') ->
    gaps_at_most H (map val (a_t o')) -> 0 <= H <= h0 ->
    let D := C * (d + H ^ 5) in
    D <= r0 -> (i < n)%nat -> (forall t, t0 <= t <= t1 -> nu <= Cmod (N (u t) i)) ->
    (forall t j, t0 <= t <= t1 -> (j < n)%nat -> adapt_cutoff cfg * (Cmod (u t j) + D) < Cmod (u t i) - D) ->
    let a := 9 / 320 * nu - C * (H + D) in
    let b := epsilon cfg * safety_f cfg ^ q * (sqrt (INR n) * (K + D)) in
    0 < a ->
    (forall j, (S j < length (a_t o'))%nat -> (nth (S j) (map val (a_t o')) 0 - nth j (map val (a_t o')) 0) * a <= b) /\
    forall v', r = Ret v' -> (val sf - val s0) * a <= INR (length (a_t o') - 1) * b.

Lemma firstn_S_nth (hs : list R) j : (j < length hs)%nat -> firstn (S j) hs = firstn j hs ++ [nth j hs 0].
Proof. revert hs. induction j as [|j IH]; intros [|h hs] H; cbn [length] in H; try lia; [reflexivity|]. cbn [nth]. rewrite !firstn_cons. rewrite (IH hs) by lia. reflexivity. Qed.
Lemma steps_gaps (Psi : R -> cvec -> cvec) t v hs ts vs : steps_of Psi t v hs ts vs ->
  length ts = S (length hs) /\ forall j, (j < length hs)%nat -> nth (S j) ts 0 - nth j ts 0 = nth j hs 0.
Proof.
  intros [-> _]. split; [rewrite map_length, seq_length; reflexivity|]. intros j Hj.
  assert (V : forall k, (k <= length hs)%nat -> nth k (map (fun j => t + total (firstn j hs)) (seq 0 (S (length hs)))) 0 = t + total (firstn k hs)).
  { intros k Hk. rewrite (nth_indep _ 0 (t + total (firstn 0 hs))) by (rewrite map_length, seq_length; lia).
    rewrite (map_nth (fun j => t + total (firstn j hs))), seq_nth by lia. reflexivity. }
  rewrite !V by lia. rewrite (firstn_S_nth hs j Hj). rewrite total_split. assert (E : total [nth j hs 0] = nth j hs 0) by (unfold total; cbn [fold_right]; ring). rewrite E. ring.
Qed.

Theorem C77_steps :
  forall n (L : cvec) N t0 t1 rho K u f J J1, smooth n 5 (dmat L) N t0 t1 rho K u f J -> Jsmooth n t0 t1 K J J1 ->
  exists C h0 r0, 0 <= C /\ 0 < h0 /\ 0 < r0 /\
    forall W (p : problem Cops W), computes p N -> p_vec p = L -> dp_steps n t0 t1 K u C h0 r0 p N.
Proof.
  intros n L N t0 t1 rho K u f J J1 HS HJ.
  destruct (C74_if45dp n L N t0 t1 rho K u f J J1 HS HJ) as (C1 & h1 & r1 & HC1 & Hh1 & Hr1 & G1).
  destruct (C77_leading_term n L N t0 t1 rho K u f J J1 (smooth_weak _ 5 1 _ _ _ _ _ _ _ _ _ ltac:(lia) HS) HJ) as (C2 & h2 & r2 & HC2 & Hh2 & Hr2 & G2).
  destruct (max_min3 C1 h1 r1 C2 h2 r2 HC1 Hh1 Hr1 HC2 Hh2 Hr2) as ((X1 & X2 & X3) & Y1 & Y2 & Y3 & Y4 & Y5 & Y6).
  set (C := Rmax C1 C2) in *. set (h0 := Rmin h1 h2) in *. set (r0 := Rmin r1 r2) in *. clearbody C h0 r0.
  exists C, h0, r0. split; [exact X1|]. split; [exact X2|]. split; [exact X3|].
  intros W p Hp E ks cfg q fuel v s0 sf hi o w r o' w' d H nu i Hks Hcfg Hcut Hq E0 Hlt Hend Hhi Hd Hv Ev HG HH D HD Hi Hnu Hsig a b Ha.
  assert (HA := as_claim_weak n t0 t1 u 5 C1 h1 r1 C h0 r0 p IF45DPd 0 0 (conj HC1 Y1) Y3 Y5 (conj (Rle_refl 0) (Rle_refl 0)) (G1 W p Hp E)).
  destruct (HA ks cfg _ fuel v s0 sf hi o w r o' w' d H Hks Hcfg E0 Hlt Hend Hhi (proj1 Hd) ltac:(lra) Hv Ev HG HH) as [Acc _].
  replace (C * (d + 0 + H ^ 5)) with D in Acc by (unfold D; ring).
  assert (TB := times_between p N IF45DPd ks cfg _ fuel v s0 sf hi o w r o' w' Hp Hks Hcfg Hlt Hhi Ev). rewrite Forall_forall in TB.
  destruct (as_model_sound1 (F := Rops) (fun a b X => proj1 (Reqb_true a b) X) p N Hp IF45DPd) as [Inv HM].
  destruct (as_evolve_tested ks _ HM Hks Hcfg fuel v s0 sf hi o w Hlt Hhi Ev) as [Len St].
  destruct (as_evolve_steps ks _ HM Hks Hcfg fuel v s0 sf hi o w Hlt Hhi Ev) as (l & _ & _ & _ & L4 & L5).
  assert (HD0 : 0 <= D) by (unfold D; apply Rmult_le_pos; [exact X1|assert (P := pow_le H 5 (proj1 HH)); lra]).
  assert (Main : forall j, (S j < length (a_t o'))%nat -> (nth (S j) (map val (a_t o')) 0 - nth j (map val (a_t o')) 0) * a <= b).
  { intros j Hj. destruct (St j Hj) as (h & Hh & Hg & Ht & Hy & sv & x & Hc & Hac).
    assert (I1 : (j < length (map val (a_t o')))%nat) by (rewrite map_length; lia). assert (I2 : (S j < length (map val (a_t o')))%nat) by (rewrite map_length; exact Hj).
    assert (HGj := HG j I2).
    assert (T1 := TB _ (nth_In _ 0 I1)).
    assert (T2 := TB _ (nth_In _ 0 I2)).
    assert (A1 := Forall2_nth _ _ _ _ _ 0 v j Acc I1).
    assert (A2 := Forall2_nth _ _ _ _ _ 0 v (S j) Acc I2). cbn beta in A1, A2.
    rewrite E0 in T1, T2.
    assert (Q : exists t t' : R, t0 <= t <= val sf /\ t0 <= t' <= val sf /\ t' = t + h /\ t' - t <= H /\ vle n (csub (nth j (a_u o') v) (u t)) D /\
                vle n (csub (fst (as_Phi p N IF45DPd h (nth j (a_u o') v))) (u t')) D).
    { exists (nth j (map val (a_t o')) 0), (nth (S j) (map val (a_t o')) 0). split; [exact T1|]. split; [exact T2|]. split; [exact Ht|]. split; [exact HGj|].
      split; [exact A1|]. rewrite <- Hy. exact A2. }
    apply (Rle_trans _ (h * a)); [right; apply (f_equal (fun x : R => x * a)); rewrite Ht; ring|]. clear HGj T1 T2 A1 A2 Ht Hy I1 I2.
    destruct Q as (t & t' & T1 & T2 & -> & HGj & A1 & A2). set (y := nth j (a_u o') v) in *.
    set (cand := fst (as_Phi p N IF45DPd h y)) in *. set (err := snd (as_Phi p N IF45DPd h y)) in *.
    assert (Hacc : accepted (compute_s_vec cfg q n cand err)) by (apply accepted_iff; exists sv, x; split; [exact Hc|exact Hac]).
    destruct (is_max_exists n cand ltac:(lia)) as [M HMx].
    destruct (proj1 (proj1 (C05_acceptance_criterion cfg q n cand err M Hcfg Hq ltac:(lia) HMx)) Hacc) as (S0 & _ & S2).
    assert (B1 := G2 W p E t h y D ltac:(lra) ltac:(lra) ltac:(lra) ltac:(lra) A1). fold err in B1. specialize (B1 i Hi). unfold csub in B1.
    assert (B2 := Cmod_near _ _ _ B1). unfold cscal in B2. rewrite Cmod_mult, Cmod_R in B2.
    replace (Rabs (- 9 / 320 * h)) with (9 / 320 * h) in B2 by (rewrite Rabs_left1; lra).
    assert (B3 : h * a <= Cmod (err i)).
    { apply Rle_trans with (2 := B2). unfold a. assert (Z1 := Hnu t ltac:(lra)).
      assert (Z2 : 9 / 320 * h * nu <= 9 / 320 * h * Cmod (N (u t) i)) by (apply Rmult_le_compat_l; lra).
      assert (Z3 : C2 * h * (h + D) <= C * h * (H + D)) by (apply Rmult_le_compat; [apply Rmult_le_pos; lra|lra|apply Rmult_le_compat_r; lra|lra]). nra. }
    assert (B4 : adapt_cutoff cfg * M < Cmod (cand i)).
    { destruct HMx as [(k & Hk & Ek) _]. assert (Z1 := A2 i Hi). assert (Z2 := A2 k Hk). unfold csub in Z1, Z2.
      assert (Z3 := Cmod_near _ _ _ Z1). assert (Z4 : M <= Cmod (u (t + h) k) + D) by (rewrite <- Ek; exact (Cmod_near_le _ _ _ Z2)).
      assert (Z5 := Hsig (t + h) k ltac:(lra) Hk).
      assert (Z6 := Rmult_le_compat_l _ _ _ Hcut Z4). lra. }
    assert (B5 := sig_norm_carries n _ M cand err i (h * a) Hi B4 ltac:(apply Rmult_le_pos; lra) B3).
    apply Rle_trans with (1 := B5). apply Rle_trans with (1 := S2). unfold b. apply Rmult_le_compat_l.
    - apply Rmult_le_pos; [destruct Hcfg as (Z & _); lra|apply pow_le; lra].
    - apply sig_norm_le; [assert (Z := so_K _ _ _ _ _ _ _ _ _ _ _ HS); lra|].
      intros k Hk. assert (Z2 := A2 k Hk). unfold csub in Z2.
      assert (Z := Cmod_near_le _ _ _ Z2).
      assert (Z3 := so_u _ _ _ _ _ _ _ _ _ _ _ HS (t + h) ltac:(lra) k Hk). lra. }
  split; [exact Main|]. intros v' Er. destruct (L5 v' Er) as [_ Tot]. destruct (steps_gaps _ _ _ _ _ _ L4) as [N1 N2]. rewrite map_length in N1.
  replace (val sf - val s0) with (total l) by (rewrite <- Tot; lra). rewrite N1. replace (S (length l) - 1)%nat with (length l) by lia.
  assert (T : total l <= INR (length l) * (b / a)).
  { apply total_bound. apply Forall_forall. intros x Hx. destruct (In_nth l x 0 Hx) as (j & Hj & <-).
    assert (Z := Main j ltac:(rewrite N1; lia)). rewrite N2 in Z by exact Hj. apply Rmult_le_reg_r with a; [exact Ha|].
    replace (b / a * a) with b by (field; lra). exact Z. }
  apply Rle_trans with (INR (length l) * (b / a) * a); [apply Rmult_le_compat_r; lra|]. right. field. lra.
Qed.

(** ** No estimate of higher order *)
(** Even from a point of the solution the estimate is not bounded by a multiple of [h * h^ord] for any [ord >= 1]. *)
Theorem C77_estimate_refuted :
  forall ord C h0 r0, (1 <= ord)%nat -> 0 < h0 -> 0 <= r0 -> ~ est_claim 1 0 1 growu ord C h0 r0 growth growN IF45DPd 0.
Proof.
  intros ord C h0 r0 Ho Hh0 Hr0 HE.
  destruct (C77_leading_term 1 (p_vec growth) growN 0 1 1 3 growu growf growJ growJ1 (grow_smooth 1) grow_J) as (C1 & h1 & r1 & HC1 & Hh1 & Hr1 & G).
  assert (HCa := Rle_abs C). assert (HC0 := Rabs_pos C). set (B := C1 + Rabs C + 1) in *.
  set (h := Rmin (Rmin h0 h1) (Rmin 1 (9 / 640 / B))).
  assert (HB : 0 < B) by (unfold B; lra).
  assert (P0 : 0 < h) by (unfold h; repeat apply Rmin_glb_lt; try lra; apply Rdiv_lt_0_compat; lra).
  assert (P1 : h <= h0) by (unfold h; eapply Rle_trans; [apply Rmin_l|apply Rmin_l]).
  assert (P2 : h <= h1) by (unfold h; eapply Rle_trans; [apply Rmin_l|apply Rmin_r]).
  assert (P3 : h <= 1) by (unfold h; eapply Rle_trans; [apply Rmin_r|apply Rmin_l]).
  assert (P4 : B * h <= 9 / 640).
  { assert (X : h <= 9 / 640 / B) by (unfold h; eapply Rle_trans; [apply Rmin_r|apply Rmin_r]).
    apply (Rmult_le_compat_l B) in X; [|lra]. replace (B * (9 / 640 / B)) with (9 / 640) in X by (field; lra). exact X. }
  clearbody h.
  assert (Hv : vle 1 (csub (growu 0) (growu 0)) 0) by (intros i _; unfold csub; replace (growu 0 i - growu 0 i)%C with (RtoC 0) by ring; rewrite Cmod_0; lra).
  assert (X := G unit growth eq_refl 0 h (growu 0) 0 (Rle_refl 0) (conj P0 P2) ltac:(lra) ltac:(lra) Hv 0%nat ltac:(lia)).
  destruct (HE 0 h (growu 0) 0 (Rle_refl 0) (conj P0 P1) ltac:(lra) (Rle_refl 0) ltac:(lra) Hv eq_refl) as [Y _]. specialize (Y 0%nat ltac:(lia)).
  unfold csub in X. assert (Z := Cmod_near _ _ _ X).
  replace (Cmod (rscal (- 9 / 320 * h) (growN (growu 0)) 0%nat)) with (9 / 320 * h) in Z
    by (unfold cscal, growN, growu; rewrite exp_0, Cmod_mult, !Cmod_R, Rabs_R1, Rabs_left1 by lra; lra).
  assert (Pow : h ^ ord <= h).
  { destruct ord as [|o]; [lia|]. cbn [pow]. rewrite <- (Rmult_1_r h) at 3. apply Rmult_le_compat_l; [lra|]. rewrite <- (pow1 o). apply pow_incr. lra. }
  assert (Pow0 : 0 <= h ^ ord) by (apply pow_le; lra).
  assert (U : C * h * (h ^ ord + 0 + 0) <= Rabs C * h * h).
  { rewrite !Rplus_0_r. apply Rle_trans with (Rabs C * h * h ^ ord); [apply Rmult_le_compat_r; [exact Pow0|apply Rmult_le_compat_r; lra]|].
    apply Rmult_le_compat_l; [apply Rmult_le_pos; lra|exact Pow]. }
  assert (V : h * (B * h) <= h * (9 / 640)) by (apply Rmult_le_compat_l; lra). 
  replace (h * (B * h)) with ((C1 + Rabs C) * h * h + h * h) in V by (unfold B; ring). assert (W : 0 < h * h) by (apply Rmult_lt_0_compat; exact P0).
  assert (E1 : 9 / 320 * h - C1 * h * (h + 0) <= Rabs C * h * h) by (apply Rle_trans with (1 := Z); apply Rle_trans with (1 := Y); exact U). lra.
Qed.

Lemma stage_const h row rows c cs ks P : (forall i : nat, (RtoC 1 + RtoC h * lincomb row ks i)%C = RtoC P) ->
  rk_stages (fun _ w => w) 0 h (fun _ => RtoC 1) (row :: rows) (c :: cs) ks = rk_stages (fun _ w => w) 0 h (fun _ => RtoC 1) rows cs (ks ++ [fun _ => RtoC P]).
Proof. intros H. cbn [rk_stages]. f_equal. f_equal. f_equal. apply functional_extensionality. exact H. Qed.
Ltac stage := intros; cbn [lincomb app]; unfold Q2R; cbn [Qnum Qden]; apply injective_projections; cbn; field.
(** One attempt on [u' = u] from 1. *)
Lemma grow_dp h : fst (as_Phi growth growN IF45DPd h (fun _ => RtoC 1)) 0%nat = RtoC (1 + h + h^2/2 + h^3/6 + h^4/24 + h^5/120 + h^6/600) /\
  snd (as_Phi growth growN IF45DPd h (fun _ => RtoC 1)) 0%nat = RtoC (- (9/320*h + 9/400*h^2 + 9/1000*h^3 + 9/2000*h^4 + 97/120000*h^5 - 13/40000*h^6 + h^7/24000)).
Proof.
  assert (E : dflow (p_vec growth) = fun _ v => v).
  { apply functional_extensionality; intros t. apply functional_extensionality; intros v. apply functional_extensionality; intros i.
    unfold dflow. cbn [p_vec growth with_nl single]. replace (RtoC t * RtoC 0)%C with (RtoC 0) by ring. rewrite Cexp_0. ring. }
  assert (S : exists ks, rk_stages (fun _ w => w) 0 h (fun _ => RtoC 1) (tb_a DP5) (tb_c DP5) [] = ks /\
    forall i, (RtoC 1 + RtoC h * lincomb (tb_b DP5) ks i)%C = RtoC (1 + h + h^2/2 + h^3/6 + h^4/24 + h^5/120 + h^6/600) /\
      (RtoC 1 + RtoC h * lincomb (tb_b DP5) ks i - (RtoC 1 + RtoC h * lincomb DP5_hat_coded ks i))%C =
        RtoC (- (9/320*h + 9/400*h^2 + 9/1000*h^3 + 9/2000*h^4 + 97/120000*h^5 - 13/40000*h^6 + h^7/24000))).
  { cbn [DP5 tb_a tb_c tb_b].
  rewrite (stage_const h _ _ _ _ _ ((1/1)*h^0)) by stage.
  rewrite (stage_const h _ _ _ _ _ ((1/1)*h^0 + (1/5)*h^1)) by stage.
  rewrite (stage_const h _ _ _ _ _ ((1/1)*h^0 + (3/10)*h^1 + (9/200)*h^2)) by stage.
  rewrite (stage_const h _ _ _ _ _ ((1/1)*h^0 + (4/5)*h^1 + (8/25)*h^2 + (4/25)*h^3)) by stage.
  rewrite (stage_const h _ _ _ _ _ ((1/1)*h^0 + (8/9)*h^1 + (32/81)*h^2 + (424/1215)*h^3 + (-848/18225)*h^4)) by stage.
  rewrite (stage_const h _ _ _ _ _ ((1/1)*h^0 + (1/1)*h^1 + (1/2)*h^2 + (21/55)*h^3 + (-14/275)*h^4 + (7/550)*h^5)) by stage.
  rewrite (stage_const h _ _ _ _ _ ((1/1)*h^0 + (1/1)*h^1 + (1/2)*h^2 + (1/6)*h^3 + (1/24)*h^4 + (1/120)*h^5 + (1/600)*h^6)) by stage.
  cbn [rk_stages app]. eexists. split; [reflexivity|]. intros i. unfold DP5_hat_coded. split; stage. }
  destruct S as (ks & S1 & S2). destruct (S2 0%nat) as [S3 S4]. split.
  - rewrite C34_if45dp_candidate, E. unfold lawson, rk_step, growN. rewrite S1. exact S3.
  - rewrite C35_error_vector, E. unfold lawson, rk_step, growN. cbn [without_weights tb_a tb_b tb_c]. rewrite S1. exact S4.
Qed.
(** The number of steps of a completed run is at least a constant over the tolerance, however small the tolerance. *)
Definition dp_cfg (eps : R) : config (T Rops) := mk_config (A := T Rops) eps (5/4) (85/100) (8/10) (1/100) (1/10^16).
Theorem C77_growth_steps : exists tau, 0 < tau <= 1 /\ forall eps hi fuel v' o' w', 0 < eps -> match hi with Some h => 0 < val h | None => True end ->
  as_evolve the_consts (dp_cfg eps) (compute_s_vec (dp_cfg eps) 5 1) fuel (fun _ => RtoC 1) (num 0) (num tau) hi true 1
      (as_new_obj growth IF45DPd) tt = (Ret v', o', w') ->
  tau / 300 <= INR (length (a_t o') - 1) * eps.
Proof.
  destruct (C77_steps 1 (p_vec growth) growN 0 1 1 3 growu growf growJ growJ1 (grow_smooth 5) grow_J) as (C & h0 & r0 & HC & Hh0 & Hr0 & G).
  assert (Hp : computes growth growN) by (intros v w y w' E; injection E as <- _; reflexivity).
  set (tau := Rmin (Rmin 1 h0) (Rmin (r0 / (C + 1)) (1 / 200 / ((C + 1) * (C + 1))))).
  assert (Q : 0 < (C + 1) * (C + 1)) by (apply Rmult_lt_0_compat; lra).
  assert (T0 : 0 < tau).
  { unfold tau. apply Rmin_glb_lt; apply Rmin_glb_lt; try lra; apply Rdiv_lt_0_compat; lra. }
  assert (T1 : tau <= 1) by (unfold tau; eapply Rle_trans; [apply Rmin_l|apply Rmin_l]).
  assert (T2 : tau <= h0) by (unfold tau; eapply Rle_trans; [apply Rmin_l|apply Rmin_r]).
  assert (T3 : C * tau <= r0).
  { assert (X : tau <= r0 / (C + 1)) by (unfold tau; eapply Rle_trans; [apply Rmin_r|apply Rmin_l]).
    apply (Rmult_le_compat_r (C + 1)) in X; [|lra]. unfold Rdiv in X. rewrite Rmult_assoc, Rinv_l in X by lra. nra. }
  assert (T4 : C * (1 + C) * tau <= 1 / 200).
  { assert (X : tau <= 1 / 200 / ((C + 1) * (C + 1))) by (unfold tau; eapply Rle_trans; [apply Rmin_r|apply Rmin_r]).
    apply (Rmult_le_compat_r ((C + 1) * (C + 1))) in X; [|lra]. replace (1 / 200 / ((C + 1) * (C + 1)) * ((C + 1) * (C + 1))) with (1 / 200) in X by (field; lra). nra. }
  clearbody tau. exists tau. split; [lra|]. intros eps hi fuel v' o' w' Heps Hhi E.
  assert (Hcfg : valid_config (dp_cfg eps)) by (unfold valid_config; cbn; lra).
  assert (Hks : 0 < MIN_S the_consts < 1 /\ 1 <= MAX_S the_consts) by (cbn; lra).
  assert (TB := times_between growth growN IF45DPd the_consts (dp_cfg eps) _ fuel _ (num 0) (num tau) hi _ _ _ _ _ Hp Hks Hcfg T0 Hhi E).
  assert (HG := gaps_between _ _ _ TB). change (val (num tau) - val (num 0)) with (tau - 0) in HG. rewrite Rminus_0_r in HG.
  assert (P5 : tau ^ 5 <= tau).
  { change (tau ^ 5) with (tau * tau ^ 4). rewrite <- (Rmult_1_r tau) at 3. apply Rmult_le_compat_l; [lra|]. rewrite <- (pow1 4). apply pow_incr. lra. }
  assert (P50 : 0 <= tau ^ 5) by (apply pow_le; lra).
  set (D := C * (0 + tau ^ 5)). assert (HD0 : 0 <= D) by (unfold D; apply Rmult_le_pos; lra).
  assert (HD : D <= C * tau) by (unfold D; apply Rmult_le_compat_l; lra).
  assert (HCt : 0 <= C * tau) by (apply Rmult_le_pos; lra).
  assert (HCD : C * (tau + D) <= 1 / 200).
  { apply Rle_trans with (2 := T4). replace (C * (1 + C) * tau) with (C * (tau + C * tau)) by ring. apply Rmult_le_compat_l; lra. }
  assert (HD1 : D <= 1 / 200) by (assert (0 <= C * (C * tau)) by (apply Rmult_le_pos; lra); nra).
  assert (Bd : forall t, 0 <= t <= 1 -> 1 <= exp t <= 3).
  { intros t Ht. split; [assert (X := exp_ge_1 t ltac:(lra)); lra|]. apply Rle_trans with (exp 1); [apply exp_mono; lra|apply exp_le_3]. }
  destruct (G unit growth Hp eq_refl the_consts (dp_cfg eps) 5%nat fuel (fun _ => RtoC 1) (num 0) (num tau) hi (as_new_obj growth IF45DPd) tt (Ret v') o' w' 0 tau 1 0%nat)
    as [_ X]; try assumption; try (cbn; lra); try lra; try lia.
  - intros i _. unfold csub, growu. rewrite exp_0. replace (RtoC 1 - RtoC 1)%C with (RtoC 0) by ring. rewrite Cmod_0. lra.
  - fold D. lra.
  - intros t Ht. unfold growN, growu. rewrite Cmod_R. assert (Y := Bd t Ht). rewrite Rabs_pos_eq; lra.
  - fold D. intros t j Ht _. unfold growu. rewrite Cmod_R. assert (Y := Bd t Ht). rewrite Rabs_pos_eq by lra. cbn [adapt_cutoff dp_cfg]. lra.
  - fold D. lra.
  - specialize (X v' eq_refl). fold D in X. change (INR 1) with 1 in X. rewrite sqrt_1 in X. cbn [epsilon safety_f dp_cfg val num] in X.
    assert (Hn := pos_INR (length (a_t o') - 1)). set (m := INR (length (a_t o') - 1)) in *.
    assert (Y : (tau - 0) * (9 / 320 * 1 - C * (tau + D)) >= tau * (7 / 320)) by (apply Rle_ge; rewrite Rminus_0_r; apply Rmult_le_compat_l; lra).
    assert (S4 : 0 <= (8/10) ^ 5 <= 1) by lra.
    assert (Z : eps * (8 / 10) ^ 5 * (1 * (3 + D)) <= eps * (4 * (8/10)^5)) by (rewrite Rmult_assoc; apply Rmult_le_compat_l; [lra|nra]).
    assert (Z2 := Rmult_le_compat_l m _ _ Hn Z). nra.
Qed.

(** Completed runs exist: with a tolerance that accepts the whole interval at once. The hypotheses of the other theorems are met
    by the same problem. *)
Example C77_not_vacuous : smooth 1 5 (dmat (p_vec growth)) growN 0 1 1 3 growu growf growJ /\ Jsmooth 1 0 1 3 growJ growJ1 /\
  forall tau, 0 < tau <= 1 -> exists v' o' w',
  as_evolve the_consts (dp_cfg 10) (compute_s_vec (dp_cfg 10) 5 1) 1 (fun _ => RtoC 1) (num 0) (num tau) (Some (num tau)) true 1
      (as_new_obj growth IF45DPd) tt = (Ret v', o', w') /\ length (a_t o') = 2%nat.
Proof.
  split; [apply grow_smooth|]. split; [apply grow_J|]. intros tau Ht. destruct (grow_dp tau) as [G1 G2].
  assert (Hp : computes growth growN) by (intros v w y w' E; injection E as <- _; reflexivity).
  destruct (as_model_sound1 (F := Rops) (fun a b X => proj1 (Reqb_true a b) X) growth growN Hp IF45DPd) as [Inv HM].
  assert (Hup : as_never_raises (as_model growth IF45DPd)).
  { (* IF45DP does not call the linear algebra, so the inverse may be replaced by a total one *)
    set (q := mk_problem (p_nl growth) 1 (p_vec growth) (p_mat growth) (p_cfg growth) (p_expm growth) (fun m => inr m) (p_S growth) (p_Sinv growth) (p_eigs growth)).
    change (as_never_raises (as_model q IF45DPd)). apply as_model_never_raises; [intros v w e; discriminate|split; intros m e; discriminate]. }
  set (cand := fst (as_Phi growth growN IF45DPd tau (fun _ => RtoC 1))) in *. set (err := snd (as_Phi growth growN IF45DPd tau (fun _ => RtoC 1))) in *.
  assert (Pw : forall k, 0 <= tau ^ S k <= tau).
  { intros k. split; [apply pow_le; lra|]. cbn [pow]. rewrite <- (Rmult_1_r tau) at 3. apply Rmult_le_compat_l; [lra|]. rewrite <- (pow1 k). apply pow_incr. lra. }
  assert (P2 := Pw 1%nat). assert (P3 := Pw 2%nat). assert (P4 := Pw 3%nat). assert (P5 := Pw 4%nat). assert (P6 := Pw 5%nat). assert (P7 := Pw 6%nat).
  assert (N1 : 1 <= Cmod (cand 0%nat)) by (rewrite G1, Cmod_R, Rabs_pos_eq; lra).
  assert (N2 : 0 < Cmod (err 0%nat) <= 1) by (rewrite G2, Cmod_R, Rabs_left; lra).
  assert (HMx : is_max 1 cand (Cmod (cand 0%nat))).
  { split; [exists 0%nat; split; [lia|reflexivity]|]. intros j Hj. replace j with 0%nat by lia. apply Rle_refl. }
  assert (Hcfg : valid_config (dp_cfg 10)) by (unfold valid_config; cbn; lra).
  assert (Sn : forall v : cvec, sig_norm 1 (adapt_cutoff (dp_cfg 10)) (Cmod (cand 0%nat)) cand v = Cmod (v 0%nat)).
  { intros v. unfold sig_norm. cbn [rsum adapt_cutoff dp_cfg]. destruct (Rlt_dec _ _) as [_|X]; [|exfalso; apply X; lra].
    rewrite Rplus_0_l. apply sqrt_pow2, Cmod_ge_0. }
  destruct (proj2 (proj1 (C05_acceptance_criterion (dp_cfg 10) 5 1 cand err _ Hcfg ltac:(lia) ltac:(lia) HMx))) as (x & Ex & Hx).
  { rewrite !Sn. cbn [safety_f epsilon dp_cfg]. split; [lra|]. split; [lra|]. apply Rle_trans with (1 := proj2 N2). lra. }
  destruct (@one_step_run _ _ (as_model growth IF45DPd) (as_Phi growth growN IF45DPd) _ Inv the_consts (dp_cfg 10) (compute_s_vec (dp_cfg 10) 5 1) (fun _ => RtoC 1) (num 0) (num tau) (num tau) x (as_new_obj growth IF45DPd) tt HM)
    as (o' & w' & E & El); [|exact (proj1 Ht)|cbn; ring|exact Ex|exact Hx|].
  { assert (X := Hup false (fun _ => RtoC 1) tau (as_reset (as_model growth IF45DPd) (a_m (as_new_obj growth IF45DPd))) tt).
    destruct (as_upd (as_model growth IF45DPd) false (fun _ => RtoC 1) tau (as_reset (as_model growth IF45DPd) (a_m (as_new_obj growth IF45DPd))) tt) as [[[e|a] s'] w'] eqn:E;
      [exfalso; exact (X e eq_refl)|]. exists a, s', w'. exact E. }
  eexists. exists o', w'. split; [exact E|exact El].
Qed.

Print Assumptions C77_leading_term.
Print Assumptions C77_steps.
Print Assumptions C77_estimate_refuted.
Print Assumptions C77_growth_steps.
