(** * C76: near a smooth solution the adaptive runs do not give up

    The error estimate of a small step is small ([PropsEstimate]), so a small attempt passes the tolerance test; the controller
    of rkstiff/solveras.py:214-310, 346-416 then neither runs below [minh] nor out of attempts, its steps do not become
    smaller than a fixed size, and a run of enough loop turns reaches [tf]. *)

From Coq Require Import ZArith List Bool Reals Lra Lia FunctionalExtensionality QArith Qreals Setoid Morphisms.
From Coquelicot Require Import Hierarchy Derive RInt Complex.
From Verif Require Import Scalars Control ControlCS ControlCSReal ControlAS ControlASReal ControlSim ControlSound PropsControl Arrays SchemeBase
     SchemeIF SchemeETD4 SchemeETD5 Solvers SchemeFacts SchemeSound SchemeFamily SchemePartial SchemeForm CInst SpecRK
     SchemeIFReal PropsCache PropsIF SpecPhi SpecPoly ContourReal SpecERK SchemeETDReal SchemeETDCoefs PropsPsi PropsETD
     PropsLinear ContourMatrix MatrixFlow PropsMatrix Tolerance PropsTolerance Asym Solution LocalRK4 Stable Converge Voc LocalKro MatExp ConvRuns ConvMethods
     PropsConverge OrderWords OrderLocal OrderMethods OrderSharp PropsOrder5 Estimate Raises ControlAccept PropsEstimate.
Import ListNotations.
Local Open Scope R_scope.

(** ** The tolerance test with a small estimate *)
Lemma rsum_le n f g : (forall i, (i < n)%nat -> f i <= g i) -> rsum n f <= rsum n g.
Proof.
  induction n as [|n IH]; intros H; cbn [rsum]; [lra|]. assert (A := IH (fun i Hi => H i ltac:(lia))). assert (B := H n ltac:(lia)). lra.
Qed.
Lemma rsum_const n c : rsum n (fun _ => c) = INR n * c.
Proof. induction n as [|n IH]; [cbn; ring|]. cbn [rsum]. rewrite IH, S_INR. ring. Qed.
Lemma sig_norm_le n cut M (u v : cvec) b : 0 <= b -> vle n v b -> sig_norm n cut M u v <= sqrt (INR n) * b.
Proof.
  intros Hb Hv. rewrite <- (sqrt_pow2 b Hb), <- sqrt_mult_alt by apply pos_INR. apply sqrt_le_1_alt. rewrite <- rsum_const.
  apply rsum_le. intros i Hi. destruct (Rlt_dec _ _); [apply pow_incr; split; [apply Cmod_ge_0|apply Hv; exact Hi]|apply pow_le; exact Hb].
Qed.
Lemma sig_norm_ge n cut M (u : cvec) m : cut < 1 -> is_max n u M -> (exists i, (i < n)%nat /\ m <= Cmod (u i)) -> 0 < m -> m <= sig_norm n cut M u u.
Proof.
  intros Hcut [(i & Hi & Ei) HU] (j & Hj & Ej) Hm. assert (HM : m <= M) by (apply Rle_trans with (1 := Ej); apply HU; exact Hj).
  rewrite <- (sqrt_pow2 m) by lra. apply sqrt_le_1_alt.
  apply Rle_trans with (if Rlt_dec (cut * M) (Cmod (u i)) then Cmod (u i) ^ 2 else 0).
  - destruct (Rlt_dec (cut * M) (Cmod (u i))) as [_|X]; [apply pow_incr; lra|]. exfalso. apply X. rewrite Ei. nra.
  - apply (rsum_ge n (fun i => if Rlt_dec (cut * M) (Cmod (u i)) then Cmod (u i) ^ 2 else 0)); [|exact Hi].
    intros l _. destruct (Rlt_dec _ _); [apply pow_le, Cmod_ge_0|lra].
Qed.

(** A candidate with a component of size [m] and an estimate bounded by [b] per component, not zero on the components that count. *)
Theorem small_estimate_accepted cfg q n (u err : vec Cops) m b : valid_config cfg -> 0 < safety_f cfg -> (0 < q)%nat ->
  0 < m -> 0 <= b -> (exists i, (i < n)%nat /\ m <= Cmod (u i)) -> vle n err b -> sqrt (INR n) * b <= epsilon cfg * safety_f cfg ^ q * m ->
  (forall M, is_max n u M -> 0 < sig_norm n (adapt_cutoff cfg) M u err) ->
  accepted (compute_s_vec cfg q n u err).
Proof.
  intros Hc Hs Hq Hm Hb Hu He Hle Hz. assert (Hn : (0 < n)%nat) by (destruct Hu as (i & Hi & _); lia).
  destruct (is_max_exists n u Hn) as [M HM]. apply (proj1 (C05_acceptance_criterion cfg q n u err M Hc Hq Hn HM)).
  split; [exact Hs|]. split; [apply Hz; exact HM|]. apply Rle_trans with (1 := sig_norm_le n _ M u err b Hb He). apply Rle_trans with (1 := Hle).
  destruct Hc as (Hc1 & _ & _ & _ & Hc5 & _). assert (P : 0 < safety_f cfg ^ q) by (apply pow_lt; exact Hs).
  apply Rmult_le_compat_l; [apply Rmult_le_pos; lra|]. apply sig_norm_ge; [lra|exact HM|exact Hu|exact Hm].
Qed.

Lemma Cmod_near (a b : C) d : Cmod (a - b)%C <= d -> Cmod b - d <= Cmod a.
Proof.
  intros H. assert (X := Cmod_triangle a (- (a - b))%C). rewrite Cmod_opp in X. replace (a + - (a - b))%C with b in X by ring. lra.
Qed.

(** ** Runs *)
(** The run of a solver of kind [k] on a problem whose functions do not themselves raise the controller's exceptions.
    [mu] bounds the solution away from zero; [D] is the distance of the recorded values from the solution, [hs] a step size
    at which the estimate passes the test. *)
Definition settles (n : nat) (t0 t1 : R) (u : R -> cvec) (C h0 r0 : R) {W} (p : problem Cops W) (N : cvec -> cvec) (k : as_kind) (e : R) : Prop :=
  forall (ks : consts (T Rops)) cfg q fuel v (s0 sf : pynum (T Rops)) hi (o : asobj Rops (vec Cops) W (as_model p k)) w r o' w' d H mu hs,
    (0 < MIN_S ks < 1 /\ 1 <= MAX_S ks) -> valid_config cfg -> 0 < safety_f cfg -> (0 < q)%nat ->
    val s0 = t0 -> val s0 < val sf -> val sf <= t1 -> match hi with Some h => 0 < val h | None => True end ->
    0 <= d -> d + e <= r0 -> vle n (csub v (u t0)) d ->
    0 < mu -> (forall t, t0 <= t <= t1 -> exists i, (i < n)%nat /\ mu <= Cmod (u t i)) ->
    as_evolve ks cfg (compute_s_vec cfg q n) fuel v s0 sf hi true 1 o w = (r, o', w') ->
    gaps_at_most H (map val (a_t o')) -> 0 <= H <= h0 ->
    let D := C * (d + e + H ^ 4) in
    let B := C * hs * (hs ^ 3 + D + e) in
    D + e <= r0 -> 0 < hs <= h0 -> D + B <= mu / 2 -> sqrt (INR n) * B <= epsilon cfg * safety_f cfg ^ q * (mu / 2) ->
    minh cfg <= Rmin (MIN_S ks) (decr_f cfg) * hs ->
    Rmax (MIN_S ks) (decr_f cfg) ^ MAX_LOOPS ks * (val sf - val s0) <= hs ->
    (* no estimate of a small step from a recorded value is exactly zero *)
    Forall2 (fun t y => forall h M, 0 < h <= hs -> h <= val sf - t -> as_good p k h -> is_max n (fst (as_Phi p N k h y)) M ->
               0 < sig_norm n (adapt_cutoff cfg) M (fst (as_Phi p N k h y)) (snd (as_Phi p N k h y))) (map val (a_t o')) (a_u o') ->
    let eta := Rmin (h0_of (val s0) (val sf) hi) (Rmin (MIN_S ks) (decr_f cfg) * hs) in
    (r <> Exc MinimumStepReached /\ r <> Exc MaxLoopsExceeded) /\
    (forall j, (S (S j) < length (a_t o'))%nat -> eta <= nth (S j) (map val (a_t o')) 0 - nth j (map val (a_t o')) 0) /\
    (val sf - val s0 < INR fuel * eta -> r <> Fuel).

(** The functions of the problem do not raise the two exceptions of the controller. *)
Definition lets_run {W} (p : problem Cops W) : Prop :=
  (forall v w, match fst (p_nl p v w) with inl e => ~ gives_up e | inr _ => True end) /\
  (forall m, match p_expm p m with inl e => ~ gives_up e | inr _ => True end) /\
  (forall m, match p_inv p m with inl e => ~ gives_up e | inr _ => True end).

Lemma as_claim_weak n t0 t1 u ord C h0 r0 C1 h1 r1 {W} (p : problem Cops W) k e e1 : 0 <= C <= C1 -> h1 <= h0 -> r1 <= r0 -> 0 <= e <= e1 ->
  as_claim n t0 t1 u ord C h0 r0 p k e -> as_claim n t0 t1 u ord C1 h1 r1 p k e1.
Proof.
  intros HC Hh Hr He G ks cfg cs fuel v s0 sf hi o w r o' w' d H A1 A2 A3 A4 A5 A6 A7 A8 A9 A10 A11 A12.
  destruct (G ks cfg cs fuel v s0 sf hi o w r o' w' d H A1 A2 A3 A4 A5 A6 A7 ltac:(lra) A9 A10 A11 ltac:(lra)) as [Q1 Q2].
  assert (P : 0 <= H ^ ord) by (apply pow_le; lra).
  assert (X : C * (d + e + H ^ ord) <= C1 * (d + e1 + H ^ ord)) by (apply Rmult_le_compat; lra).
  split.
  - unfold accurate in *. clear -Q1 X. induction Q1 as [|? ? ? ? Y _ IH]; constructor; [apply (vle_mono n _ _ _ Y X)|exact IH].
  - intros v' E. apply (vle_mono n _ _ _ (Q2 v' E) X).
Qed.
Lemma est_claim_weak n t0 t1 u ord C h0 r0 C1 h1 r1 {W} (p : problem Cops W) N k e e1 : 0 <= C <= C1 -> h1 <= h0 -> r1 <= r0 -> 0 <= e <= e1 ->
  est_claim n t0 t1 u ord C h0 r0 p N k e -> est_claim n t0 t1 u ord C1 h1 r1 p N k e1.
Proof.
  intros HC Hh Hr He G t h v d A1 A2 A3 A4 A5 A6 A7. destruct (G t h v d A1 ltac:(lra) A3 A4 ltac:(lra) A6 A7) as [Q1 Q2].
  assert (P : 0 <= h ^ ord) by (apply pow_le; lra).
  assert (X : C * h * (h ^ ord + d + e) <= C1 * h * (h ^ ord + d + e1)).
  { apply Rmult_le_compat; [apply Rmult_le_pos; lra|lra|apply Rmult_le_compat_r; lra|lra]. }
  split; [apply (vle_mono n _ _ _ Q1 X)|]. apply (vle_mono n _ _ _ Q2). lra.
Qed.

Lemma Forall2_both A B (P Q : A -> B -> Prop) l l' : Forall2 P l l' -> Forall2 Q l l' -> Forall2 (fun a b => P a b /\ Q a b) l l'.
Proof. induction 1 as [|a b l l' Hp _ IH]; intros Hq; inversion Hq; subst; constructor; auto. Qed.
Lemma Forall2_left A B (P : A -> Prop) (l : list A) (l' : list B) : Forall P l -> length l = length l' -> Forall2 (fun a _ => P a) l l'.
Proof. intros H. revert l'. induction H as [|a l Ha _ IH]; intros [|b l'] E; try discriminate; constructor; [exact Ha|apply IH; injection E; auto]. Qed.

Theorem claims_settle n t0 t1 u C h0 r0 {W} (p : problem Cops W) N k e : computes p N -> lets_run p -> 0 <= C -> 0 <= e ->
  as_claim n t0 t1 u 4 C h0 r0 p k e -> est_claim n t0 t1 u 3 C h0 r0 p N k e -> settles n t0 t1 u C h0 r0 p N k e.
Proof.
  intros Hp (R1 & R2 & R3) HC He HA HE ks cfg q fuel v s0 sf hi o w r o' w' d H mu hs Hks Hcfg Hsaf Hq E0 Hlt Hend Hhi Hd Hde Hv Hmu Hu E HG HH D B
    HD Hhs HDB HnB Hmin Hloops Hz.
  destruct (HA ks cfg _ fuel v s0 sf hi o w r o' w' d H Hks Hcfg E0 Hlt Hend Hhi Hd Hde Hv E HG HH) as [Acc _]. fold D in Acc.
  destruct (as_model_sound1 (F := Rops) (fun a b X => proj1 (Reqb_true a b) X) p N Hp k) as [Inv HM].
  assert (HD0 : 0 <= D) by (unfold D; apply Rmult_le_pos; [exact HC|assert (P := pow_le H 4 (proj1 HH)); lra]).
  assert (T0 : Forall (fun t => t0 <= t) (map val (a_t o'))).
  { destruct (as_evolve_steps ks _ HM Hks Hcfg fuel v s0 sf hi o w Hlt Hhi E) as (l & L1 & _ & _ & (L4 & _) & _).
    rewrite L4. apply Forall_forall. intros t Ht. apply in_map_iff in Ht. destruct Ht as (j & <- & _). rewrite E0.
    assert (X : 0 <= total (firstn j l)); [|lra]. apply total_nonneg. apply Forall_forall. intros x Hx. rewrite Forall_forall in L1. apply L1.
    rewrite <- (firstn_skipn j l). apply in_or_app. left. exact Hx. }
  assert (Len : length (map val (a_t o')) = length (a_u o')) by (exact (Forall2_len _ _ _ Acc)).
  assert (F := Forall2_both _ _ _ _ _ _ (Forall2_left _ _ _ _ (a_u o') T0 Len) (Forall2_both _ _ _ _ _ _ Acc Hz)).
  assert (Hupd : forall acc u h s w e s' w', as_upd (as_model p k) acc u h s w = (inl e, s', w') -> ~ gives_up e).
  { intros acc y h s x e1 s' x' X. assert (Y := as_model_raises (fun e => ~ gives_up e) p R1 R2 R3 k acc y h s x). rewrite X in Y. exact Y. }
  assert (Hcs : forall a b e1, compute_s_vec cfg q n a b = inl e1 -> ~ gives_up e1).
  { intros a b e1 X. destruct (Nat.eq_dec n 0) as [->|Hn].
    - rewrite compute_s_vec_0 in X. injection X as <-. intros [Y|Y]; discriminate Y.
    - destruct (is_max_exists n a ltac:(lia)) as [M HM']. rewrite (compute_s_value cfg q n a b M ltac:(lia) HM') in X. discriminate X. }
  match type of F with Forall2 ?near _ _ =>
    assert (Q : forall t y, near t y -> t < val sf -> quick (as_Phi p N k) (as_good p k) (compute_s_vec cfg q n) hs (val sf - t) y) end.
  { intros t y (X1 & X2 & X3) X4 h Hh Hl Hg.
    destruct (HE t h y D X1 ltac:(lra) ltac:(lra) HD0 ltac:(lra) X2 Hg) as [Y1 Y2].
    assert (P3 : h ^ 3 <= hs ^ 3) by (apply pow_incr; lra). assert (P0 : 0 <= h ^ 3) by (apply pow_le; lra).
    assert (Z : C * h * (h ^ 3 + D + e) <= B).
    { unfold B. apply Rmult_le_compat; [apply Rmult_le_pos; lra|lra|apply Rmult_le_compat_l; lra|lra]. }
    apply (small_estimate_accepted cfg q n _ _ (mu / 2) (C * h * (h ^ 3 + D + e)) Hcfg Hsaf Hq ltac:(lra)).
    + apply Rmult_le_pos; [apply Rmult_le_pos; lra|lra].
    + destruct (Hu (t + h) ltac:(lra)) as (i & Hi & Hm). exists i. split; [exact Hi|].
      assert (V := vle_mono n _ _ _ Y2 (Rplus_le_compat_l D _ _ Z) i Hi). unfold csub in V.
      assert (X := Cmod_near (fst (as_Phi p N k h y) i) (u (t + h) i) (D + B) V). lra.
    + exact Y1.
    + apply Rle_trans with (sqrt (INR n) * B); [apply Rmult_le_compat_l; [apply sqrt_pos|exact Z]|exact HnB].
    + intros M HM'. apply (X3 h M Hh Hl Hg HM'). }
  destruct (accept_run ks HM Hks Hcfg Hupd Hcs (proj1 Hhs) Hmin fuel v s0 sf hi o w Q Hlt Hhi Hloops E F) as (Q1 & Q2 & Q3).
  split; [split; intros X; apply (Q1 _ X); [left|right]; reflexivity|]. split; [exact Q2|exact Q3].
Qed.

Lemma both_settle n t0 t1 u C1 h1 r1 e1 C2 h2 r2 e2 {W} (p : problem Cops W) N k : computes p N -> lets_run p -> 0 <= C1 -> 0 <= C2 -> 0 <= e1 <= e2 ->
  as_claim n t0 t1 u 4 C1 h1 r1 p k e1 -> est_claim n t0 t1 u 3 C2 h2 r2 p N k e2 ->
  forall C h0 r0, C1 <= C -> C2 <= C -> h0 <= h1 -> h0 <= h2 -> r0 <= r1 -> r0 <= r2 -> settles n t0 t1 u C h0 r0 p N k e2.
Proof.
  intros Hp HR A1 A2 A3 HA HE C h0 r0 B1 B2 B3 B4 B5 B6. apply claims_settle; [exact Hp|exact HR|lra|lra| |].
  - apply (as_claim_weak n t0 t1 u 4 C1 h1 r1 C h0 r0 p k e1 e2); [lra|lra|lra|lra|exact HA].
  - apply (est_claim_weak n t0 t1 u 3 C2 h2 r2 C h0 r0 p N k e2 e2); [lra|lra|lra|lra|exact HE].
Qed.
Lemma max_min3 C1 h1 r1 C2 h2 r2 : 0 <= C1 -> 0 < h1 -> 0 < r1 -> 0 <= C2 -> 0 < h2 -> 0 < r2 ->
  (0 <= Rmax C1 C2 /\ 0 < Rmin h1 h2 /\ 0 < Rmin r1 r2) /\
  (C1 <= Rmax C1 C2 /\ C2 <= Rmax C1 C2 /\ Rmin h1 h2 <= h1 /\ Rmin h1 h2 <= h2 /\ Rmin r1 r2 <= r1 /\ Rmin r1 r2 <= r2).
Proof.
  intros. repeat split; try apply Rmax_l; try apply Rmax_r; try apply Rmin_l; try apply Rmin_r.
  - apply Rle_trans with C1; [assumption|apply Rmax_l].
  - apply Rmin_glb_lt; assumption.
  - apply Rmin_glb_lt; assumption.
Qed.

(** C76 with a 1-D operator. *)
Theorem C76_if34_diagonal :
  forall n (L : cvec) N t0 t1 rho K u f J J1, smooth n 4 (dmat L) N t0 t1 rho K u f J -> Jsmooth n t0 t1 K J J1 ->
  exists C h0 r0, 0 <= C /\ 0 < h0 /\ 0 < r0 /\
    forall W (p : problem Cops W), computes p N -> lets_run p -> p_vec p = L -> settles n t0 t1 u C h0 r0 p N IF34d 0.
Proof.
  intros n L N t0 t1 rho K u f J J1 HS HJ.
  destruct (C71_if4_if34_diagonal n L N t0 t1 rho K u f J HS) as (C1 & h1 & r1 & A1 & A2 & A3 & A4).
  destruct (C75_if34_diagonal n L N t0 t1 rho K u f J J1 HS HJ) as (C2 & h2 & r2 & B1 & B2 & B3 & B4).
  destruct (max_min3 C1 h1 r1 C2 h2 r2 A1 A2 A3 B1 B2 B3) as ((D1 & D2 & D3) & F1 & F2 & F3 & F4 & F5 & F6).
  exists (Rmax C1 C2), (Rmin h1 h2), (Rmin r1 r2). split; [exact D1|]. split; [exact D2|]. split; [exact D3|].
  intros W p Hp HR E. exact (both_settle n t0 t1 u C1 h1 r1 0 C2 h2 r2 0 p N IF34d Hp HR A1 B1 ltac:(lra) (proj2 (A4 W p Hp E)) (B4 W p E) _ _ _ F1 F2 F3 F4 F5 F6).
Qed.
Theorem C76_etd34_diagonal :
  forall n (L : cvec) N t0 t1 rho K u f J J1, smooth n 4 (dmat L) N t0 t1 rho K u f J -> Jsmooth n t0 t1 K J J1 ->
  exists C h0 r0, 0 <= C /\ 0 < h0 /\ 0 < r0 /\
    forall W (p : problem Cops W), computes p N -> lets_run p -> p_vec p = L ->
      0 < modecutoff (p_cfg p) <= contour_radius (p_cfg p) -> (0 < contour_points (p_cfg p))%nat ->
      settles n t0 t1 u C h0 r0 p N ETD34d (8 * quad_error (p_cfg p)).
Proof.
  intros n L N t0 t1 rho K u f J J1 HS HJ.
  destruct (C71_etd4_etd34_diagonal n L N t0 t1 rho K u f J HS) as (C1 & h1 & r1 & A1 & A2 & A3 & A4).
  destruct (C75_etd34_diagonal n L N t0 t1 rho K u f J J1 HS HJ) as (C2 & h2 & r2 & B1 & B2 & B3 & B4).
  destruct (max_min3 C1 h1 r1 C2 h2 r2 A1 A2 A3 B1 B2 B3) as ((D1 & D2 & D3) & F1 & F2 & F3 & F4 & F5 & F6).
  exists (Rmax C1 C2), (Rmin h1 h2), (Rmin r1 r2). split; [exact D1|]. split; [exact D2|]. split; [exact D3|].
  intros W p Hp HR E Hc HM. assert (Q := quad_error_pos (p_cfg p) ltac:(lra)).
  exact (both_settle n t0 t1 u C1 h1 r1 (8 * quad_error (p_cfg p)) C2 h2 r2 (8 * quad_error (p_cfg p)) p N ETD34d Hp HR A1 B1 ltac:(lra) (proj2 (A4 W p Hp E Hc HM)) (B4 W p E Hc HM) _ _ _ F1 F2 F3 F4 F5 F6).
Qed.
Theorem C76_etd35_diagonal :
  forall n (L : cvec) N t0 t1 rho K u f J J1, smooth n 4 (dmat L) N t0 t1 rho K u f J -> Jsmooth n t0 t1 K J J1 ->
  exists C h0 r0, 0 <= C /\ 0 < h0 /\ 0 < r0 /\
    forall W (p : problem Cops W), computes p N -> lets_run p -> p_vec p = L ->
      0 < modecutoff (p_cfg p) <= contour_radius (p_cfg p) -> (0 < contour_points (p_cfg p))%nat ->
      settles n t0 t1 u C h0 r0 p N ETD35d (24 * quad_error (p_cfg p)).
Proof.
  intros n L N t0 t1 rho K u f J J1 HS HJ.
  destruct (C73_order_four_diagonal n L N t0 t1 rho K u f J J1 HS HJ) as (C1 & h1 & r1 & A1 & A2 & A3 & A4).
  destruct (C75_etd35_diagonal n L N t0 t1 rho K u f J J1 HS HJ) as (C2 & h2 & r2 & B1 & B2 & B3 & B4).
  destruct (max_min3 C1 h1 r1 C2 h2 r2 A1 A2 A3 B1 B2 B3) as ((D1 & D2 & D3) & F1 & F2 & F3 & F4 & F5 & F6).
  exists (Rmax C1 C2), (Rmin h1 h2), (Rmin r1 r2). split; [exact D1|]. split; [exact D2|]. split; [exact D3|].
  intros W p Hp HR E Hc HM. assert (Q := quad_error_pos (p_cfg p) ltac:(lra)).
  exact (both_settle n t0 t1 u C1 h1 r1 (12 * quad_error (p_cfg p)) C2 h2 r2 (24 * quad_error (p_cfg p)) p N ETD35d Hp HR A1 B1 ltac:(lra) (proj2 (A4 W p Hp E Hc HM)) (B4 W p E Hc HM) _ _ _ F1 F2 F3 F4 F5 F6).
Qed.

(** C76 with a matrix operator. *)
Theorem C76_if34_matrix :
  forall n (L : mat Cops) N t0 t1 rho K u f J J1, smooth n 4 L N t0 t1 rho K u f J -> Jsmooth n t0 t1 K J J1 ->
  exists C h0 r0, 0 <= C /\ 0 < h0 /\ 0 < r0 /\
    (forall W (p : problem Cops W), computes p N -> lets_run p -> p_size p = n -> p_mat p = L -> exp_series p -> (forall m e, p_expm p m <> inl e) ->
      settles n t0 t1 u C h0 r0 p N IF34n 0) /\
    (forall W (p : problem Cops W) b, computes p N -> lets_run p -> p_size p = n -> p_mat p = L -> diagonalizes p ->
      (forall i, (i < n)%nat -> rown n (p_Sinv p) i <= b) -> 0 <= b -> settles n t0 t1 u (C * (1 + b)) h0 r0 p N IF34z 0).
Proof.
  intros n L N t0 t1 rho K u f J J1 HS HJ.
  destruct (C71_if4_if34_matrix n L N t0 t1 rho K u f J HS) as (C1 & h1 & r1 & A1 & A2 & A3 & A4).
  destruct (C75_if34_matrix n L N t0 t1 rho K u f J J1 HS HJ) as (C2 & h2 & r2 & B1 & B2 & B3 & B4).
  destruct (C75_if34_eigenbasis n L N t0 t1 rho K u f J J1 HS HJ) as (C3 & h3 & r3 & G1 & G2 & G3 & G4).
  destruct (max_min3 C2 h2 r2 C3 h3 r3 B1 B2 B3 G1 G2 G3) as ((I1 & I2 & I3) & J2 & J3 & J4 & J5 & J6 & J7).
  destruct (max_min3 C1 h1 r1 _ _ _ A1 A2 A3 I1 I2 I3) as ((D1 & D2 & D3) & F1 & F2 & F3 & F4 & F5 & F6).
  set (C := Rmax C1 (Rmax C2 C3)) in *. set (h0 := Rmin h1 (Rmin h2 h3)) in *. set (r0 := Rmin r1 (Rmin r2 r3)) in *.
  set (C' := Rmax C2 C3) in *. set (h' := Rmin h2 h3) in *. set (r' := Rmin r2 r3) in *. clearbody C h0 r0 C' h' r'.
  exists C, h0, r0. split; [exact D1|]. split; [exact D2|]. split; [exact D3|]. split.
  - intros W p Hp HR En EL HE HX. destruct (A4 W p Hp En EL) as [Q _].
    apply (both_settle n t0 t1 u C1 h1 r1 0 C2 h2 r2 0 p N IF34n Hp HR A1 B1 ltac:(lra) (proj2 (Q HE HX)) (B4 W p En EL HE HX)); lra.
  - intros W p b Hp HR En EL HD HB Hb. destruct (A4 W p Hp En EL) as [_ Q].
    apply (both_settle n t0 t1 u C1 h1 r1 0 (C3 * (1 + b)) h3 r3 0 p N IF34z Hp HR A1 ltac:(apply Rmult_le_pos; lra) ltac:(lra) (Q HD) (G4 W p b En EL HD HB Hb)); nra.
Qed.
Theorem C76_etd34_matrix :
  forall n (L : mat Cops) N t0 t1 rho K u f J J1, smooth n 4 L N t0 t1 rho K u f J -> Jsmooth n t0 t1 K J J1 ->
  exists C h0 r0, 0 <= C /\ 0 < h0 /\ 0 < r0 /\
    forall W (p : problem Cops W) S T x s t hb, computes p N -> lets_run p -> p_size p = n -> p_mat p = L -> exp_series p -> inv_ok p ->
      fits p S T x hb -> 0 < hb <= h0 ->
      (forall i, (i < n)%nat -> rown n S i <= s) -> (forall i, (i < n)%nat -> rown n T i <= t) -> 0 <= s -> 0 <= t ->
      settles n t0 t1 u C hb r0 p N ETD34n (8 * (s * (merr (p_cfg p) x * t))).
Proof.
  intros n L N t0 t1 rho K u f J J1 HS HJ.
  destruct (C71_etd4_etd34_matrix n L N t0 t1 rho K u f J HS) as (C1 & h1 & r1 & A1 & A2 & A3 & A4).
  destruct (C75_etd34_matrix n L N t0 t1 rho K u f J J1 HS HJ) as (C2 & h2 & r2 & B1 & B2 & B3 & B4).
  destruct (max_min3 C1 h1 r1 C2 h2 r2 A1 A2 A3 B1 B2 B3) as ((D1 & D2 & D3) & F1 & F2 & F3 & F4 & F5 & F6).
  exists (Rmax C1 C2), (Rmin h1 h2), (Rmin r1 r2). split; [exact D1|]. split; [exact D2|]. split; [exact D3|].
  intros W p S T x s t hb Hp HR En EL HE HI HF Hhb Hs Ht Hs0 Ht0. assert (HM := merr_fits p S T x hb HF).
  assert (Q : 0 <= s * (merr (p_cfg p) x * t)) by (apply Rmult_le_pos; [exact Hs0|apply Rmult_le_pos; assumption]).
  apply (both_settle n t0 t1 u C1 hb r1 (8 * (s * (merr (p_cfg p) x * t))) C2 hb r2 (8 * (s * (merr (p_cfg p) x * t))) p N ETD34n Hp HR A1 B1 ltac:(lra)
    (proj2 (A4 W p S T x s t hb Hp En EL HE HI HF ltac:(lra) Hs Ht Hs0 Ht0)) (B4 W p S T x s t hb En EL HE HI HF ltac:(lra) Hs Ht Hs0 Ht0)); lra.
Qed.
Theorem C76_etd35_matrix :
  forall n (L : mat Cops) N t0 t1 rho K u f J J1, smooth n 4 L N t0 t1 rho K u f J -> Jsmooth n t0 t1 K J J1 ->
  exists C h0 r0, 0 <= C /\ 0 < h0 /\ 0 < r0 /\
    forall W (p : problem Cops W) S T x s t hb, computes p N -> lets_run p -> p_size p = n -> p_mat p = L -> exp_series p -> inv_ok p ->
      fits p S T x hb -> 0 < hb <= h0 ->
      (forall i, (i < n)%nat -> rown n S i <= s) -> (forall i, (i < n)%nat -> rown n T i <= t) -> 0 <= s -> 0 <= t ->
      settles n t0 t1 u C hb r0 p N ETD35n (24 * (s * (merr (p_cfg p) x * t))).
Proof.
  intros n L N t0 t1 rho K u f J J1 HS HJ.
  destruct (C73_order_four_matrix n L N t0 t1 rho K u f J J1 HS HJ) as (C1 & h1 & r1 & A1 & A2 & A3 & A4 & _).
  destruct (C75_etd35_matrix n L N t0 t1 rho K u f J J1 HS HJ) as (C2 & h2 & r2 & B1 & B2 & B3 & B4).
  destruct (max_min3 C1 h1 r1 C2 h2 r2 A1 A2 A3 B1 B2 B3) as ((D1 & D2 & D3) & F1 & F2 & F3 & F4 & F5 & F6).
  exists (Rmax C1 C2), (Rmin h1 h2), (Rmin r1 r2). split; [exact D1|]. split; [exact D2|]. split; [exact D3|].
  intros W p S T x s t hb Hp HR En EL HE HI HF Hhb Hs Ht Hs0 Ht0. assert (HM := merr_fits p S T x hb HF).
  assert (Q : 0 <= s * (merr (p_cfg p) x * t)) by (apply Rmult_le_pos; [exact Hs0|apply Rmult_le_pos; assumption]).
  apply (both_settle n t0 t1 u C1 hb r1 (12 * (s * (merr (p_cfg p) x * t))) C2 hb r2 (24 * (s * (merr (p_cfg p) x * t))) p N ETD35n Hp HR A1 B1 ltac:(lra)
    (proj2 (A4 W p S T x s t hb Hp En EL HE HI HF ltac:(lra) Hs Ht Hs0 Ht0)) (B4 W p S T x s t hb En EL HE HI HF ltac:(lra) Hs Ht Hs0 Ht0)); lra.
Qed.
Theorem C76_etd_eigenbasis :
  forall n (L : mat Cops) N t0 t1 rho K u f J J1, smooth n 4 L N t0 t1 rho K u f J -> Jsmooth n t0 t1 K J J1 ->
  exists C h0 r0, 0 <= C /\ 0 < h0 /\ 0 < r0 /\
    forall W (p : problem Cops W) s b, computes p N -> lets_run p -> p_size p = n -> p_mat p = L -> diagonalizes p ->
      0 < modecutoff (p_cfg p) <= contour_radius (p_cfg p) -> (0 < contour_points (p_cfg p))%nat ->
      (forall i, (i < n)%nat -> rown n (p_S p) i <= s) -> (forall i, (i < n)%nat -> rown n (p_Sinv p) i <= b) -> 0 <= s -> 0 <= b ->
      settles n t0 t1 u (C * (1 + b)) h0 r0 p N ETD34z (8 * (s * (quad_error (p_cfg p) * b))) /\
      settles n t0 t1 u (C * (1 + b)) h0 r0 p N ETD35z (24 * (s * (quad_error (p_cfg p) * b))).
Proof.
  intros n L N t0 t1 rho K u f J J1 HS HJ.
  destruct (C72_etd34_eigenbasis n L N t0 t1 rho K u f J HS) as (C1 & h1 & r1 & A1 & A2 & A3 & A4).
  destruct (C73_order_four_matrix n L N t0 t1 rho K u f J J1 HS HJ) as (C2 & h2 & r2 & B1 & B2 & B3 & _ & B4).
  destruct (C75_etd_eigenbasis n L N t0 t1 rho K u f J J1 HS HJ) as (C3 & h3 & r3 & G1 & G2 & G3 & G4).
  destruct (max_min3 C2 h2 r2 C3 h3 r3 B1 B2 B3 G1 G2 G3) as ((I1 & I2 & I3) & J2 & J3 & J4 & J5 & J6 & J7).
  destruct (max_min3 C1 h1 r1 _ _ _ A1 A2 A3 I1 I2 I3) as ((D1 & D2 & D3) & F1 & F2 & F3 & F4 & F5 & F6).
  set (C := Rmax C1 (Rmax C2 C3)) in *. set (h0 := Rmin h1 (Rmin h2 h3)) in *. set (r0 := Rmin r1 (Rmin r2 r3)) in *.
  set (C' := Rmax C2 C3) in *. set (h' := Rmin h2 h3) in *. set (r' := Rmin r2 r3) in *. clearbody C h0 r0 C' h' r'.
  exists C, h0, r0. split; [exact D1|]. split; [exact D2|]. split; [exact D3|].
  intros W p s b Hp HR En EL HD Hc HM Hs Hb Hs0 Hb0. destruct (G4 W p s b En EL HD Hc HM Hs Hb Hs0 Hb0) as [Q1 Q2].
  assert (Q := quad_error_pos (p_cfg p) ltac:(lra)).
  assert (Q0 : 0 <= s * (quad_error (p_cfg p) * b)) by (apply Rmult_le_pos; [exact Hs0|apply Rmult_le_pos; assumption]).
  assert (P3 : 0 <= C3 * (1 + b)) by (apply Rmult_le_pos; lra).
  split.
  - apply (both_settle n t0 t1 u C1 h1 r1 (8 * (s * (quad_error (p_cfg p) * b))) (C3 * (1 + b)) h3 r3 (8 * (s * (quad_error (p_cfg p) * b))) p N ETD34z Hp HR A1 P3 ltac:(lra) (A4 W p s b Hp En EL HD Hc HM Hs Hb Hs0 Hb0) Q1); nra.
  - apply (both_settle n t0 t1 u C2 h2 r2 (12 * (s * (quad_error (p_cfg p) * b))) (C3 * (1 + b)) h3 r3 (24 * (s * (quad_error (p_cfg p) * b))) p N ETD35z Hp HR B1 P3 ltac:(lra) (B4 W p s b Hp En EL HD Hc HM Hs Hb Hs0 Hb0) Q2); nra.
Qed.

(** ** Example: u' = u from u(0) = 1, all of it in the nonlinear part *)
Lemma total_split (a b : list R) : total (a ++ b) = total a + total b.
Proof. unfold total. induction a as [|x a IH]; cbn [app fold_right]; [ring|]. rewrite IH. ring. Qed.
(** The recorded times of a run stay between its ends. *)
Lemma times_between {W} (p : problem Cops W) N k (ks : consts (T Rops)) cfg cs fuel v (s0 sf : pynum (T Rops)) hi (o : asobj Rops (vec Cops) W (as_model p k)) w r o' w' :
  computes p N -> (0 < MIN_S ks < 1 /\ 1 <= MAX_S ks) -> valid_config cfg -> val s0 < val sf -> match hi with Some h => 0 < val h | None => True end ->
  as_evolve ks cfg cs fuel v s0 sf hi true 1 o w = (r, o', w') -> Forall (fun t => val s0 <= t <= val sf) (map val (a_t o')).
Proof.
  intros Hp Hks Hcfg Hlt Hhi E. destruct (as_model_sound1 (F := Rops) (fun a b X => proj1 (Reqb_true a b) X) p N Hp k) as [Inv HM].
  destruct (as_evolve_steps ks _ HM Hks Hcfg fuel v s0 sf hi o w Hlt Hhi E) as (l & L1 & _ & L3 & (L4 & _) & _).
  rewrite L4. apply Forall_forall. intros t Ht. apply in_map_iff in Ht. destruct Ht as (j & <- & _).
  rewrite <- (firstn_skipn j l) in L1. apply Forall_app in L1. destruct L1 as [La Lb]. assert (Xa := total_nonneg _ La). assert (Xb := total_nonneg _ Lb).
  assert (X : total l = total (firstn j l) + total (skipn j l)) by (rewrite <- (firstn_skipn j l) at 1; apply total_split). cbn in *. lra.
Qed.
Lemma gaps_between (l : list R) a b : Forall (fun t => a <= t <= b) l -> gaps_at_most (b - a) l.
Proof.
  intros H j Hj. rewrite Forall_forall in H. assert (X := H (nth j l 0) (nth_In l 0 (Nat.lt_trans _ _ _ (Nat.lt_succ_diag_r j) Hj))). assert (Y := H (nth (S j) l 0) (nth_In l 0 Hj)). lra.
Qed.

Definition growN (v : cvec) : cvec := v.
Definition growth : problem Cops unit := with_nl (single (RtoC 0)) (pure_nl (growN : vec Cops -> vec Cops)).
Definition growu (t : R) : cvec := fun _ => RtoC (exp t).
Definition growf (k : nat) (t : R) : cvec := fun _ => RtoC (exp t).
Definition growJ (t : R) (v : cvec) : cvec := v.
Definition growJ1 (t : R) (v : cvec) : cvec := fun _ => RtoC 0.
Lemma grow_smooth q : smooth 1 q (dmat (p_vec growth)) growN 0 1 1 3 growu growf growJ.
Proof.
  assert (D : forall t, is_Cder (fun s => RtoC (exp s)) t (RtoC (exp t))).
  { intros t. apply is_Cder_R. AutoDerive.auto_derive; [exact I|ring]. }
  assert (B : forall t, 0 <= t <= 1 -> 1 <= exp t <= 3).
  { intros t Ht. split; [assert (X := exp_ge_1 t ltac:(lra)); lra|]. apply Rle_trans with (exp 1); [apply exp_mono; lra|apply exp_le_3]. }
  split; try lra.
  - intros a b H i Hi. apply H. exact Hi.
  - intros t i _ Hi. unfold dmat. rewrite (mdot_diag 1 _ _ i Hi). unfold growu, growN. cbn [p_vec growth with_nl single].
    eapply is_Cder_eq; [reflexivity| |apply D]. ring.
  - intros t Ht i _. unfold growu. rewrite Cmod_R. assert (G := B t Ht). rewrite Rabs_pos_eq; lra.
  - intros t _ i _. reflexivity.
  - intros k t i Hk _ _. apply D.
  - intros k t _ Ht i _. unfold growf. rewrite Cmod_R. assert (G := B t Ht). rewrite Rabs_pos_eq; lra.
  - intros t v w x _ Hx _ _ Hd i Hi. specialize (Hd i Hi). unfold growN. lra.
  - intros t _. split; [intros a b i _; reflexivity|intros c a i _; reflexivity].
  - intros t _ v x Hx Hv i Hi. specialize (Hv i Hi). unfold growJ. lra.
  - intros t v x _ Hx Hv i Hi. unfold csub, growN, growJ. replace (v i - growu t i - (v i - growu t i))%C with (RtoC 0) by ring. rewrite Cmod_0. nra.
  - intros s t _ _ v x Hx Hv i Hi. unfold csub, growJ. replace (v i - v i)%C with (RtoC 0) by ring. rewrite Cmod_0. assert (X := Rabs_pos (s - t)). nra.
Qed.
Lemma grow_J : Jsmooth 1 0 1 3 growJ growJ1.
Proof.
  split.
  - intros t _. split; [intros a b i _; unfold growJ1, cadd; ring|intros c a i _; unfold growJ1, cscal; ring].
  - intros t _ v x Hx Hv i Hi. unfold growJ1. rewrite Cmod_0. lra.
  - intros s t _ _ v x Hx Hv i Hi. unfold csub, cscal, growJ, growJ1. replace (v i - v i - RtoC (s - t) * RtoC 0)%C with (RtoC 0) by ring.
    rewrite Cmod_0. assert (0 <= (s - t) ^ 2) by apply pow2_ge_0. nra.
Qed.
(** One step of IF34: the estimate is [h (h^3/12 - h^4/24) / 6] times the value. *)
Lemma grow_step h y : 
  fst (as_Phi growth growN IF34d h y) 0%nat = (RtoC (1 + h + h ^ 2 / 2 + h ^ 3 / 6 + h ^ 4 / 24) * y 0%nat)%C /\
  snd (as_Phi growth growN IF34d h y) 0%nat = (RtoC (h / 6 * (h ^ 3 / 12 - h ^ 4 / 24)) * y 0%nat)%C.
Proof.
  assert (E : forall t v i, dflow (p_vec growth) t v i = v i).
  { intros t v i. unfold dflow. cbn [p_vec growth with_nl single]. replace (RtoC t * RtoC 0)%C with (RtoC 0) by ring. rewrite Cexp_0. ring. }
  rewrite (if34d_ref unit growth growN h y). cbn [fst snd].
  assert (V : vk (dflow (p_vec growth)) growN h y 0%nat = (RtoC (1 + h + h ^ 2 / 2 + h ^ 3 / 6 + h ^ 4 / 24) * y 0%nat)%C).
  { unfold vk, v4, v3, v2, growN, cadd, cscal. rewrite !E. apply injective_projections; cbn; field. }
  assert (V4 : v4 (dflow (p_vec growth)) growN h y 0%nat = (RtoC (1 + h + h ^ 2 / 2 + h ^ 3 / 4) * y 0%nat)%C).
  { unfold v4, v3, v2, growN, cadd, cscal. rewrite !E. apply injective_projections; cbn; field. }
  split; [exact V|]. transitivity (RtoC (h / 6) * (v4 (dflow (p_vec growth)) growN h y 0%nat - vk (dflow (p_vec growth)) growN h y 0%nat))%C; [reflexivity|].
  rewrite V, V4. apply injective_projections; cbn; field.
Qed.
Definition grow_cfg (tau : R) : config (T Rops) := mk_config (A := T Rops) (1/10000) (5/4) (85/100) (8/10) (1/100) (tau / 10^6).
Example C76_not_vacuous : exists tau, 0 < tau <= 1 /\ valid_config (grow_cfg tau) /\
  forall fuel r o' w',
    as_evolve the_consts (grow_cfg tau) (compute_s_vec (grow_cfg tau) 4 1) fuel (fun _ => RtoC 1) (num 0) (num tau) None true 1
      (as_new_obj growth IF34d) tt = (r, o', w') ->
    r <> Exc MinimumStepReached /\ r <> Exc MaxLoopsExceeded /\ (100 < INR fuel -> r <> Fuel).
Proof.
  destruct (C76_if34_diagonal 1 (p_vec growth) growN 0 1 1 3 growu growf growJ growJ1 (grow_smooth 4) grow_J) as (C & h0 & r0 & HC & Hh0 & Hr0 & G).
  assert (Hp : computes growth growN) by (intros v w y w' E; injection E as <- _; reflexivity).
  assert (HR : lets_run growth).
  { split; [intros v w; exact I|]. split; [intros m; exact I|]. intros m. cbn [p_inv growth with_nl single]. unfold inv1.
    destruct (Ceq_dec (m O O) 0); [|exact I]. intros [X|X]; discriminate X. }
  set (tau := Rmin (Rmin 1 h0) (Rmin (r0 / (C + 1)) (1 / 100000 / ((C + 1) * (C + 1))))).
  assert (P2 : 0 < (C + 1) * (C + 1)) by nra.
  assert (T0 : 0 < tau).
  { unfold tau. apply Rmin_glb_lt; apply Rmin_glb_lt; try lra; apply Rdiv_lt_0_compat; lra. }
  assert (T1 : tau <= 1) by (unfold tau; eapply Rle_trans; [apply Rmin_l|apply Rmin_l]).
  assert (T2 : tau <= h0) by (unfold tau; eapply Rle_trans; [apply Rmin_l|apply Rmin_r]).
  assert (T3 : C * tau <= r0).
  { assert (X : tau <= r0 / (C + 1)) by (unfold tau; eapply Rle_trans; [apply Rmin_r|apply Rmin_l]).
    apply (Rmult_le_compat_r (C + 1)) in X; [|lra]. unfold Rdiv in X. rewrite Rmult_assoc, Rinv_l in X by lra. nra. }
  assert (T4 : C * tau * (1 + C) <= 1 / 100000).
  { assert (X : tau <= 1 / 100000 / ((C + 1) * (C + 1))) by (unfold tau; eapply Rle_trans; [apply Rmin_r|apply Rmin_r]).
    apply (Rmult_le_compat_r ((C + 1) * (C + 1))) in X; [|lra]. replace (1 / 100000 / ((C + 1) * (C + 1)) * ((C + 1) * (C + 1))) with (1 / 100000) in X by (field; lra). nra. }
  clearbody tau. exists tau. split; [lra|]. assert (Hcfg : valid_config (grow_cfg tau)) by (unfold valid_config; cbn; lra). split; [exact Hcfg|].
  intros fuel r o' w' E.
  assert (Hks : 0 < MIN_S the_consts < 1 /\ 1 <= MAX_S the_consts) by (cbn; lra).
  assert (TB := times_between growth growN IF34d the_consts (grow_cfg tau) _ fuel _ (num 0) (num tau) None _ _ _ _ _ Hp Hks Hcfg T0 I E).
  assert (HG := gaps_between _ _ _ TB). change (val (num tau) - val (num 0)) with (tau - 0) in HG. rewrite Rminus_0_r in HG.
  assert (P3 : tau ^ 3 <= 1) by (rewrite <- (pow1 3); apply pow_incr; lra).
  assert (P4 : tau ^ 4 <= tau) by (change (tau ^ 4) with (tau * tau ^ 3); rewrite <- (Rmult_1_r tau) at 3; apply Rmult_le_compat_l; lra).
  assert (P30 : 0 <= tau ^ 3) by (apply pow_le; lra). assert (P40 : 0 <= tau ^ 4) by (apply pow_le; lra).
  assert (HD : C * (0 + 0 + tau ^ 4) <= C * tau) by (apply Rmult_le_compat_l; lra).
  assert (HB : C * tau * (tau ^ 3 + C * (0 + 0 + tau ^ 4) + 0) <= C * tau * (1 + C)).
  { apply Rmult_le_compat_l; [apply Rmult_le_pos; lra|]. assert (C * (0 + 0 + tau ^ 4) <= C * 1) by (apply Rmult_le_compat_l; lra). lra. }
  assert (HCt : C * tau <= C * tau * (1 + C)) by (assert (0 <= C * tau) by (apply Rmult_le_pos; lra); nra).
  (* the recorded values are not zero *)
  destruct (as_model_sound1 (F := Rops) (fun a b X => proj1 (Reqb_true a b) X) growth growN Hp IF34d) as [Inv HM].
  destruct (as_evolve_steps the_consts _ HM Hks Hcfg fuel _ (num 0) (num tau) None _ _ T0 I E) as (l & L1 & _ & _ & (L4 & L5) & _).
  assert (NZ : Forall (fun y : cvec => y 0%nat <> RtoC 0) (a_u o')).
  { rewrite L5. apply Forall_forall. intros y Hy. apply in_map_iff in Hy. destruct Hy as (j & <- & _).
    assert (Lj : Forall (fun h => 0 < h) (firstn j l)) by (rewrite <- (firstn_skipn j l) in L1; apply Forall_app in L1; apply L1).
    assert (Y0 : (fun _ : nat => RtoC 1) 0%nat <> RtoC 0) by (intros X; apply RtoC_inj in X; lra).
    revert Y0 Lj. generalize (fun _ : nat => RtoC 1). generalize (firstn j l). clear.
    induction l as [|h l IH]; intros y Y0 Lj; [exact Y0|]. inversion Lj as [|? ? A B]; subst. cbn [grun]. apply IH; [|exact B].
    rewrite (proj1 (grow_step h y)). assert (0 <= h ^ 2 /\ 0 <= h ^ 3 /\ 0 <= h ^ 4) by (repeat split; apply pow_le; lra).
    apply Cmult_neq_0; [|exact Y0]. intros X. apply RtoC_inj in X. lra. }
  assert (Len : length (map val (a_t o')) = length (a_u o')) by (rewrite L4, L5, !map_length; reflexivity).
  assert (Hz : Forall2 (fun t y => forall h M, 0 < h <= tau -> h <= val (num tau) - t -> as_good growth IF34d h -> is_max 1 (fst (as_Phi growth growN IF34d h y)) M ->
               0 < sig_norm 1 (adapt_cutoff (grow_cfg tau)) M (fst (as_Phi growth growN IF34d h y)) (snd (as_Phi growth growN IF34d h y))) (map val (a_t o')) (a_u o')).
  { generalize (map val (a_t o')) Len. clear -NZ T1. induction NZ as [|y us Hy _ IH]; intros ts Len; destruct ts as [|t ts]; try discriminate; constructor.
    2: { apply IH. injection Len; auto. }
    intros h M Hh _ _ [(i & Hi & Ei) _]. assert (i = 0%nat) by lia. subst i.
    destruct (grow_step h y) as [S1 S2]. unfold sig_norm. cbn [rsum]. rewrite <- Ei. rewrite S1 in *. rewrite S2. rewrite Cmod_mult in *.
    assert (Y : 0 < Cmod (y 0%nat)) by (apply Cmod_gt_0; exact Hy).
    assert (0 <= h ^ 2 /\ 0 < h ^ 3 /\ 0 <= h ^ 4) by (repeat split; [apply pow_le|apply pow_lt|apply pow_le]; lra).
    assert (F : h ^ 4 <= h ^ 3) by (change (h ^ 4) with (h * h ^ 3); rewrite <- (Rmult_1_l (h ^ 3)) at 2; apply Rmult_le_compat_r; lra).
    assert (Q : 0 < Cmod (RtoC (1 + h + h ^ 2 / 2 + h ^ 3 / 6 + h ^ 4 / 24)) * Cmod (y 0%nat)).
    { apply Rmult_lt_0_compat; [|exact Y]. rewrite Cmod_R, Rabs_pos_eq; lra. }
    cbn [adapt_cutoff grow_cfg]. destruct (Rlt_dec _ _) as [_|X]; [|exfalso; apply X; lra].
    apply sqrt_lt_R0. rewrite Rplus_0_l. apply pow_lt. rewrite Cmod_mult. apply Rmult_lt_0_compat; [|exact Y].
    assert (0 < h / 6 * (h ^ 3 / 12 - h ^ 4 / 24)) by (apply Rmult_lt_0_compat; lra). rewrite Cmod_R, Rabs_pos_eq; lra. }
  destruct (G unit growth Hp HR eq_refl the_consts (grow_cfg tau) 4%nat fuel (fun _ => RtoC 1) (num 0) (num tau) None (as_new_obj growth IF34d) tt r o' w' 0 tau 1 tau) as (Q1 & _ & Q3);
    try assumption; try lra; try lia.
  - cbn. lra.
  - reflexivity.
  - intros i _. unfold csub, growu. rewrite exp_0. replace (RtoC 1 - RtoC 1)%C with (RtoC 0) by ring. rewrite Cmod_0. lra.
  - intros t Ht. exists 0%nat. split; [lia|]. unfold growu. rewrite Cmod_R. assert (X := exp_ge_1 t ltac:(lra)). rewrite Rabs_pos_eq; lra.
  - change (INR 1) with 1. rewrite sqrt_1. cbn [epsilon safety_f grow_cfg]. lra.
  - cbn [MIN_S decr_f the_consts grow_cfg minh]. rewrite Rmin_left by lra. lra.
  - change (val (num tau) - val (num 0)) with (tau - 0). rewrite Rminus_0_r. apply Rle_trans with (1 * tau); [apply Rmult_le_compat_r; [lra|]|lra].
    rewrite <- (pow1 (MAX_LOOPS the_consts)). apply pow_incr. cbn [MIN_S decr_f the_consts grow_cfg]. rewrite Rmax_right by lra. lra.
  - destruct Q1 as [Q1 Q2]. split; [exact Q1|]. split; [exact Q2|]. intros HF. apply Q3.
    change (tau - 0 < INR fuel * Rmin ((tau - 0) / 100) (Rmin (1/4) (85/100) * tau)). rewrite !Rminus_0_r.
    rewrite (Rmin_left _ (85/100)) by lra. rewrite Rmin_left by lra. nra.
Qed.

Print Assumptions C76_if34_diagonal.
Print Assumptions C76_etd34_diagonal.
Print Assumptions C76_etd35_diagonal.
Print Assumptions C76_if34_matrix.
Print Assumptions C76_etd34_matrix.
Print Assumptions C76_etd35_matrix.
Print Assumptions C76_etd_eigenbasis.
