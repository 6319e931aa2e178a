(** * C89: stiffness does not limit the step size

    If no entry of the linear operator has a positive real part, then the sensitivity of the runs
    to the initial state and to the nonlinear function is bounded by exp(c Lam (t - t0)), where
    [Lam] is a Lipschitz constant of the nonlinear function and [c] a number that depends on the
    scheme only. Neither the size of the linear operator nor the step size enters. *)

From Coq Require Import ZArith List Bool Reals Lra Lia FunctionalExtensionality QArith Qreals Setoid Morphisms.
From Coquelicot Require Import Hierarchy Derive RInt Complex.
From Verif Require Import Scalars Control ControlCS ControlCSReal ControlAS ControlASReal ControlSim ControlSound PropsControl Arrays SchemeBase
     SchemeIF SchemeETD4 SchemeETD5 Solvers SchemeFacts SchemeSound SchemeFamily SchemePartial SchemeForm CInst SpecRK
     SchemeIFReal PropsCache PropsIF SpecPhi SpecPoly ContourReal SpecERK SchemeETDReal SchemeETDCoefs PropsPsi PropsETD
     PropsLinear ContourMatrix MatrixFlow PropsMatrix Asym Solution LocalRK4 Stable Converge Voc LocalKro MatExp ConvRuns ConvMethods
     PropsConverge Stiff StiffOrder.
Import ListNotations.
Local Open Scope R_scope.

(** ** Spec *)
(** [N v] and [N' w] are at most [Lam (x + mu)] apart if [v] and [w] are at most [x] apart: [N] is
    Lipschitz and [N'] differs from it by at most [Lam mu]. *)
Definition close_lip (n : nat) (N N' : cvec -> cvec) (Lam mu : R) : Prop :=
  forall v w x, 0 <= x -> vle n (csub v w) x -> vle n (csub (N v) (N' w)) (Lam * (x + mu)).
(** [N] grows at most linearly. *)
Definition linear_growth (n : nat) (N : cvec -> cvec) (Lam mu : R) : Prop :=
  forall v x, 0 <= x -> vle n v x -> vle n (N v) (Lam * (x + mu)).
(** Sensible contour configuration (the default one has [quad_error] below 10^-34). *)
Definition good_contour (cfg : etdcfg Rops) : Prop :=
  0 < modecutoff cfg <= contour_radius cfg /\ (0 < contour_points cfg)%nat /\ quad_error cfg <= 1/6.

(** ** One-step methods *)
(** [Phi] takes steps of methods with amplification at most [exp (c x)], the same for every nonlinear function. *)
Definition tame (n : nat) (c : R) (Phi : (cvec -> cvec) -> R -> cvec -> cvec) : Prop :=
  forall h, 0 <= h -> exists rows bs m, bounded n rows bs m /\ (forall x, 0 <= x -> amp rows bs x <= exp (c * x)) /\
    forall N v, respects (below n) N -> veq (below n) (Phi N h v) (erk_step m N h v).

Lemma tame_apart n c Phi N N' Lam mu h v w d : tame n c Phi -> 0 <= Lam -> 0 <= mu -> 0 <= h -> 0 <= d ->
  respects (below n) N -> respects (below n) N' ->
  close_lip n N N' Lam mu -> vle n (csub v w) d ->
  vle n (csub (Phi N h v) (Phi N' h w)) (exp (c * Lam * h) * (d + mu) - mu).
Proof.
  intros HT HL Hmu Hh Hd R1 R2 HN Hv. destruct (HT h Hh) as (rows & bs & m & HB & HA & HE).
  eapply vle_ext; [symmetry; apply csub_proper; [apply HE; exact R1|apply HE; exact R2]|].
  eapply vle_mono; [apply (step_lipschitz n N N' Lam mu h v w d rows bs m); assumption|].
  assert (P : 0 <= h * Lam) by (apply Rmult_le_pos; assumption). specialize (HA _ P).
  replace (c * Lam * h) with (c * (h * Lam)) by ring.
  assert (amp rows bs (h * Lam) * (d + mu) <= exp (c * (h * Lam)) * (d + mu)) by (apply Rmult_le_compat_r; lra). lra.
Qed.
Lemma tame_growth n c Phi N Lam mu h v d : tame n c Phi -> 0 <= Lam -> 0 <= mu -> 0 <= h -> 0 <= d ->
  respects (below n) N -> linear_growth n N Lam mu -> vle n v d -> vle n (Phi N h v) (exp (c * Lam * h) * (d + mu) - mu).
Proof.
  intros HT HL Hmu Hh Hd R1 HN Hv. destruct (HT h Hh) as (rows & bs & m & HB & HA & HE).
  eapply vle_ext; [symmetry; apply HE; exact R1|].
  eapply vle_mono; [apply (step_growth n N Lam mu h v d rows bs m); assumption|].
  assert (P : 0 <= h * Lam) by (apply Rmult_le_pos; assumption). specialize (HA _ P).
  replace (c * Lam * h) with (c * (h * Lam)) by ring.
  assert (amp rows bs (h * Lam) * (d + mu) <= exp (c * (h * Lam)) * (d + mu)) by (apply Rmult_le_compat_r; lra). lra.
Qed.
Lemma exp_pos_ge c Lam h d mu : 0 <= c -> 0 <= Lam -> 0 <= h -> 0 <= d -> 0 <= mu -> 0 <= exp (c * Lam * h) * (d + mu) - mu.
Proof.
  intros. assert (E := exp_ge_1 (c * Lam * h) ltac:(apply Rmult_le_pos; [apply Rmult_le_pos|]; assumption)).
  assert (P : 0 <= c * Lam * h) by (apply Rmult_le_pos; [apply Rmult_le_pos|]; assumption).
  assert (1 * (d + mu) <= exp (c * Lam * h) * (d + mu)) by (apply Rmult_le_compat_r; lra). lra.
Qed.
Lemma exp_step c Lam h s d mu : exp (c * Lam * s) * (exp (c * Lam * h) * (d + mu) - mu + mu) - mu = exp (c * Lam * (h + s)) * (d + mu) - mu.
Proof. replace (c * Lam * (h + s)) with (c * Lam * s + c * Lam * h) by ring. rewrite exp_plus. ring. Qed.

Lemma runs_apart n c Phi N N' Lam mu : tame n c Phi -> 0 <= c -> 0 <= Lam -> 0 <= mu ->
  respects (below n) N -> respects (below n) N' -> close_lip n N N' Lam mu ->
  forall hs v w d, Forall (fun h => 0 < h) hs -> 0 <= d -> vle n (csub v w) d ->
  vle n (csub (grun (Phi N) hs v) (grun (Phi N') hs w)) (exp (c * Lam * total hs) * (d + mu) - mu).
Proof.
  intros HT Hc HL Hmu R1 R2 HN. induction hs as [|h hs IH]; intros v w d Hp Hd Hv.
  - cbn [grun total fold_right]. rewrite Rmult_0_r, exp_0. eapply vle_mono; [exact Hv|lra].
  - inversion Hp; subst. cbn [grun total fold_right]. fold (total hs).
    eapply vle_mono; [apply (IH (Phi N h v) (Phi N' h w) (exp (c * Lam * h) * (d + mu) - mu)); [assumption| |]|].
    + apply exp_pos_ge; try assumption. lra.
    + apply tame_apart; try assumption. lra.
    + right. apply exp_step.
Qed.
Lemma runs_growth n c Phi N Lam mu : tame n c Phi -> 0 <= c -> 0 <= Lam -> 0 <= mu ->
  respects (below n) N -> linear_growth n N Lam mu ->
  forall hs v d, Forall (fun h => 0 < h) hs -> 0 <= d -> vle n v d ->
  vle n (grun (Phi N) hs v) (exp (c * Lam * total hs) * (d + mu) - mu).
Proof.
  intros HT Hc HL Hmu R1 HN. induction hs as [|h hs IH]; intros v d Hp Hd Hv.
  - cbn [grun total fold_right]. rewrite Rmult_0_r, exp_0. eapply vle_mono; [exact Hv|lra].
  - inversion Hp; subst. cbn [grun total fold_right]. fold (total hs).
    eapply vle_mono; [apply (IH (Phi N h v) (exp (c * Lam * h) * (d + mu) - mu)); [assumption| |]|].
    + apply exp_pos_ge; try assumption. lra.
    + apply tame_growth; try assumption. lra.
    + right. apply exp_step.
Qed.

(** ** The strategies *)
Section Diag.
  Variable n : nat.
  Variable L : cvec.
  Hypothesis HL : dissipative n L.
  Lemma dflow_bop t : 0 <= t -> bop n 1 (dflow L t).
  Proof.
    intros Ht. apply (bop_dfun n t L (fun z => Cexp z)); [lra|]. intros i Hi. apply exp_left. rewrite Re_scal.
    assert (0 <= t * - fst (L i)) by (apply Rmult_le_pos; [exact Ht|]; specialize (HL i Hi); lra). lra.
  Qed.
  Lemma dE_bop h q : 0 <= h -> 0 <= q -> bop n 1 (dE h L q).
  Proof.
    intros Hh Hq. apply bop_dfun; [lra|]. intros i Hi. apply exp_left. rewrite !Re_scal.
    assert (0 <= q * (h * - fst (L i))) by (apply Rmult_le_pos; [exact Hq|]; apply Rmult_le_pos; [exact Hh|]; specialize (HL i Hi); lra). lra.
  Qed.
  Variable cfg : etdcfg Rops.
  Hypothesis Hcfg : good_contour cfg.
  Lemma ph_near r q z : (1 <= r <= 3)%nat -> 0 < q <= 1 -> Cmod (ph cfg r q z - phi r (RtoC q * z))%C <= quad_error cfg.
  Proof.
    intros Hr Hq. destruct Hcfg as ((H0 & HR) & HM & He).
    assert (P := quad_error_pos cfg ltac:(lra)).
    destruct (Rle_lt_dec (modecutoff cfg) (Cmod z)) as [Hz|Hz].
    - rewrite (ph_big cfg H0 r q z Hr ltac:(lra) Hz). replace (phi r (RtoC q * z) - phi r (RtoC q * z))%C with (RtoC 0) by ring.
      rewrite Cmod_0. exact P.
    - eapply Rle_trans; [apply (ph_error cfg H0 HM HR r q z Hr Hq)|]. unfold quad_err, quad_error.
      assert (F := INR_fact_lt_0 (contour_points cfg)). assert (Pr : 0 <= contour_radius cfg ^ contour_points cfg) by (apply pow_le; lra).
      assert (X : exp (Cmod z + contour_radius cfg) <= exp (modecutoff cfg + contour_radius cfg)) by (left; apply exp_increasing; lra).
      assert (F1 := fact_inv_pos r).
      set (y := exp (Cmod z + contour_radius cfg) * contour_radius cfg ^ contour_points cfg / INR (fact (contour_points cfg))).
      assert (0 <= y).
      { unfold y. apply Rmult_le_pos; [apply Rmult_le_pos; [left; apply exp_pos|exact Pr]|left; apply Rinv_0_lt_compat; exact F]. }
      apply Rle_trans with (y * 1); [apply Rmult_le_compat_l; lra|]. rewrite Rmult_1_r. unfold y.
      apply Rmult_le_compat_r; [left; apply Rinv_0_lt_compat; exact F|]. apply Rmult_le_compat_r; assumption.
  Qed.
  Lemma dph_bop h r q : 0 <= h -> (1 <= r <= 3)%nat -> 0 < q <= 1 -> bop n (/ INR (fact r) + 1/6) (dph cfg h L r q).
  Proof.
    intros Hh Hr Hq. assert (F := fact_inv_pos r). apply bop_dfun; [lra|]. intros i Hi.
    set (z := (RtoC h * L i)%C). assert (E := ph_near r q z Hr Hq).
    replace (ph cfg r q z) with (phi r (RtoC q * z) + (ph cfg r q z - phi r (RtoC q * z)))%C by ring.
    eapply Rle_trans; [apply Cmod_triangle|]. destruct Hcfg as (_ & _ & He). apply Rplus_le_compat; [|lra].
    apply phi_left. unfold z. rewrite !Re_scal.
    assert (0 <= q * (h * - fst (L i))) by (apply Rmult_le_pos; [lra|]; apply Rmult_le_pos; [exact Hh|]; specialize (HL i Hi); lra). lra.
  Qed.
End Diag.
Lemma bop_f1 n o : bop n (/ INR (fact 1) + 1/6) o -> bop n (7/6) o.
Proof. intros H. eapply bop_weak; [exact H|]. cbn. lra. Qed.
Lemma bop_f2 n o : bop n (/ INR (fact 2) + 1/6) o -> bop n (2/3) o.
Proof. intros H. eapply bop_weak; [exact H|]. cbn. lra. Qed.
Lemma bop_f3 n o : bop n (/ INR (fact 3) + 1/6) o -> bop n (1/3) o.
Proof. intros H. eapply bop_weak; [exact H|]. cbn. lra. Qed.

(** The constants. *)
Definition cs_rate (k : cs_kind) : option R :=
  match k with IF4d => Some 1 | ETD4d => Some 12 | ETD5d => Some 15 | _ => None end.
Definition as_rate (k : as_kind) : option R :=
  match k with IF34d => Some 1 | IF45DPd => Some 6 | ETD34d => Some 12 | ETD35d => Some 15 | _ => None end.

Lemma rk4_tame n (Ex : R -> op) Phi : (forall t, 0 <= t -> bop n 1 (Ex t)) ->
  (forall N h v, respects (below n) N -> veq (below n) (Phi N h v) (erk_step (law_erk RK4 Ex h) N h v)) -> tame n 1 Phi.
Proof.
  intros HE HP h Hh. exists rk4_rows, rk4_bs, (law_erk RK4 Ex h). split; [apply rk4_bounded; assumption|].
  split; [|intros N v HN; apply HP; exact HN]. intros x Hx. rewrite Rmult_1_l. apply amp_rk4. exact Hx.
Qed.
Lemma lawson_eq tb L N h v : lawson tb (dflow L) N h v = erk_step (law_erk tb (dflow L) h) N h v.
Proof. rewrite law_erk_step. apply veq_all. apply (lawson_if_step all (dflow L) N (dflow_flow L) (respects_all N) tb h v). Qed.
Lemma kro_tame n L cfg Phi : dissipative n L -> good_contour cfg -> (forall N h v, Phi N h v = erk_step (d_krogstad cfg h L) N h v) -> tame n 12 Phi.
Proof.
  intros HL Hc HP h Hh. exists kro_rows, kro_bs, (d_krogstad cfg h L).
  split; [|split; [apply amp_kro|intros N v _; rewrite HP; reflexivity]].
  unfold d_krogstad. apply kro_bounded; try (apply dE_bop; (assumption || lra));
    first [apply bop_f1; apply dph_bop; (assumption || lia || lra) | apply bop_f2; apply dph_bop; (assumption || lia || lra) | apply bop_f3; apply dph_bop; (assumption || lia || lra)].
Qed.
Lemma etd5_tame n L cfg Phi : dissipative n L -> good_contour cfg -> (forall N h v, Phi N h v = erk_step (d_etd5 cfg h L) N h v) -> tame n 15 Phi.
Proof.
  intros HL Hc HP h Hh. exists etd5_rows, etd5_bs, (d_etd5 cfg h L).
  split; [|split; [apply amp_etd5|intros N v _; rewrite HP; reflexivity]].
  unfold d_etd5. apply etd5_bounded; try (apply dE_bop; (assumption || lra));
    first [apply bop_f1; apply dph_bop; (assumption || lia || lra) | apply bop_f2; apply dph_bop; (assumption || lia || lra) | apply bop_f3; apply dph_bop; (assumption || lia || lra)].
Qed.

Lemma cs_tame {W} n (p : problem Cops W) k c : cs_rate k = Some c -> dissipative n (p_vec p) -> good_contour (p_cfg p) ->
  tame n c (fun N => cs_Phi p N k).
Proof.
  intros Hk HL Hc. destruct k; try discriminate; injection Hk as <-.
  - apply (rk4_tame n (dflow (p_vec p))); [apply dflow_bop; exact HL|]. intros N h v _. rewrite C32_if4_diagonal, lawson_eq. reflexivity.
  - apply (kro_tame n (p_vec p) (p_cfg p)); try assumption. intros N h v. apply etd4d_erk.
  - apply (etd5_tame n (p_vec p) (p_cfg p)); try assumption. intros N h v. apply etd5d_erk.
Qed.
Lemma as_tame {W} n (p : problem Cops W) k c : as_rate k = Some c -> dissipative n (p_vec p) -> good_contour (p_cfg p) ->
  tame n c (fun N h v => fst (as_Phi p N k h v)).
Proof.
  intros Hk HL Hc. destruct k; try discriminate; injection Hk as <-.
  - apply (rk4_tame n (dflow (p_vec p))); [apply dflow_bop; exact HL|]. intros N h v _ i _.
    rewrite (proj1 (C33_if34_diagonal W p N h v i)), lawson_eq. reflexivity.
  - intros h Hh. exists dp_rows, dp_bs, (law_erk DP5 (dflow (p_vec p)) h). split; [apply dp_bounded; [apply dflow_bop; exact HL|exact Hh]|].
    split; [apply amp_dp|]. intros N v _. rewrite C34_if45dp_candidate, lawson_eq. reflexivity.
  - apply (kro_tame n (p_vec p) (p_cfg p)); try assumption. intros N h v. rewrite etd34d_erk. reflexivity.
  - apply (etd5_tame n (p_vec p) (p_cfg p)); try assumption. intros N h v. rewrite etd35d_erk. reflexivity.
Qed.

(** The dense integrating factor strategies, for operators whose exponentials do not increase the maximum norm (graph
    Laplacians, generators of Markov chains, diagonally dominant matrices with negative diagonal). *)
Definition contractive (n : nat) (Ex : R -> cmat) : Prop := forall t i, 0 <= t -> (i < n)%nat -> rown n (Ex t) i <= 1.
Lemma mflow_bop n (Ex : R -> cmat) : contractive n Ex -> forall t, 0 <= t -> bop n 1 (mflow n Ex t).
Proof.
  intros H t Ht. split; [|split; [|lra]].
  - apply linear_rlinear. unfold mflow. apply mdot_linear.
  - intros v x Hx Hv i Hi. unfold mflow.
    apply Rle_trans with (rown n (Ex t) i * x); [|apply Rmult_le_compat_r; [exact Hx|apply H; assumption]].
    unfold mdot, rown. rewrite (Rmult_comm _ x), <- sumf_mul. eapply Rle_trans; [apply Cmod_csum|].
    apply sumf_le. intros j Hj. rewrite Cmod_mult, Rmult_comm. apply Rmult_le_compat_r; [apply Cmod_ge_0|apply Hv; exact Hj].
Qed.

(** ** Runs *)
Lemma total_repeat (h : R) j : total (repeat h j) = INR j * h.
Proof. unfold total. induction j as [|j IH]; [cbn; lra|]. cbn [repeat fold_right]. rewrite IH, S_INR. lra. Qed.
Lemma nth_map_seq U (f : nat -> U) m j a : nth_error (map f (seq 0 m)) j = Some a -> (j < m)%nat /\ a = f j.
Proof.
  intros H. assert (Hj : (j < m)%nat) by (rewrite <- (seq_length m 0), <- (map_length f); apply nth_error_Some; congruence).
  split; [exact Hj|]. rewrite nth_error_map in H. rewrite (nth_error_nth' _ 0%nat) in H by (rewrite seq_length; exact Hj).
  rewrite seq_nth in H by exact Hj. cbn in H. congruence.
Qed.
Lemma nth_steps U (Phi : R -> U -> U) t0 u hs ts us j a : steps_of Phi t0 u hs ts us -> nth_error us j = Some a ->
  (j <= length hs)%nat /\ a = grun Phi (firstn j hs) u.
Proof. intros [_ ->] H. apply nth_map_seq in H. destruct H as [H ->]. split; [lia|reflexivity]. Qed.
Lemma nth_times U (Phi : R -> U -> U) t0 u hs ts us j a : steps_of Phi t0 u hs ts us -> nth_error ts j = Some a ->
  (j <= length hs)%nat /\ a = t0 + total (firstn j hs).
Proof. intros [-> _] H. apply nth_map_seq in H. destruct H as [H ->]. split; [lia|reflexivity]. Qed.
Lemma firstn_repeat (h : R) j m : (j <= m)%nat -> firstn j (repeat h m) = repeat h j.
Proof. revert m. induction j as [|j IH]; intros [|m] H; try reflexivity; [lia|]. cbn. f_equal. apply IH. lia. Qed.
Lemma repeat_pos (h : R) j : 0 < h -> Forall (fun x => 0 < x) (repeat h j).
Proof. intros H. apply Forall_forall. intros x Hx. apply repeat_spec in Hx. subst. exact H. Qed.
Lemma firstn_pos (hs : list R) j : Forall (fun x => 0 < x) hs -> Forall (fun x => 0 < x) (firstn j hs).
Proof. intros H. revert j. induction H; intros [|j]; cbn; constructor; auto. Qed.
Lemma bound_mono c Lam s t d mu : 0 <= c -> 0 <= Lam -> s <= t -> 0 <= d -> 0 <= mu ->
  exp (c * Lam * s) * (d + mu) - mu <= exp (c * Lam * t) * (d + mu) - mu.
Proof.
  intros. assert (exp (c * Lam * s) <= exp (c * Lam * t)).
  { apply exp_mono. apply Rmult_le_compat_l; [apply Rmult_le_pos; assumption|assumption]. }
  assert (exp (c * Lam * s) * (d + mu) <= exp (c * Lam * t) * (d + mu)) by (apply Rmult_le_compat_r; lra). lra.
Qed.

Section CS.
  Variables (W W' : Type) (p : problem Cops W) (p' : problem Cops W').
  Variables (n : nat) (k : cs_kind) (c Lam mu d : R) (N N' : cvec -> cvec).
  Hypothesis HT : tame n c (fun N => cs_Phi p N k).
  Hypothesis HE : forall h v, cs_Phi p' N' k h v = cs_Phi p N' k h v.
  Hypothesis Hc : 0 <= c. Hypothesis HL : 0 <= Lam. Hypothesis Hmu : 0 <= mu. Hypothesis Hd : 0 <= d.
  Hypothesis HR : respects (below n) N. Hypothesis HR' : respects (below n) N'.
  Hypothesis HN : close_lip n N N' Lam mu.
  Hypothesis Hp : computes p N. Hypothesis Hp' : computes p' N'.
  (** Two runs with the same times and step: the distance of the values after [j] steps. *)
  Lemma cs_runs_apart fuel fuel' v v' (s0 sf h : pynum (T Rops)) (o : csobj Rops (vec Cops) W (cs_model p k))
      (o' : csobj Rops (vec Cops) W' (cs_model p' k)) w w' r r' o1 o1' w1 w1' :
    0 < val h -> val s0 <= val sf -> vle n (csub v v') d ->
    cs_evolve (F := Rops) fuel v s0 sf h true 1 o w = (r, o1, w1) ->
    cs_evolve (F := Rops) fuel' v' s0 sf h true 1 o' w' = (r', o1', w1') ->
    (forall j a b, nth_error (c_u o1) j = Some a -> nth_error (c_u o1') j = Some b ->
       vle n (csub a b) (exp (c * Lam * (INR j * val h)) * (d + mu) - mu)) /\
    (forall a b, r = Ret a -> r' = Ret b -> vle n (csub a b) (exp (c * Lam * (val sf - val s0 + val h)) * (d + mu) - mu)).
  Proof.
    intros Hh Hs Hv E1 E2.
    destruct (cs_model_sound1 (F := Rops) (fun a b X => proj1 (Reqb_true a b) X) p N Hp k) as [I1 M1].
    destruct (cs_model_sound1 (F := Rops) (fun a b X => proj1 (Reqb_true a b) X) p' N' Hp' k) as [I2 M2].
    destruct (cs_evolve_steps M1 fuel v s0 sf h o w Hh Hs E1) as (n1 & _ & B1 & S1 & R1).
    destruct (cs_evolve_steps M2 fuel' v' s0 sf h o' w' Hh Hs E2) as (n2 & _ & B2 & S2 & R2).
    assert (X : forall hs z, grun (cs_Phi p' N' k) hs z = grun (cs_Phi p N' k) hs z).
    { induction hs as [|x hs IH]; intros z; [reflexivity|]. cbn. rewrite HE. apply IH. }
    assert (G : forall j, vle n (csub (grun (cs_Phi p N k) (repeat (val h) j) v) (grun (cs_Phi p' N' k) (repeat (val h) j) v'))
                (exp (c * Lam * (INR j * val h)) * (d + mu) - mu)).
    { intros j. rewrite X, <- total_repeat. apply (runs_apart n c (fun N => cs_Phi p N k) N N' Lam mu HT Hc HL Hmu HR HR' HN); try assumption. apply repeat_pos. exact Hh. }
    split.
    - intros j a b Ha Hb. destruct (nth_steps _ _ _ _ _ _ _ _ _ S1 Ha) as [J1 ->]. destruct (nth_steps _ _ _ _ _ _ _ _ _ S2 Hb) as [J2 ->].
      rewrite repeat_length in *. rewrite !firstn_repeat by assumption. apply G.
    - intros a b Ha Hb. destruct (R1 a Ha) as [-> T1]. destruct (R2 b Hb) as [-> T2]. set (x := val h : R) in *.
      assert (EQ : n1 = n2).
      { destruct (lt_eq_lt_dec n1 n2) as [[Q|Q]|Q]; [|exact Q|]; exfalso.
        - specialize (B2 ltac:(lia)). assert (INR n1 <= INR (n2 - 1)) by (apply le_INR; lia).
          assert (INR n1 * x <= INR (n2 - 1) * x) by (apply Rmult_le_compat_r; lra). lra.
        - specialize (B1 ltac:(lia)). assert (INR n2 <= INR (n1 - 1)) by (apply le_INR; lia).
          assert (INR n2 * x <= INR (n1 - 1) * x) by (apply Rmult_le_compat_r; lra). lra. }
      subst n2. eapply vle_mono; [apply G|]. apply bound_mono; try assumption.
      destruct n1 as [|m]; [change (INR 0) with 0; set (y0 := val s0 : R) in *; set (y1 := val sf : R) in *; lra|]. specialize (B1 ltac:(lia)). rewrite S_INR. replace (S m - 1)%nat with m in B1 by lia.
      set (y0 := val s0 : R) in *; set (y1 := val sf : R) in *. lra.
  Qed.
  Lemma cs_runs_growth fuel v (s0 sf h : pynum (T Rops)) (o : csobj Rops (vec Cops) W (cs_model p k)) w r o1 w1 :
    linear_growth n N Lam mu -> 0 < val h -> val s0 <= val sf -> vle n v d ->
    cs_evolve (F := Rops) fuel v s0 sf h true 1 o w = (r, o1, w1) ->
    (forall j a, nth_error (c_u o1) j = Some a -> vle n a (exp (c * Lam * (INR j * val h)) * (d + mu) - mu)) /\
    (forall a, r = Ret a -> vle n a (exp (c * Lam * (val sf - val s0 + val h)) * (d + mu) - mu)).
  Proof.
    intros HG Hh Hs Hv E1.
    destruct (cs_model_sound1 (F := Rops) (fun a b X => proj1 (Reqb_true a b) X) p N Hp k) as [I1 M1].
    destruct (cs_evolve_steps M1 fuel v s0 sf h o w Hh Hs E1) as (n1 & _ & B1 & S1 & R1).
    assert (G : forall j, vle n (grun (cs_Phi p N k) (repeat (val h) j) v) (exp (c * Lam * (INR j * val h)) * (d + mu) - mu)).
    { intros j. rewrite <- total_repeat. apply (runs_growth n c (fun N => cs_Phi p N k) N Lam mu HT Hc HL Hmu HR HG); try assumption. apply repeat_pos. exact Hh. }
    split.
    - intros j a Ha. destruct (nth_steps _ _ _ _ _ _ _ _ _ S1 Ha) as [J1 ->]. rewrite repeat_length in *. rewrite firstn_repeat by assumption. apply G.
    - intros a Ha. destruct (R1 a Ha) as [-> T1]. set (x := val h : R) in *.
      eapply vle_mono; [apply G|]. apply bound_mono; try assumption.
      destruct n1 as [|m]; [change (INR 0) with 0; set (y0 := val s0 : R) in *; set (y1 := val sf : R) in *; lra|]. specialize (B1 ltac:(lia)). rewrite S_INR. replace (S m - 1)%nat with m in B1 by lia.
      set (y0 := val s0 : R) in *; set (y1 := val sf : R) in *. lra.
  Qed.
End CS.

(** Step sizes are determined by the recorded times. *)
Lemma steps_same (hs hs' : list R) (t0 : R) :
  map (fun j => t0 + total (firstn j hs)) (seq 0 (S (length hs))) = map (fun j => t0 + total (firstn j hs')) (seq 0 (S (length hs'))) -> hs = hs'.
Proof.
  revert hs' t0. induction hs as [|h hs IH]; intros [|h' hs'] t0 E; try reflexivity; try (apply (f_equal (@length R)) in E; rewrite !map_length, !seq_length in E; cbn in E; lia).
  assert (F : forall (x : R) l, map (fun j => t0 + total (firstn j (x :: l))) (seq 0 (S (length (x :: l)))) =
              t0 :: map (fun j => (t0 + x) + total (firstn j l)) (seq 0 (S (length l)))).
  { intros x l. cbn [length]. rewrite <- (cons_seq (S (length l)) 0), <- seq_shift. cbn [map]. rewrite map_map. f_equal; [cbn; lra|].
    apply map_ext. intros j. cbn [firstn]. unfold total. cbn [fold_right]. lra. }
  rewrite !F in E. injection E as E1 E2.
  assert (Q : h = h') by (cbn in E1; lra). subst h'. f_equal. apply (IH hs' (t0 + h)).
  cbn [seq map]. f_equal. exact E2.
Qed.

Section AS.
  Variables (W W' : Type) (p : problem Cops W) (p' : problem Cops W').
  Variables (n : nat) (k : as_kind) (c Lam mu d : R) (N N' : cvec -> cvec).
  Hypothesis HT : tame n c (fun N h v => fst (as_Phi p N k h v)).
  Hypothesis HE : forall h v, as_Phi p' N' k h v = as_Phi p N' k h v.
  Hypothesis Hc : 0 <= c. Hypothesis HL : 0 <= Lam. Hypothesis Hmu : 0 <= mu. Hypothesis Hd : 0 <= d.
  Hypothesis HR : respects (below n) N. Hypothesis HR' : respects (below n) N'.
  Hypothesis Hp : computes p N. Hypothesis Hp' : computes p' N'.
  Variables (ks ks' : consts (T Rops)).
  Hypothesis Hks : 0 < MIN_S ks < 1 /\ 1 <= MAX_S ks. Hypothesis Hks' : 0 < MIN_S ks' < 1 /\ 1 <= MAX_S ks'.
  Variables (cf cf' : config (T Rops)).
  Hypothesis Hcf : valid_config cf. Hypothesis Hcf' : valid_config cf'.
  Lemma as_runs_growth compute_s fuel v (s0 sf : pynum (T Rops)) hi (o : asobj Rops (vec Cops) W (as_model p k)) w r o1 w1 :
    linear_growth n N Lam mu -> val s0 < val sf -> match hi with Some h => 0 < val h | None => True end -> vle n v d ->
    as_evolve ks cf compute_s fuel v s0 sf hi true 1 o w = (r, o1, w1) ->
    (forall j t a, nth_error (map val (a_t o1)) j = Some t -> nth_error (a_u o1) j = Some a ->
       vle n a (exp (c * Lam * (t - val s0)) * (d + mu) - mu)) /\
    (forall a, r = Ret a -> vle n a (exp (c * Lam * (val sf - val s0)) * (d + mu) - mu)).
  Proof.
    intros HG Hs Hhi Hv E1.
    destruct (as_model_sound1 (F := Rops) (fun a b X => proj1 (Reqb_true a b) X) p N Hp k) as [I1 M1].
    destruct (as_evolve_steps ks compute_s M1 Hks Hcf fuel v s0 sf hi o w Hs Hhi E1) as (hs & Hpos & _ & Htot & S1 & R1).
    assert (G : forall hs, Forall (fun x => 0 < x) hs -> vle n (grun (fun h v => fst (as_Phi p N k h v)) hs v) (exp (c * Lam * total hs) * (d + mu) - mu)).
    { intros l Hl. apply (runs_growth n c (fun N h v => fst (as_Phi p N k h v)) N Lam mu HT Hc HL Hmu HR HG); assumption. }
    split.
    - intros j t a Ht Ha. destruct (nth_steps _ _ _ _ _ _ _ _ _ S1 Ha) as [_ ->]. destruct (nth_times _ _ _ _ _ _ _ _ _ S1 Ht) as [_ ->].
      replace (val s0 + total (firstn j hs) - val s0) with (total (firstn j hs)) by (cbn; lra). apply G. apply firstn_pos. exact Hpos.
    - intros a Ha. destruct (R1 a Ha) as [-> T1]. rewrite <- T1. replace (val s0 + total hs - val s0) with (total hs) by (cbn; lra). apply G. exact Hpos.
  Qed.
  Lemma as_runs_apart compute_s compute_s' fuel fuel' v v' (s0 sf sf' : pynum (T Rops)) hi hi' (o : asobj Rops (vec Cops) W (as_model p k))
      (o' : asobj Rops (vec Cops) W' (as_model p' k)) w w' r r' o1 o1' w1 w1' :
    close_lip n N N' Lam mu -> val s0 < val sf -> val s0 < val sf' ->
    match hi with Some h => 0 < val h | None => True end -> match hi' with Some h => 0 < val h | None => True end ->
    vle n (csub v v') d ->
    as_evolve ks cf compute_s fuel v s0 sf hi true 1 o w = (r, o1, w1) ->
    as_evolve ks' cf' compute_s' fuel' v' s0 sf' hi' true 1 o' w' = (r', o1', w1') ->
    map val (a_t o1) = map val (a_t o1') ->
    forall j t a b, nth_error (map val (a_t o1)) j = Some t -> nth_error (a_u o1) j = Some a -> nth_error (a_u o1') j = Some b ->
       vle n (csub a b) (exp (c * Lam * (t - val s0)) * (d + mu) - mu).
  Proof.
    intros HN Hs Hs' Hhi Hhi' Hv E1 E2 ET j t a b Ht Ha Hb.
    destruct (as_model_sound1 (F := Rops) (fun a b X => proj1 (Reqb_true a b) X) p N Hp k) as [I1 M1].
    destruct (as_model_sound1 (F := Rops) (fun a b X => proj1 (Reqb_true a b) X) p' N' Hp' k) as [I2 M2].
    destruct (as_evolve_steps ks compute_s M1 Hks Hcf fuel v s0 sf hi o w Hs Hhi E1) as (hs & Hpos & _ & _ & S1 & _).
    destruct (as_evolve_steps ks' compute_s' M2 Hks' Hcf' fuel' v' s0 sf' hi' o' w' Hs' Hhi' E2) as (hs' & _ & _ & _ & S2 & _).
    assert (EH : hs = hs') by (apply (steps_same hs hs' (val s0)); rewrite <- (proj1 S1), <- (proj1 S2); exact ET). subst hs'.
    destruct (nth_steps _ _ _ _ _ _ _ _ _ S1 Ha) as [_ ->]. destruct (nth_steps _ _ _ _ _ _ _ _ _ S2 Hb) as [_ ->].
    destruct (nth_times _ _ _ _ _ _ _ _ _ S1 Ht) as [_ ->].
    assert (X : forall l z, grun (fun h v => fst (as_Phi p' N' k h v)) l z = grun (fun h v => fst (as_Phi p N' k h v)) l z).
    { induction l as [|x l IH]; intros z; [reflexivity|]. cbn. rewrite HE. apply IH. }
    rewrite X. replace (val s0 + total (firstn j hs) - val s0) with (total (firstn j hs)) by (cbn; lra).
    apply (runs_apart n c (fun N h v => fst (as_Phi p N k h v)) N N' Lam mu HT Hc HL Hmu HR HR' HN); try assumption. apply firstn_pos. exact Hpos.
  Qed.
End AS.

(** ** Which entries of the strategies depend on the linear operator and the configuration only *)
Lemma cs_Phi_same {W W'} (p : problem Cops W) (p' : problem Cops W') k c N h v : cs_rate k = Some c ->
  p_vec p' = p_vec p -> p_cfg p' = p_cfg p -> cs_Phi p' N k h v = cs_Phi p N k h v.
Proof.
  intros Hk E1 E2. destruct k; try discriminate.
  - rewrite !C32_if4_diagonal, E1. reflexivity.
  - rewrite !etd4d_erk, E1, E2. reflexivity.
  - rewrite !etd5d_erk, E1, E2. reflexivity.
Qed.
Lemma as_Phi_same {W W'} (p : problem Cops W) (p' : problem Cops W') k c N h v : as_rate k = Some c ->
  p_vec p' = p_vec p -> p_cfg p' = p_cfg p -> as_Phi p' N k h v = as_Phi p N k h v.
Proof. intros Hk. destruct k; try discriminate; destruct p, p'; simpl; intros -> ->; reflexivity. Qed.
Lemma cs_rate_pos k c : cs_rate k = Some c -> 0 <= c.
Proof. destruct k; intros E; try discriminate; injection E as <-; lra. Qed.
Lemma as_rate_pos k c : as_rate k = Some c -> 0 <= c.
Proof. destruct k; intros E; try discriminate; injection E as <-; lra. Qed.

Lemma cs_Phi_mat_same {W W'} (p : problem Cops W) (p' : problem Cops W') N h v :
  p_size p' = p_size p -> p_mat p' = p_mat p -> p_expm p' = p_expm p -> cs_Phi p' N IF4n h v = cs_Phi p N IF4n h v.
Proof. destruct p, p'. simpl. intros -> -> ->. reflexivity. Qed.

(** Two constant-step runs (IF4, ETD4, ETD5 with a 1-D operator) from states at most [d] apart, for nonlinear functions that
    are Lipschitz with constant [Lam] up to [Lam mu]: the values after [j] steps of ANY size [h] are at most
    exp(c Lam j h) (d + mu) - mu apart. *)
Theorem C89_constant_step_stability :
  forall W W' (p : problem Cops W) (p' : problem Cops W') k c n N N' Lam mu d,
    cs_rate k = Some c -> p_vec p' = p_vec p -> p_cfg p' = p_cfg p ->
    dissipative n (p_vec p) -> good_contour (p_cfg p) -> 0 <= Lam -> 0 <= mu -> 0 <= d ->
    respects (below n) N -> respects (below n) N' -> close_lip n N N' Lam mu -> computes p N -> computes p' N' ->
    forall fuel fuel' v v' (s0 sf h : pynum (T Rops)) (o : csobj Rops (vec Cops) W (cs_model p k))
      (o' : csobj Rops (vec Cops) W' (cs_model p' k)) w w' r r' o1 o1' w1 w1',
    0 < val h -> val s0 <= val sf -> vle n (csub v v') d ->
    cs_evolve (F := Rops) fuel v s0 sf h true 1 o w = (r, o1, w1) ->
    cs_evolve (F := Rops) fuel' v' s0 sf h true 1 o' w' = (r', o1', w1') ->
    (forall j a b, nth_error (c_u o1) j = Some a -> nth_error (c_u o1') j = Some b ->
       vle n (csub a b) (exp (c * Lam * (INR j * val h)) * (d + mu) - mu)) /\
    (forall a b, r = Ret a -> r' = Ret b -> vle n (csub a b) (exp (c * Lam * (val sf - val s0 + val h)) * (d + mu) - mu)).
Proof.
  intros W W' p p' k c n N N' Lam mu d Hk Ev Ec HL Hg H1 H2 H3 R1 R2 HN Hp Hp' fuel fuel' v v' s0 sf h o o' w w' r r' o1 o1' w1 w1' Hh Hs Hv E1 E2.
  exact (cs_runs_apart W W' p p' n k c Lam mu d N N' (cs_tame n p k c Hk HL Hg) (fun h v => cs_Phi_same p p' k c N' h v Hk Ev Ec) (cs_rate_pos k c Hk)
           H1 H2 H3 R1 R2 HN Hp Hp' fuel fuel' v v' s0 sf h o o' w w' r r' o1 o1' w1 w1' Hh Hs Hv E1 E2).
Qed.

Theorem C89_constant_step_growth :
  forall W (p : problem Cops W) k c n N Lam mu d,
    cs_rate k = Some c -> dissipative n (p_vec p) -> good_contour (p_cfg p) -> 0 <= Lam -> 0 <= mu -> 0 <= d ->
    respects (below n) N -> linear_growth n N Lam mu -> computes p N ->
    forall fuel v (s0 sf h : pynum (T Rops)) (o : csobj Rops (vec Cops) W (cs_model p k)) w r o1 w1,
    0 < val h -> val s0 <= val sf -> vle n v d ->
    cs_evolve (F := Rops) fuel v s0 sf h true 1 o w = (r, o1, w1) ->
    (forall j a, nth_error (c_u o1) j = Some a -> vle n a (exp (c * Lam * (INR j * val h)) * (d + mu) - mu)) /\
    (forall a, r = Ret a -> vle n a (exp (c * Lam * (val sf - val s0 + val h)) * (d + mu) - mu)).
Proof.
  intros W p k c n N Lam mu d Hk HL Hg H1 H2 H3 R1 HN Hp fuel v s0 sf h o w r o1 w1 Hh Hs Hv E1.
  exact (cs_runs_growth W p n k c Lam mu d N (cs_tame n p k c Hk HL Hg) (cs_rate_pos k c Hk) H1 H2 H3 R1 Hp fuel v s0 sf h o w r o1 w1 HN Hh Hs Hv E1).
Qed.

(** Adaptive runs (IF34, IF45DP, ETD34, ETD35 with a 1-D operator) stay bounded, whatever steps the controller chooses. *)
Theorem C89_adaptive_growth :
  forall W (p : problem Cops W) k c n N Lam mu d,
    as_rate k = Some c -> dissipative n (p_vec p) -> good_contour (p_cfg p) -> 0 <= Lam -> 0 <= mu -> 0 <= d ->
    respects (below n) N -> linear_growth n N Lam mu -> computes p N ->
    forall (ks : consts (T Rops)) cf compute_s fuel v (s0 sf : pynum (T Rops)) hi (o : asobj Rops (vec Cops) W (as_model p k)) w r o1 w1,
    (0 < MIN_S ks < 1 /\ 1 <= MAX_S ks) -> valid_config cf ->
    val s0 < val sf -> match hi with Some h => 0 < val h | None => True end -> vle n v d ->
    as_evolve ks cf compute_s fuel v s0 sf hi true 1 o w = (r, o1, w1) ->
    (forall j t a, nth_error (map val (a_t o1)) j = Some t -> nth_error (a_u o1) j = Some a ->
       vle n a (exp (c * Lam * (t - val s0)) * (d + mu) - mu)) /\
    (forall a, r = Ret a -> vle n a (exp (c * Lam * (val sf - val s0)) * (d + mu) - mu)).
Proof.
  intros W p k c n N Lam mu d Hk HL Hg H1 H2 H3 R1 HN Hp ks cf compute_s fuel v s0 sf hi o w r o1 w1 Hks Hcf Hs Hhi Hv E1.
  exact (as_runs_growth W p n k c Lam mu d N (as_tame n p k c Hk HL Hg) (as_rate_pos k c Hk) H1 H2 H3 R1 Hp ks Hks cf Hcf compute_s fuel v s0 sf hi o w r o1 w1 HN Hs Hhi Hv E1).
Qed.

(** Two adaptive runs that took the same steps (the controller may choose other steps for other data). *)
Theorem C89_adaptive_stability :
  forall W (p : problem Cops W) k c n N N' Lam mu d W' (p' : problem Cops W'),
    as_rate k = Some c -> p_vec p' = p_vec p -> p_cfg p' = p_cfg p ->
    dissipative n (p_vec p) -> good_contour (p_cfg p) -> 0 <= Lam -> 0 <= mu -> 0 <= d ->
    respects (below n) N -> respects (below n) N' -> close_lip n N N' Lam mu -> computes p N -> computes p' N' ->
    forall (ks ks' : consts (T Rops)) cf cf' compute_s compute_s' fuel fuel' v v' (s0 sf sf' : pynum (T Rops)) hi hi'
      (o : asobj Rops (vec Cops) W (as_model p k)) (o' : asobj Rops (vec Cops) W' (as_model p' k)) w w' r r' o1 o1' w1 w1',
    (0 < MIN_S ks < 1 /\ 1 <= MAX_S ks) -> (0 < MIN_S ks' < 1 /\ 1 <= MAX_S ks') -> valid_config cf -> valid_config cf' ->
    val s0 < val sf -> val s0 < val sf' ->
    match hi with Some h => 0 < val h | None => True end -> match hi' with Some h => 0 < val h | None => True end ->
    vle n (csub v v') d ->
    as_evolve ks cf compute_s fuel v s0 sf hi true 1 o w = (r, o1, w1) ->
    as_evolve ks' cf' compute_s' fuel' v' s0 sf' hi' true 1 o' w' = (r', o1', w1') ->
    map val (a_t o1) = map val (a_t o1') ->
    forall j t a b, nth_error (map val (a_t o1)) j = Some t -> nth_error (a_u o1) j = Some a -> nth_error (a_u o1') j = Some b ->
       vle n (csub a b) (exp (c * Lam * (t - val s0)) * (d + mu) - mu).
Proof.
  intros W p k c n N N' Lam mu d W' p' Hk X1 X2 HL Hg H1 H2 H3 R1 R2 HN Hp Hp' ks ks' cf cf' compute_s compute_s' fuel fuel' v v' s0 sf sf' hi hi' o o' w w'
    r r' o1 o1' w1 w1' K1 K2 C1 C2 Hs Hs' Hhi Hhi' Hv E1 E2 ET.
  exact (as_runs_apart W W' p p' n k c Lam mu d N N' (as_tame n p k c Hk HL Hg) (fun h v => as_Phi_same p p' k c N' h v Hk X1 X2) (as_rate_pos k c Hk) H1 H2 H3 R1 R2 Hp Hp' ks ks' K1 K2 cf cf' C1 C2
           compute_s compute_s' fuel fuel' v v' s0 sf sf' hi hi' o o' w w' r r' o1 o1' w1 w1' HN Hs Hs' Hhi Hhi' Hv E1 E2 ET).
Qed.

(** Dense operators with contractive exponentials: IF4 and IF34. *)
Theorem C89_matrix :
  forall W W' (p : problem Cops W) (p' : problem Cops W') N N' Lam mu d Ex,
    expm_ok p Ex -> contractive (p_size p) Ex -> p_size p' = p_size p -> p_mat p' = p_mat p -> p_expm p' = p_expm p ->
    0 <= Lam -> 0 <= mu -> 0 <= d -> respects (below (p_size p)) N -> respects (below (p_size p)) N' -> computes p N -> computes p' N' ->
    (forall fuel fuel' v v' (s0 sf h : pynum (T Rops)) (o : csobj Rops (vec Cops) W (cs_model p IF4n))
      (o' : csobj Rops (vec Cops) W' (cs_model p' IF4n)) w w' r r' o1 o1' w1 w1',
      close_lip (p_size p) N N' Lam mu -> 0 < val h -> val s0 <= val sf -> vle (p_size p) (csub v v') d ->
      cs_evolve (F := Rops) fuel v s0 sf h true 1 o w = (r, o1, w1) ->
      cs_evolve (F := Rops) fuel' v' s0 sf h true 1 o' w' = (r', o1', w1') ->
      forall j a b, nth_error (c_u o1) j = Some a -> nth_error (c_u o1') j = Some b ->
       vle (p_size p) (csub a b) (exp (Lam * (INR j * val h)) * (d + mu) - mu)) /\
    (forall (ks : consts (T Rops)) cf compute_s fuel v (s0 sf : pynum (T Rops)) hi (o : asobj Rops (vec Cops) W (as_model p IF34n)) w r o1 w1,
      linear_growth (p_size p) N Lam mu -> (0 < MIN_S ks < 1 /\ 1 <= MAX_S ks) -> valid_config cf ->
      val s0 < val sf -> match hi with Some h => 0 < val h | None => True end -> vle (p_size p) v d ->
      as_evolve ks cf compute_s fuel v s0 sf hi true 1 o w = (r, o1, w1) ->
      forall j t a, nth_error (map val (a_t o1)) j = Some t -> nth_error (a_u o1) j = Some a ->
       vle (p_size p) a (exp (Lam * (t - val s0)) * (d + mu) - mu)).
Proof.
  intros W W' p p' N N' Lam mu d Ex HX HC Es Em Ee H1 H2 H3 R1 R2 Hp Hp'. set (n := p_size p) in *.
  assert (HF : flow (below n) (mflow n Ex)) by (apply mflow_flow; apply HX).
  assert (L4 : forall tb N h v, respects (below n) N -> veq (below n) (lawson tb (mflow n Ex) N h v) (erk_step (law_erk tb (mflow n Ex) h) N h v)).
  { intros tb M h v HM. rewrite law_erk_step. apply lawson_if_step; assumption. }
  split.
  - intros fuel fuel' v v' s0 sf h o o' w w' r r' o1 o1' w1 w1' HN Hh Hs Hv E1 E2 j a b Ha Hb.
    assert (HT : tame n 1 (fun N => cs_Phi p N IF4n)).
    { apply (rk4_tame n (mflow n Ex)); [apply mflow_bop; exact HC|]. intros M x z HM i Hi.
      rewrite (C32_if4_matrix W p M Ex HX HM x z i Hi). apply L4; assumption. }
    rewrite <- (Rmult_1_l Lam).
    refine (proj1 (cs_runs_apart W W' p p' n IF4n 1 Lam mu d N N' HT _ ltac:(lra) H1 H2 H3 R1 R2 HN Hp Hp' fuel fuel' v v' s0 sf h o o' w w' r r' o1 o1' w1 w1' Hh Hs Hv E1 E2) j a b Ha Hb).
    intros x z. apply cs_Phi_mat_same; assumption.
  - intros ks cf compute_s fuel v s0 sf hi o w r o1 w1 HN Hks Hcf Hs Hhi Hv E1 j t a Ht Ha.
    assert (HT : tame n 1 (fun N h v => fst (as_Phi p N IF34n h v))).
    { intros x Hx. exists rk4f_rows, (rk4_bs ++ [0])%list, (law_erk RK4_fsal (mflow n Ex) x).
      split; [apply rk4f_bounded; [apply mflow_bop; exact HC|exact Hx]|]. split; [intros y Hy; rewrite Rmult_1_l; apply amp_rk4f; exact Hy|].
      intros M z HM i Hi. rewrite (proj1 (C33_if34_matrix W p M Ex HX HM x z i Hi)). apply L4; assumption. }
    rewrite <- (Rmult_1_l Lam).
    exact (proj1 (as_runs_growth W p n IF34n 1 Lam mu d N HT ltac:(lra) H1 H2 H3 R1 Hp ks Hks cf Hcf compute_s fuel v s0 sf hi o w r o1 w1 HN Hs Hhi Hv E1) j t a Ht Ha).
Qed.

(** A stiff example: entries of size 10^9, the default configuration, a Lipschitz nonlinear function. *)
Definition stiffL : cvec := fun i => match i with O => RtoC (- 10 ^ 9) | _ => (0, 10 ^ 9)%R end.
Definition stiffN (v : cvec) : cvec := cscal (RtoC 2) v.
Definition stiff_problem : problem Cops unit :=
  mk_problem (A := Cops) (pure_nl (stiffN : vec Cops -> vec Cops)) 2 (stiffL : vec Cops) (diagm stiffL) default_etdcfg
    (fun m => inr (fun i j => Cexp (m i j))) inv1 (eye Cops) (eye Cops) (stiffL : vec Cops).
Lemma default_contour : good_contour default_etdcfg.
Proof.
  split; [cbn; lra|]. split; [cbn; lia|]. unfold quad_error. cbn [modecutoff contour_radius contour_points default_etdcfg].
  rewrite pow1, Rmult_1_r.
  assert (F : forall m, (5 <= m)%nat -> 54 <= INR (fact m)).
  { intros m Hm. change 54 with (IZR 54). replace 54%Z with (Z.of_nat 54) by reflexivity. rewrite <- INR_IZR_INZ. apply le_INR.
    apply Nat.le_trans with (fact 5); [apply Nat.leb_le; reflexivity|]. apply fact_le. exact Hm. }
  specialize (F 32%nat ltac:(lia)).
  generalize dependent (INR (fact 32)). intros y F.
  assert (E : exp (1/100 + 1) <= 9).
  { apply Rle_trans with (exp (1 + 1)); [apply exp_mono; lra|]. rewrite exp_plus. assert (X := exp_le_3). assert (Y := exp_pos 1). nra. }
  apply Rle_trans with (9 / 54); [|lra]. unfold Rdiv.
  apply Rmult_le_compat; [left; apply exp_pos|left; apply Rinv_0_lt_compat; lra|exact E|]. apply Rinv_le_contravar; lra.
Qed.
Example C89_not_vacuous :
  dissipative 2 (p_vec stiff_problem) /\ good_contour (p_cfg stiff_problem) /\ computes stiff_problem stiffN /\
  respects (below 2) stiffN /\ close_lip 2 stiffN stiffN 2 0 /\ linear_growth 2 stiffN 2 0 /\
  Cmod (p_vec stiff_problem O) = 10 ^ 9.
Proof.
  assert (S : forall v x, vle 2 v x -> vle 2 (stiffN v) (2 * (x + 0))).
  { intros v x Hv i Hi. unfold stiffN, cscal. rewrite Cmod_mult, Cmod_R, Rabs_pos_eq by lra. specialize (Hv i Hi). lra. }
  split; [intros i Hi; destruct i as [|[|i]]; [cbn; lra|cbn; lra|lia]|]. split; [exact default_contour|].
  split; [intros v w y w' E; injection E as <- _; reflexivity|].
  split; [intros a b E i Hi; unfold stiffN, cscal; rewrite (E i Hi); reflexivity|].
  split; [|split; [intros v x _ Hv; apply S; exact Hv|]].
  - intros v w x _ Hv. eapply vle_ext; [|apply S; exact Hv]. intros i _. unfold stiffN, csub, cscal. ring.
  - cbn [p_vec stiff_problem stiffL]. rewrite Cmod_R, Rabs_left; lra.
Qed.
(** The exponentials of a graph Laplacian of two nodes do not increase the maximum norm. *)
Definition lap (t : R) : cmat := fun i j => RtoC (if Nat.eqb i j then (1 + exp (- 2 * t)) / 2 else (1 - exp (- 2 * t)) / 2).
Example C89_contractive : contractive 2 lap /\ meq 2 (lap 0) mident /\ (forall s t, meq 2 (mprod 2 (lap s) (lap t)) (lap (s + t))).
Proof.
  split; [|split].
  - intros t i Ht Hi. assert (E : exp (- 2 * t) <= 1) by (rewrite <- exp_0; apply exp_mono; lra). assert (P := exp_pos (- 2 * t)).
    unfold rown, lap. destruct i as [|[|i]]; [| |lia]; cbn [sumf Nat.eqb]; rewrite !Cmod_R, !Rabs_pos_eq by lra; lra.
  - intros i j Hi Hj. unfold lap, mident. rewrite Rmult_0_r, exp_0. destruct (Nat.eqb i j); f_equal; lra.
  - intros s t i j Hi Hj. unfold lap, mprod. cbn [csum]. replace (- 2 * (s + t)) with (- 2 * s + - 2 * t) by ring. rewrite exp_plus.
    destruct i as [|[|i]]; [| |lia]; destruct j as [|[|j]]; try lia; cbn [Nat.eqb]; rewrite <- !RtoC_mult, <- !RtoC_plus; apply f_equal; field.
Qed.

Print Assumptions C89_constant_step_stability.
Print Assumptions C89_constant_step_growth.
Print Assumptions C89_adaptive_growth.
Print Assumptions C89_adaptive_stability.
Print Assumptions C89_matrix.
