(** * C71, C72: convergence of the runs of [evolve] with order four

    For a smooth solution [u] of u' = L u + N(u) on [t0, t1]: the vectors recorded by [evolve] differ from the values of
    the solution at the recorded times by at most [C (d + e + H^4)], where [d] is the error of the initial vector, [H] the
    largest step, and [e] the accuracy of the coefficients of the method. *)

From Coq Require Import ZArith List Bool Reals Lra Lia FunctionalExtensionality QArith Qreals Setoid Morphisms.
From Coquelicot Require Import Hierarchy Derive RInt Complex.
From Coquelicot Require AutoDerive.
From Verif Require Import Scalars Control ControlCS ControlCSReal ControlAS ControlASReal ControlSim ControlSound PropsControl Arrays SchemeBase
     SchemeIF SchemeETD4 SchemeETD5 Solvers SchemeFacts SchemeSound SchemeFamily SchemePartial SchemeForm CInst SpecRK
     SchemeIFReal PropsCache PropsIF SpecPhi SpecPoly ContourReal SpecERK SchemeETDReal SchemeETDCoefs PropsPsi PropsETD
     PropsLinear ContourMatrix MatrixFlow PropsMatrix Asym Solution LocalRK4 Stable Converge Voc LocalKro MatExp ConvRuns ConvMethods.
Import ListNotations.
Local Open Scope R_scope.

(** The nonlinear function of the problem computes [N] or raises. *)
Definition computes {W} (p : problem Cops W) (N : cvec -> cvec) : Prop :=
  forall v w y w', p_nl p v w = (inr y, w') -> y = N v.

(** ** Runs of the models *)
Section Runs.
  Variables n q : nat.
  Variable L : nat -> nat -> C.
  Variable N : cvec -> cvec.
  Variables t0 t1 rho K : R.
  Variable u : R -> cvec.
  Variable f : nat -> R -> cvec.
  Variable J : R -> cvec -> cvec.
  Hypothesis HS : smooth n q L N t0 t1 rho K u f J.
  Variable m : R -> erk.
  Variable ord : nat.
  Hypothesis Hord : (0 < ord)%nat.
  Hypothesis Hloc : bigO n R (adm t0 t1) (S ord) (fun t h => csub (erk_step (m h) N h (u t)) (u (t + h))).

  (** What is claimed of the runs of the constant-step solver of kind [k] for the problem [p]. *)
  Definition cs_claim (C h0 r0 : R) {W} (p : problem Cops W) (k : cs_kind) (e : R) : Prop :=
    forall fuel v (s0 sf h : pynum (T Rops)) (o : csobj Rops (vec Cops) W (cs_model p k)) w r o' w' d,
      val s0 = t0 -> val s0 <= val sf -> val sf + val h <= t1 -> 0 < val h <= h0 -> 0 <= d -> d + e <= r0 -> vle n (csub v (u t0)) d ->
      cs_evolve (F := Rops) fuel v s0 sf h true 1 o w = (r, o', w') ->
      accurate n u (C * (d + e + val h ^ ord)) (map val (c_t o')) (c_u o') /\
      forall v', r = Ret v' -> exists t, val sf <= t < val sf + val h /\ vle n (csub v' (u t)) (C * (d + e + val h ^ ord)).
  (** The same for the adaptive solvers; [H] bounds the steps that were taken. *)
  Definition as_claim (C h0 r0 : R) {W} (p : problem Cops W) (k : as_kind) (e : R) : Prop :=
    forall (ks : consts (T Rops)) cfg compute_s fuel v (s0 sf : pynum (T Rops)) hi (o : asobj Rops (vec Cops) W (as_model p k)) w r o' w' d H,
      (0 < MIN_S ks < 1 /\ 1 <= MAX_S ks) -> valid_config cfg -> val s0 = t0 -> val s0 < val sf -> val sf <= t1 ->
      match hi with Some h => 0 < val h | None => True end ->
      0 <= d -> d + e <= r0 -> vle n (csub v (u t0)) d ->
      as_evolve ks cfg compute_s fuel v s0 sf hi true 1 o w = (r, o', w') ->
      gaps_at_most H (map val (a_t o')) -> 0 <= H <= h0 ->
      accurate n u (C * (d + e + H ^ ord)) (map val (a_t o')) (a_u o') /\
      forall v', r = Ret v' -> vle n (csub v' (u (val sf))) (C * (d + e + H ^ ord)).

  Theorem runs_converge A S : 0 <= A -> exists C h0 r0, 0 <= C /\ 0 < h0 /\ 0 < r0 /\
    forall W (p : problem Cops W) e hb, computes p N -> 0 <= e -> hb <= h0 ->
      (forall k, (forall h, 0 < h <= hb -> h <= t1 - t0 -> cs_good p k h -> follows n N m A S e (cs_Phi p N k) h) -> cs_claim C hb r0 p k e) /\
      (forall k, (forall h, 0 < h <= hb -> h <= t1 - t0 -> as_good p k h -> follows n N m A S e (fun h v => fst (as_Phi p N k h v)) h) -> as_claim C hb r0 p k e).
  Proof.
    intros HA. destruct (run_accuracy n q L N t0 t1 rho K u f J HS m ord Hord Hloc A S HA) as (C & h0 & r0 & H1 & H2 & H3 & H4).
    exists C, h0, r0. split; [exact H1|]. split; [exact H2|]. split; [exact H3|].
    intros W p e hb HNL He Hhb. split.
    - intros k Hf fuel v s0 sf h o w r o' w' d E0 Hsf Hend Hh Hd Hde Hv E.
      destruct (cs_model_sound1 (F := Rops) (fun a b X => proj1 (Reqb_true a b) X) p N HNL k) as [Inv HM].
      destruct (cs_evolve_steps HM fuel v s0 sf h o w ltac:(lra) Hsf E) as (j & Hg & Hj & Hst & Hr).
      set (vh := val h : R) in *. rewrite E0 in *.
      assert (TR : total (repeat vh j) = INR j * vh).
      { clear. unfold total. induction j as [|j IH]; [cbn; lra|]. cbn [repeat fold_right]. rewrite IH, S_INR. lra. }
      assert (TB : t0 + total (repeat vh j) < val sf + vh \/ j = 0%nat).
      { destruct j as [|j]; [right; reflexivity|left]. specialize (Hj ltac:(lia)). rewrite TR, S_INR. replace (Datatypes.S j - 1)%nat with j in Hj by lia. lra. }
      assert (P1 : Forall (fun x => 0 < x) (repeat vh j)) by (apply Forall_forall; intros x Hx; apply repeat_spec in Hx; subst x; lra).
      assert (P2 : Forall (fun x => x <= vh) (repeat vh j)) by (apply Forall_forall; intros x Hx; apply repeat_spec in Hx; subst x; lra).
      assert (P3 : t0 + total (repeat vh j) <= t1) by (destruct TB as [TB| ->]; [lra|]; unfold total; cbn; lra).
      assert (Gf : forall x, In x (repeat vh j) -> 0 < x <= vh -> x <= t1 - t0 -> follows n N m A S e (cs_Phi p N k) x).
      { intros x Hx Hx1 Hx2. assert (Ex : x = vh) by (apply repeat_spec in Hx; exact Hx). subst x. apply Hf; [lra|lra|]. apply Hg. destruct j; [destruct Hx|lia]. }
      destruct (H4 (cs_Phi p N k) vh e He ltac:(lra) ltac:(lra) (repeat vh j) v d _ _ Gf Hd Hde Hv P1 P2 P3 Hst) as [G1 G2].
      split; [exact G1|]. intros v' Ev. destruct (Hr v' Ev) as [-> Hge]. exists (t0 + total (repeat vh j)).
      split; [|exact G2]. rewrite TR in *. destruct TB as [TB| ->]; [lra|]. change (INR 0) with 0 in *. rewrite Rmult_0_l in *. split; [exact Hge|]. apply Rle_lt_trans with (val sf); lra.
    - intros k Hf ks cfg compute_s fuel v s0 sf hi o w r o' w' d H Hks Hcfg E0 Hsf Hend Hhi Hd Hde Hv E HG HH.
      destruct (as_model_sound1 (F := Rops) (fun a b X => proj1 (Reqb_true a b) X) p N HNL k) as [Inv HM].
      destruct (as_evolve_steps ks compute_s HM Hks Hcfg fuel v s0 sf hi o w Hsf Hhi E) as (hs & Hpos & Hg & Htot & Hst & Hr).
      rewrite E0 in *.
      assert (Gf : forall x, In x hs -> 0 < x <= H -> x <= t1 - t0 -> follows n N m A S e (fun h v => fst (as_Phi p N k h v)) x).
      { intros x Hx Hx1 Hx2. apply Hf; [lra|lra|]. rewrite Forall_forall in Hg. apply Hg. exact Hx. }
      destruct (H4 (fun h v => fst (as_Phi p N k h v)) H e He ltac:(lra) ltac:(lra) hs v d _ _ Gf Hd Hde Hv Hpos
                  (steps_gaps _ _ _ _ _ _ _ _ Hst HG) ltac:(lra) Hst) as [G1 G2].
      split; [exact G1|]. intros v' Ev. destruct (Hr v' Ev) as [-> <-]. exact G2.
  Qed.
End Runs.

(** ** Integrating factor strategies of order four *)
Section Lawson.
  Variable n : nat.
  Variable L : nat -> nat -> C.
  Variable Ex : R -> nat -> nat -> C.
  Hypothesis HF : matflow n L Ex.
  Variable N : cvec -> cvec.
  Variables t0 t1 rho K : R.
  Variable u : R -> cvec.
  Variable f : nat -> R -> cvec.
  Variable J : R -> cvec -> cvec.
  Hypothesis HS : smooth n 4 L N t0 t1 rho K u f J.
  Notation E := (mflow n Ex).

  Lemma lawson_erk tb h v : veq (below n) (lawson tb E N h v) (erk_step (law_erk tb E h) N h v).
  Proof.
    rewrite law_erk_step. apply (lawson_if_step (below n) E N); [apply (mf_flow n L Ex HF)|apply (so_N _ _ _ _ _ _ _ _ _ _ _ HS)].
  Qed.
  Lemma lawson_converges : exists C h0 r0, 0 <= C /\ 0 < h0 /\ 0 < r0 /\
    forall W (p : problem Cops W), computes p N ->
      (forall k, (forall h v, veq (below n) (cs_Phi p N k h v) (lawson RK4 E N h v)) -> cs_claim n t0 t1 u 4 C h0 r0 p k 0) /\
      (forall k, (forall h v, veq (below n) (fst (as_Phi p N k h v)) (lawson RK4 E N h v)) -> as_claim n t0 t1 u 4 C h0 r0 p k 0).
  Proof.
    destruct (law_close n L Ex HF RK4 (t1 - t0)) as (A & S & HA & Hcl).
    { cbn [RK4 tb_c]. repeat constructor; unfold Q2R; cbn; lra. }
    assert (Hloc : bigO n R (adm t0 t1) 5 (fun t h => csub (erk_step (law_erk RK4 E h) N h (u t)) (u (t + h)))).
    { eapply O_ext; [|exact (rk4_local n 4 L Ex N t0 t1 rho K u f J HF HS ltac:(lia))].
      intros t h _ i Hi. cbn beta. unfold csub. rewrite (lawson_erk RK4 h (u t) i Hi). reflexivity. }
    destruct (runs_converge n 4 L N t0 t1 rho K u f J HS (law_erk RK4 E) 4 ltac:(lia) Hloc A S HA) as (C & h0 & r0 & H1 & H2 & H3 & H4).
    exists C, h0, r0. split; [exact H1|]. split; [exact H2|]. split; [exact H3|].
    intros W p Hp. destruct (H4 W p 0 h0 Hp (Rle_refl 0) (Rle_refl h0)) as [G1 G2]. split; intros k Hk; [apply G1|apply G2]; intros h Hh Hh' _;
      (exists (law_erk RK4 E h); split; [apply Hcl; split; [apply Hh|exact Hh']|]; intros v; rewrite (Hk h v); apply lawson_erk).
  Qed.
End Lawson.

(** C71, C72 for IF4 and IF34 with a 1-D operator. *)
Theorem C71_if4_if34_diagonal :
  forall n (L : cvec) N t0 t1 rho K u f J, smooth n 4 (dmat L) N t0 t1 rho K u f J ->
  exists C h0 r0, 0 <= C /\ 0 < h0 /\ 0 < r0 /\
    forall W (p : problem Cops W), computes p N -> p_vec p = L ->
      cs_claim n t0 t1 u 4 C h0 r0 p IF4d 0 /\ as_claim n t0 t1 u 4 C h0 r0 p IF34d 0.
Proof.
  intros n L N t0 t1 rho K u f J HS.
  destruct (lawson_converges n (dmat L) (dexp L) (dexp_flow n L) N t0 t1 rho K u f J HS) as (C & h0 & r0 & H1 & H2 & H3 & H4).
  exists C, h0, r0. split; [exact H1|]. split; [exact H2|]. split; [exact H3|]. intros W p Hp E.
  assert (X : forall h v, veq (below n) (lawson RK4 (dflow L) N h v) (lawson RK4 (mflow n (dexp L)) N h v)).
  { intros h v. rewrite (lawson_erk n (dmat L) (dexp L) (dexp_flow n L) N t0 t1 rho K u f J HS RK4 h v).
    rewrite (veq_all _ _ (lawson_if_step all (dflow L) N (dflow_flow L) (respects_all N) RK4 h v)).
    rewrite <- law_erk_step. apply (erk_step_ext (below n) N (so_N _ _ _ _ _ _ _ _ _ _ _ HS)); [|reflexivity].
    apply law_erk_eq. intros t a b Hab i Hi. rewrite (dexp_dflow n L t b i Hi). unfold dflow. rewrite (Hab i Hi). reflexivity. }
  destruct (H4 W p Hp) as [G1 G2]. split; [apply G1|apply G2]; intros h v; rewrite <- X, <- E.
  - rewrite C32_if4_diagonal. reflexivity.
  - intros i _. apply (proj1 (C33_if34_diagonal W p N h v i)).
Qed.

(** ** ETD4 and ETD34 with a 1-D operator *)
(** The contour sums replace the phi functions with error at most this. *)
Definition quad_error (cfg : etdcfg Rops) : R :=
  exp (modecutoff cfg + contour_radius cfg) * contour_radius cfg ^ contour_points cfg / INR (fact (contour_points cfg)).
Lemma quad_error_pos (cfg : etdcfg Rops) : 0 <= contour_radius cfg -> 0 <= quad_error cfg.
Proof.
  intros H. unfold quad_error. apply Rmult_le_pos; [|left; apply Rinv_0_lt_compat, INR_fact_lt_0].
  apply Rmult_le_pos; [left; apply exp_pos|apply pow_le; exact H].
Qed.
Lemma quad_bound (cfg : etdcfg Rops) (g : nat -> R -> C -> C) : 0 < modecutoff cfg <= contour_radius cfg ->
  (forall r q z, (1 <= r <= 3)%nat -> 0 < q <= 1 -> Cmod (g r q z - phi r (RtoC q * z))%C <=
     exp (Cmod z + contour_radius cfg) * contour_radius cfg ^ contour_points cfg / INR (fact (contour_points cfg)) / INR (fact r)) ->
  (forall r q z, (1 <= r <= 3)%nat -> 0 < q <= 1 -> modecutoff cfg <= Cmod z -> g r q z = phi r (RtoC q * z)%C) ->
  forall n L h k q, (1 <= k <= 3)%nat -> 0 < q <= 1 ->
    opn n (fun v => csub (dPHI L k (q * h) v) (dfun h L (g k q) v)) (quad_error cfg).
Proof.
  intros Hc H1 H2 n L h k q Hk Hq v x Hx Hv i Hi. unfold csub, dPHI, dfun.
  replace (RtoC (q * h) * L i)%C with (RtoC q * (RtoC h * L i))%C by (rewrite RtoC_mult; ring).
  set (z := (RtoC h * L i)%C).
  replace (phi k (RtoC q * z) * v i - g k q z * v i)%C with (- (g k q z - phi k (RtoC q * z)) * v i)%C by ring.
  rewrite Cmod_mult, Cmod_opp. apply Rmult_le_compat; try apply Cmod_ge_0; [|apply Hv; exact Hi].
  destruct (Rle_lt_dec (modecutoff cfg) (Cmod z)) as [Hz|Hz].
  - rewrite (H2 k q z Hk Hq Hz). replace (phi k (RtoC q * z) - phi k (RtoC q * z))%C with (RtoC 0) by ring.
    rewrite Cmod_0. apply quad_error_pos. lra.
  - eapply Rle_trans; [apply (H1 k q z Hk Hq)|]. unfold quad_error.
    assert (F := INR_fact_lt_0 (contour_points cfg)). assert (P : 0 <= contour_radius cfg ^ contour_points cfg) by (apply pow_le; lra).
    assert (X : exp (Cmod z + contour_radius cfg) <= exp (modecutoff cfg + contour_radius cfg)) by (left; apply exp_increasing; lra).
    assert (F1 : 1 <= INR (fact k)) by (change 1 with (INR 1); apply le_INR; assert (G := lt_O_fact k); lia).
    apply Rle_trans with (exp (Cmod z + contour_radius cfg) * contour_radius cfg ^ contour_points cfg / INR (fact (contour_points cfg))).
    + set (y := exp _ * _ / _). assert (0 <= y).
      { unfold y. apply Rmult_le_pos; [apply Rmult_le_pos; [left; apply exp_pos|exact P]|left; apply Rinv_0_lt_compat; exact F]. }
      apply Rmult_le_reg_r with (INR (fact k)); [lra|]. unfold Rdiv at 1. rewrite Rmult_assoc, Rinv_l by lra. nra.
    + apply Rmult_le_compat_r; [left; apply Rinv_0_lt_compat; exact F|]. apply Rmult_le_compat_r; assumption.
Qed.

Theorem C71_etd4_etd34_diagonal :
  forall n (L : cvec) N t0 t1 rho K u f J, smooth n 4 (dmat L) N t0 t1 rho K u f J ->
  exists C h0 r0, 0 <= C /\ 0 < h0 /\ 0 < r0 /\
    forall W (p : problem Cops W), computes p N -> p_vec p = L ->
      0 < modecutoff (p_cfg p) <= contour_radius (p_cfg p) -> (0 < contour_points (p_cfg p))%nat ->
      cs_claim n t0 t1 u 4 C h0 r0 p ETD4d (8 * quad_error (p_cfg p)) /\
      as_claim n t0 t1 u 4 C h0 r0 p ETD34d (8 * quad_error (p_cfg p)).
Proof.
  intros n L N t0 t1 rho K u f J HS.
  assert (HT : 0 <= t1 - t0) by (assert (X := so_time _ _ _ _ _ _ _ _ _ _ _ HS); lra).
  assert (HF := dexp_flow n L). assert (HP := dPHI_ops n L (t1 - t0) HT). assert (HN := so_N _ _ _ _ _ _ _ _ _ _ _ HS).
  destruct (gkro_close n (dmat L) (dexp L) (dPHI L) (t1 - t0) HF HP HT) as (A & HA & Hcl).
  destruct (runs_converge n 4 (dmat L) N t0 t1 rho K u f J HS (gkro n (dexp L) (dPHI L)) 4 ltac:(lia)
             (kro_local n 4 (dmat L) (dexp L) N t0 t1 rho K u f J (dPHI L) HF HS HP ltac:(lia)) A 4 HA) as (C & h0 & r0 & H1 & H2 & H3 & H4).
  exists C, h0, r0. split; [exact H1|]. split; [exact H2|]. split; [exact H3|].
  intros W p Hp E Hc HM. assert (He := quad_error_pos (p_cfg p) ltac:(lra)).
  destruct (C36_krogstad_up_to_quadrature W p N Hc HM) as (g & G1 & G2 & G3).
  assert (Fo : forall h, 0 < h <= t1 - t0 -> exists m', erk_close n A 4 h (8 * quad_error (p_cfg p)) (gkro n (dexp L) (dPHI L) h) m' /\
             forall v, veq (below n) (cs_Phi p N ETD4d h v) (erk_step m' N h v) /\ veq (below n) (fst (as_Phi p N ETD34d h v)) (erk_step m' N h v)).
  { intros h Hh. eexists. split.
    - apply (Hcl h (quad_error (p_cfg p)) (dfun h L (g 1%nat (1/2))) (dfun h L (g 2%nat (1/2))) (dfun h L (g 1%nat 1)) (dfun h L (g 2%nat 1))
               (dfun h L (g 3%nat 1)) Hh He); apply (quad_bound (p_cfg p) g Hc G1 G2); (lia || lra).
    - intros v. destruct (G3 h v) as [-> ->]. cbn [fst]. rewrite E.
      assert (X : veq (below n)
        (erk_step (krogstad (dfun h L (fun z => Cexp (RtoC (1/2) * z))%C) (dfun h L (fun z => Cexp (RtoC 1 * z))%C)
                     (dfun h L (g 1%nat (1/2))) (dfun h L (g 2%nat (1/2))) (dfun h L (g 1%nat 1)) (dfun h L (g 2%nat 1)) (dfun h L (g 3%nat 1))) N h v)
        (erk_step (krogstad (mflow n (dexp L) (1/2 * h)) (mflow n (dexp L) (1 * h))
                     (dfun h L (g 1%nat (1/2))) (dfun h L (g 2%nat (1/2))) (dfun h L (g 1%nat 1)) (dfun h L (g 2%nat 1)) (dfun h L (g 3%nat 1))) N h v)).
      { assert (D : forall F, op_eq (below n) (dfun h L F) (dfun h L F)) by (intros F a b Hab i Hi; unfold dfun; rewrite (Hab i Hi); reflexivity).
        assert (X : forall q, op_eq (below n) (dfun h L (fun z => Cexp (RtoC q * z))%C) (mflow n (dexp L) (q * h))).
        { intros q a b Hab i Hi. rewrite (dexp_dflow n L (q * h) b i Hi). unfold dfun, dflow. rewrite (Hab i Hi).
          replace (RtoC (q * h) * L i)%C with (RtoC q * (RtoC h * L i))%C by (rewrite RtoC_mult; ring). reflexivity. }
        apply (erk_step_ext (below n) N HN); [|reflexivity]. apply krogstad_eq; first [apply X|apply D]. }
      split; exact X. }
  destruct (H4 W p (8 * quad_error (p_cfg p)) h0 Hp ltac:(lra) (Rle_refl h0)) as [Q1 Q2].
  split; [apply Q1|apply Q2]; intros h Hh Hh' _; destruct (Fo h (conj (proj1 Hh) Hh')) as (m' & Hm & Hv); exists m'; (split; [exact Hm|]); intros v; apply (Hv v).
Qed.

(** ** Matrix operators *)
(** [expm] returns the sums of the exponential series: it computes the flow [mphi 0] of [L]. *)
Lemma expm_flow {W} (p : problem Cops W) : (forall m e, p_expm p m <> inl e) -> exp_series p ->
  exists Ex, expm_ok p Ex /\ forall t, meq (p_size p) (Ex t) (mphi (p_size p) (p_mat p) 0 t).
Proof.
  intros HX HE.
  set (Ex := fun t : R => match p_expm p (fun i j => RtoC t * p_mat p i j)%C with inr e => e | inl _ => mident end : mat Cops).
  assert (E1 : forall t : R, p_expm p (fun i j => RtoC t * p_mat p i j)%C = inr (Ex t)).
  { intros t. unfold Ex. destruct (p_expm p (fun i j => RtoC t * p_mat p i j)%C) eqn:E; [destruct (HX _ _ E)|reflexivity]. }
  assert (E2 : forall t, is_psi (p_size p) 0 (mtimes (RtoC t) (p_mat p)) (Ex t)) by (intros t; apply (HE _ _ (E1 t))).
  assert (F := series_flow (p_size p) (p_mat p) Ex E2).
  exists Ex. split; [split; [exact E1|split; [apply (mf_0 _ _ _ F)|apply (mf_comp _ _ _ F)]]|].
  intros t. transitivity (mtimes (RtoC (INR (fact 0))) (mphi (p_size p) (p_mat p) 0 t)).
  - apply (psi_unique _ _ _ _ _ (E2 t)). apply mphi_psi.
  - intros i j _ _. unfold mtimes. cbn [fact INR]. ring.
Qed.
Lemma series_is_flow n L : matflow n L (mphi n L 0).
Proof.
  apply series_flow. intros t. assert (G := mphi_psi n L 0 t). eapply psi_ext; [reflexivity| |exact G].
  intros i j _ _. unfold mtimes. cbn [fact INR]. ring.
Qed.
Lemma mflow_meq n (Ex Ex' : R -> cmat) : (forall t, meq n (Ex t) (Ex' t)) -> forall t, op_eq (below n) (mflow n Ex t) (mflow n Ex' t).
Proof.
  intros H t v w Hvw i Hi. unfold mflow, mdot. apply csum_ext. intros j Hj. rewrite (H t i j Hi Hj), (Hvw j Hj). reflexivity.
Qed.
(** The two forms of the classical method give the same candidate. *)
Lemma fsal_rk4 n Ex N : flow (below n) (mflow n Ex) -> respects (below n) N ->
  forall h v, veq (below n) (lawson RK4_fsal (mflow n Ex) N h v) (lawson RK4 (mflow n Ex) N h v).
Proof.
  intros HF HN h v. rewrite !(lawson_if_step _ _ N HF HN _ h v), (rk4_fsal_step _ _ N HF HN h v). symmetry. apply (rk4_step _ _ N HF HN h v).
Qed.
Lemma lawson_meq n L N (Ex Ex' : R -> cmat) : matflow n L Ex -> flow (below n) (mflow n Ex') -> respects (below n) N ->
  (forall t, meq n (Ex' t) (Ex t)) -> forall tb h v, veq (below n) (lawson tb (mflow n Ex') N h v) (lawson tb (mflow n Ex) N h v).
Proof.
  intros HF HF' HN E tb h v. rewrite (lawson_if_step _ _ N HF' HN tb h v), (lawson_if_step _ _ N (mf_flow n L Ex HF) HN tb h v).
  rewrite <- !law_erk_step. apply (erk_step_ext (below n) N HN); [|reflexivity]. apply law_erk_eq. apply mflow_meq. exact E.
Qed.

(** A diagonalization of the operator: [L = S diag(eigs) S^-1]. *)
Definition diagonalizes {W} (p : problem Cops W) : Prop :=
  eig_ok p /\ meq (p_size p) (p_mat p) (mprod (p_size p) (p_S p) (mprod (p_size p) (diagm (p_eigs p)) (p_Sinv p))).
Lemma eig_entry n (A B : cmat) d i j : (i < n)%nat -> mprod n A (mprod n (diagm d) B) i j = csum n (fun k => A i k * d k * B k j)%C.
Proof.
  intros Hi. unfold mprod at 1. apply csum_ext. intros k Hk.
  assert (E : mprod n (diagm d) B k j = (d k * B k j)%C) by exact (mdot_diag n d (fun k => B k j) k Hk). rewrite E. ring.
Qed.
Lemma eig_flow {W} (p : problem Cops W) : diagonalizes p -> matflow (p_size p) (p_mat p) (eig_exp p).
Proof.
  intros [HS HL]. set (n := p_size p) in *. split.
  - intros i j Hi Hj. unfold eig_exp. fold n. destruct HS as [HS _].
    rewrite (csum_ext n _ (fun k => p_S p i k * p_Sinv p k j)%C) by (intros; rewrite Cmult_0_l, Cexp_0; ring).
    exact (HS i j Hi Hj).
  - intros s t i j Hi Hj. unfold eig_exp. fold n. destruct HS as [_ HS]. unfold mprod.
    transitivity (csum n (fun k => csum n (fun l => csum n (fun m => p_S p i k * Cexp (RtoC s * p_eigs p k) * (p_Sinv p k l * p_S p l m) * Cexp (RtoC t * p_eigs p m) * p_Sinv p m j))))%C.
    + transitivity (csum n (fun l => csum n (fun k => csum n (fun m => p_S p i k * Cexp (RtoC s * p_eigs p k) * (p_Sinv p k l * p_S p l m) * Cexp (RtoC t * p_eigs p m) * p_Sinv p m j))))%C; [|apply csum_swap].
      apply csum_ext. intros l _. rewrite <- csum_scal_right. apply csum_ext. intros k _. rewrite <- csum_scal. apply csum_ext. intros m _. ring.
    + apply csum_ext. intros k Hk. rewrite csum_swap.
      transitivity (csum n (fun m => mident k m * (p_S p i k * Cexp (RtoC s * p_eigs p k) * Cexp (RtoC t * p_eigs p m) * p_Sinv p m j)))%C.
      * apply csum_ext. intros m Hm. rewrite <- (HS k m Hk Hm). fold n. unfold mprod. rewrite <- csum_scal_right. apply csum_ext. intros l _. ring.
      * rewrite (csum_mident n k (fun m => p_S p i k * Cexp (RtoC s * p_eigs p k) * Cexp (RtoC t * p_eigs p m) * p_Sinv p m j)%C Hk).
        rewrite RtoC_plus, Cmult_plus_distr_r, Cexp_plus. ring.
  - intros t i j Hi Hj.
    assert (E : mprod n (p_mat p) (eig_exp p t) i j = csum n (fun k => p_S p i k * (p_eigs p k * Cexp (RtoC t * p_eigs p k)) * p_Sinv p k j)%C).
    { destruct HS as [_ HS]. unfold eig_exp. fold n.
      transitivity (csum n (fun l => csum n (fun k => csum n (fun m => p_S p i k * p_eigs p k * (p_Sinv p k l * p_S p l m) * Cexp (RtoC t * p_eigs p m) * p_Sinv p m j))))%C.
      { unfold mprod at 1. apply csum_ext. intros l Hl. rewrite (HL i l Hi Hl), (eig_entry n _ _ _ i l Hi).
        rewrite <- csum_scal_right. apply csum_ext. intros k _. rewrite <- csum_scal. apply csum_ext. intros m _. ring. }
      rewrite csum_swap. apply csum_ext. intros k Hk. rewrite csum_swap.
      transitivity (csum n (fun m => mident k m * (p_S p i k * p_eigs p k * Cexp (RtoC t * p_eigs p m) * p_Sinv p m j)))%C.
      { apply csum_ext. intros m Hm. rewrite <- (HS k m Hk Hm). fold n. unfold mprod. rewrite <- csum_scal_right. apply csum_ext. intros l _. ring. }
      rewrite (csum_mident n k (fun m => p_S p i k * p_eigs p k * Cexp (RtoC t * p_eigs p m) * p_Sinv p m j)%C Hk). ring. }
    rewrite E. unfold eig_exp. fold n.
    apply (is_Cder_csum n (fun k t => p_S p i k * Cexp (RtoC t * p_eigs p k) * p_Sinv p k j)%C).
    intros k Hk.
    apply (is_Cder_eq (fun t => (p_S p i k * p_Sinv p k j) * Cexp (0 + RtoC t * p_eigs p k))%C _ t ((p_S p i k * p_Sinv p k j) * (p_eigs p k * Cexp (0 + RtoC t * p_eigs p k)))%C).
    + intros s. rewrite Cplus_0_l. ring.
    + rewrite Cplus_0_l. ring.
    + apply is_Cder_scal. apply is_Cder_exp.
Qed.
(** Two flows of the same matrix agree. *)
Lemma flows_agree n L Ex Ex' : matflow n L Ex -> matflow n L Ex' -> forall t, meq n (Ex t) (Ex' t).
Proof.
  assert (G : forall Ex, matflow n L Ex -> forall t, meq n (Ex t) (mphi n L 0 t)).
  { clear. intros Ex H t i j Hi Hj. destruct (psi_exists n 1 (mtimes (RtoC t) L)) as [P1 HP1].
    assert (P0 : is_psi n 0 (mtimes (RtoC t) L) (mphi n L 0 t)).
    { eapply psi_ext; [reflexivity| |exact (mphi_psi n L 0 t)]. intros a b _ _. unfold mtimes. cbn [fact INR]. ring. }
    rewrite (forced_matrix n L (fun _ => RtoC 0) (fun s i => Ex s i j)) with (h := t) (e := mphi n L 0 t) (P1 := P1); [|intros r k Hk|exact Hi|exact P0|exact HP1].
    - assert (Z : mdot n P1 (fun _ => RtoC 0) i = RtoC 0) by (unfold mdot; apply csum_0; intros; ring). rewrite Z, Cmult_0_r, Cplus_0_r.
      unfold mdot. rewrite (csum_ext n _ (fun k => mident j k * mphi n L 0 t i k)%C).
      + apply csum_mident. exact Hj.
      + intros k Hk. rewrite (mf_0 _ _ _ H k j Hk Hj). unfold mident. rewrite (Nat.eqb_sym k j). ring.
    - rewrite Cplus_0_r. apply (mf_der _ _ _ H); assumption. }
  intros H H' t. transitivity (mphi n L 0 t); [apply G; exact H|symmetry; apply G; exact H'].
Qed.

Theorem C71_if4_if34_matrix :
  forall n (L : mat Cops) N t0 t1 rho K u f J, smooth n 4 L N t0 t1 rho K u f J ->
  exists C h0 r0, 0 <= C /\ 0 < h0 /\ 0 < r0 /\
    forall W (p : problem Cops W), computes p N -> p_size p = n -> p_mat p = L ->
      (exp_series p -> (forall m e, p_expm p m <> inl e) -> cs_claim n t0 t1 u 4 C h0 r0 p IF4n 0 /\ as_claim n t0 t1 u 4 C h0 r0 p IF34n 0) /\
      (diagonalizes p -> as_claim n t0 t1 u 4 C h0 r0 p IF34z 0).
Proof.
  intros n L N t0 t1 rho K u f J HS. assert (HF := series_is_flow n L). assert (HN := so_N _ _ _ _ _ _ _ _ _ _ _ HS).
  destruct (lawson_converges n L (mphi n L 0) HF N t0 t1 rho K u f J HS) as (C & h0 & r0 & H1 & H2 & H3 & H4).
  exists C, h0, r0. split; [exact H1|]. split; [exact H2|]. split; [exact H3|]. intros W p Hp En EL.
  destruct (H4 W p Hp) as [G1 G2]. split.
  - intros HE HX0. destruct (expm_flow p HX0 HE) as (Ex & HX & EX). rewrite En, EL in EX.
    assert (HFx : flow (below n) (mflow n Ex)) by (rewrite <- En; apply mflow_flow; apply HX).
    assert (X := lawson_meq n L N (mphi n L 0) Ex HF HFx HN EX).
    split; [apply G1|apply G2]; intros h v; rewrite <- (X RK4 h v).
    + intros i Hi. rewrite <- En in Hi, HN |- *. apply (C32_if4_matrix W p N Ex HX HN h v i Hi).
    + rewrite <- (fsal_rk4 n Ex N HFx HN h v). intros i Hi. rewrite <- En in Hi, HN |- *. apply (proj1 (C33_if34_matrix W p N Ex HX HN h v i Hi)).
  - intros HD. assert (HZ := eig_flow p HD). rewrite En, EL in HZ.
    apply G2. intros h v. rewrite <- (lawson_meq n L N (mphi n L 0) (eig_exp p) HF (mf_flow n L _ HZ) HN (flows_agree n L _ _ HZ HF) RK4 h v).
    rewrite <- (fsal_rk4 n (eig_exp p) N (mf_flow n L _ HZ) HN h v). intros i Hi. rewrite <- En in Hi, HN |- *.
    apply (C47_if34_diagonalized W p N (proj1 HD) HN h v i Hi).
Qed.

(** ** ETD4 and ETD34 with a matrix operator *)
Section MatrixETD.
  Context {W : Type}.
  Variable p : problem Cops W.
  Variables (S T : cmat) (x s t : R).
  Notation n := (p_size p).
  Notation L := (p_mat p).
  Hypothesis Hx : 0 <= merr (p_cfg p) x.
  Hypothesis Hs : forall i, (i < n)%nat -> rown n S i <= s.
  Hypothesis Ht : forall i, (i < n)%nat -> rown n T i <= t.
  Hypothesis Ht0 : 0 <= t.
  Hypothesis HST : is_inv n S T.
  Lemma near_op k q h P (g : op) : near_psi p S T x k q h P ->
    (forall v i, (i < n)%nat -> g v i = (RtoC (/ INR (fact k)) * mdot n P v i)%C) ->
    opn n (fun v => csub (mPHI n L k (q * h) v) (g v)) (s * (merr (p_cfg p) x * t)).
  Proof.
    intros (P' & HP' & HP) Hg v y Hy Hv i Hi.
    assert (E : meq n P' (mtimes (RtoC (INR (fact k))) (mphi n L k (q * h)))).
    { apply (psi_unique n k (scaled q h L)); [exact HP'|]. exact (mphi_psi n L k (q * h)). }
    assert (F := INR_fact_lt_0 k).
    assert (D : csub (mPHI n L k (q * h) v) (g v) i = (- (RtoC (/ INR (fact k)) * mdot n (mminus P P') v i))%C).
    { unfold csub. rewrite (Hg v i Hi), mdot_diff.
      assert (E2 : mdot n P' v i = (RtoC (INR (fact k)) * mPHI n L k (q * h) v i)%C).
      { unfold mPHI, mdot. rewrite <- csum_scal. apply csum_ext. intros j Hj. rewrite (E i j Hi Hj). unfold mtimes. ring. }
      rewrite E2. transitivity (RtoC (/ INR (fact k) * INR (fact k)) * mPHI n L k (q * h) v i - RtoC (/ INR (fact k)) * mdot n P v i)%C.
      - rewrite Rinv_l by lra. ring.
      - rewrite RtoC_mult. ring. }
    rewrite D, Cmod_opp, Cmod_mult, Cmod_R, Rabs_pos_eq by (left; apply Rinv_0_lt_compat; exact F).
    assert (B := mdot_bound n (mminus P P') v i _ y (unsim n S T _ _ s t HST HP Hs Ht Hx Ht0 i Hi) Hv Hy).
    assert (F1 : / INR (fact k) <= 1).
    { rewrite <- Rinv_1. apply Rinv_le_contravar; [lra|]. change 1 with (INR 1). apply le_INR. assert (G := lt_O_fact k). lia. }
    assert (0 <= Cmod (mdot n (mminus P P') v i)) by apply Cmod_ge_0.
    assert (0 <= / INR (fact k)) by (left; apply Rinv_0_lt_compat; exact F). nra.
  Qed.
End MatrixETD.

Lemma fits_le {W} (p : problem Cops W) S T x h h' : fits p S T x h -> 0 <= h' <= h -> fits p S T x h'.
Proof.
  intros HF Hh. destruct (Req_dec h 0) as [->|Hn]; [replace h' with 0 by lra; exact HF|].
  assert (Hq : 0 <= h' / h <= 1).
  { split; [apply Rmult_le_pos; [lra|left; apply Rinv_0_lt_compat; lra]|]. apply Rmult_le_reg_r with h; [lra|]. unfold Rdiv. rewrite Rmult_assoc, Rinv_l by lra. lra. }
  assert (G := fits_q p S T x h (h' / h) HF Hq). destruct HF as (A1 & A2 & A3 & _). split; [exact A1|]. split; [exact A2|]. split; [exact A3|].
  intros i Hi. specialize (G i Hi). replace (scaled 1 h' (p_mat p)) with (scaled (h' / h) h (p_mat p)); [exact G|].
  apply functional_extensionality; intros a. apply functional_extensionality; intros b. unfold scaled. replace (h' / h * h) with (1 * h') by (field; exact Hn). reflexivity.
Qed.

(** C71, C72 for ETD4 and ETD34 with a matrix operator: [S], [T = S^-1] with norms [s], [t] bring [hb L] inside the contour. *)
Theorem C71_etd4_etd34_matrix :
  forall n (L : mat Cops) N t0 t1 rho K u f J, smooth n 4 L N t0 t1 rho K u f J ->
  exists C h0 r0, 0 <= C /\ 0 < h0 /\ 0 < r0 /\
    forall W (p : problem Cops W) S T x s t hb, computes p N -> p_size p = n -> p_mat p = L -> exp_series p -> inv_ok p ->
      fits p S T x hb -> 0 < hb <= h0 ->
      (forall i, (i < n)%nat -> rown n S i <= s) -> (forall i, (i < n)%nat -> rown n T i <= t) -> 0 <= s -> 0 <= t ->
      cs_claim n t0 t1 u 4 C hb r0 p ETD4n (8 * (s * (merr (p_cfg p) x * t))) /\
      as_claim n t0 t1 u 4 C hb r0 p ETD34n (8 * (s * (merr (p_cfg p) x * t))).
Proof.
  intros n L N t0 t1 rho K u f J HS.
  assert (HT : 0 <= t1 - t0) by (assert (X := so_time _ _ _ _ _ _ _ _ _ _ _ HS); lra).
  assert (HF := series_is_flow n L). assert (HP := series_phi_ops n L (t1 - t0) HT). assert (HN := so_N _ _ _ _ _ _ _ _ _ _ _ HS).
  destruct (gkro_close n L (mphi n L 0) (mPHI n L) (t1 - t0) HF HP HT) as (A & HA & Hcl).
  destruct (runs_converge n 4 L N t0 t1 rho K u f J HS (gkro n (mphi n L 0) (mPHI n L)) 4 ltac:(lia)
             (kro_local n 4 L (mphi n L 0) N t0 t1 rho K u f J (mPHI n L) HF HS HP ltac:(lia)) A 4 HA) as (C & h0 & r0 & H1 & H2 & H3 & H4).
  exists C, h0, r0. split; [exact H1|]. split; [exact H2|]. split; [exact H3|].
  intros W p S T x s t hb Hp En EL HE HI HFit Hhb Hs Ht Hs0 Ht0. set (e := s * (merr (p_cfg p) x * t)).
  assert (HM : 0 <= merr (p_cfg p) x) by (destruct HFit as (A1 & _ & A3 & _); apply (merr_pos (p_cfg p) A1 ltac:(lra) x A3)).
  assert (He : 0 <= e) by (unfold e; apply Rmult_le_pos; [exact Hs0|apply Rmult_le_pos; assumption]).
  assert (Fo : forall h, 0 < h <= hb -> h <= t1 - t0 -> cs_good p ETD4n h -> exists m', erk_close n A 4 h (8 * e) (gkro n (mphi n L 0) (mPHI n L) h) m' /\
             forall v, veq (below n) (cs_Phi p N ETD4n h v) (erk_step m' N h v) /\ veq (below n) (fst (as_Phi p N ETD34n h v)) (erk_step m' N h v)).
  { intros h Hh Hh' Hg.
    destruct (C36_matrix_operators W p N h S T x HI HE (fits_le p S T x hb h HFit ltac:(lra)) Hg) as (E12 & E1 & P1h & P2h & P1 & P2 & P3 & X1 & X2 & G1 & G2 & G3 & G4 & G5 & G6).
    assert (NO := fun k q P g => near_op p S T x s t HM ltac:(rewrite En; exact Hs) ltac:(rewrite En; exact Ht) Ht0 (proj1 (proj2 HFit)) k q h P g).
    rewrite En, EL in NO. rewrite En in G6. rewrite En, EL in X1, X2.
    assert (NO1 : forall q P, near_psi p S T x 1 q h P -> opn n (fun v => csub (mPHI n L 1 (q * h) v) (mdot n P v)) e).
    { intros q P HP1. apply (NO _ _ _ _ HP1). intros v i _. replace (/ INR (fact 1)) with 1 by (cbn; lra). rewrite Cmult_1_l. reflexivity. }
    assert (NO2 : forall q P, near_psi p S T x 2 q h P -> opn n (fun v => csub (mPHI n L 2 (q * h) v) (oscal (1/2) (mdot n P) v)) e).
    { intros q P HP2. apply (NO _ _ _ _ HP2). intros v i _. unfold oscal, cscal. replace (/ INR (fact 2)) with (1/2) by (cbn; lra). reflexivity. }
    assert (NO3 : forall q P, near_psi p S T x 3 q h P -> opn n (fun v => csub (mPHI n L 3 (q * h) v) (oscal (1/6) (mdot n P) v)) e).
    { intros q P HP3. apply (NO _ _ _ _ HP3). intros v i _. unfold oscal, cscal. replace (/ INR (fact 3)) with (1/6) by (cbn; lra). reflexivity. }
    eexists. split.
    - apply (Hcl h e (mdot n P1h) (oscal (1/2) (mdot n P2h)) (mdot n P1) (oscal (1/2) (mdot n P2)) (oscal (1/6) (mdot n P3)) (conj (proj1 Hh) Hh') He);
        [apply NO1|apply NO2|apply NO1|apply NO2|apply NO3]; assumption.
    - intros v. destruct (G6 v) as [Q1 Q2]. rewrite Q1, Q2. cbn [fst].
      assert (EX : forall q E, is_psi n 0 (scaled q h L) E -> op_eq (below n) (mdot n E) (mflow n (mphi n L 0) (q * h))).
      { intros q E HE0 a b Hab i Hi. unfold mflow, mdot. apply csum_ext. intros j Hj. rewrite (Hab j Hj). f_equal.
        rewrite (psi_unique n 0 (scaled q h L) _ _ HE0 (mphi_psi n L 0 (q * h)) i j Hi Hj). unfold mtimes. cbn [fact INR]. ring. }
      assert (D : forall P, op_eq (below n) (mdot n P) (mdot n P)) by (intros P a b Hab i Hi; rewrite (mdot_ext_eq n P a b Hab); reflexivity).
      assert (D' : forall c P, op_eq (below n) (oscal c (mdot n P)) (oscal c (mdot n P))).
      { intros c P a b Hab i Hi. unfold oscal, cscal. rewrite (D P a b Hab i Hi). reflexivity. }
      assert (X : veq (below n)
        (erk_step (krogstad (mdot n E12) (mdot n E1) (mdot n P1h) (oscal (1/2) (mdot n P2h)) (mdot n P1) (oscal (1/2) (mdot n P2)) (oscal (1/6) (mdot n P3))) N h v)
        (erk_step (krogstad (mflow n (mphi n L 0) (1/2 * h)) (mflow n (mphi n L 0) (1 * h)) (mdot n P1h) (oscal (1/2) (mdot n P2h)) (mdot n P1) (oscal (1/2) (mdot n P2)) (oscal (1/6) (mdot n P3))) N h v)).
      { apply (erk_step_ext (below n) N HN); [|reflexivity]. apply krogstad_eq; first [apply EX; assumption|apply D|apply D']. }
      split; exact X. }
  destruct (H4 W p (8 * e) hb Hp ltac:(lra) ltac:(lra)) as [Q1 Q2].
  split; [apply Q1|apply Q2]; intros h Hh Hh' Hg; destruct (Fo h Hh Hh' Hg) as (m' & Hm & Hv); exists m'; (split; [exact Hm|]); intros v; apply (Hv v).
Qed.

(** ** ETD34 in the eigenbasis *)
Section EigenETD.
  Context {W : Type}.
  Variable p : problem Cops W.
  Hypothesis HD : diagonalizes p.
  Notation n := (p_size p).
  Notation L := (p_mat p).
  Notation lam := (p_eigs p).
  Notation S := (mdot n (p_S p)).
  Notation Si := (mdot n (p_Sinv p)).
  Notation cj := (conj_op S Si).
  Notation oeqn := (op_eq (below n)).

  Lemma cj_add a b a' b' : oeqn (cj a) a' -> oeqn (cj b) b' -> oeqn (cj (oadd a b)) (oadd a' b').
  Proof.
    intros Ha Hb v w E i Hi. unfold oadd, cadd. rewrite <- (Ha v w E i Hi), <- (Hb v w E i Hi). unfold conj_op.
    apply (lin_add _ _ (mdot_linear n (p_S p)) (a (Si v)) (b (Si v)) i Hi).
  Qed.
  Lemma cj_scal c a a' : oeqn (cj a) a' -> oeqn (cj (oscal c a)) (oscal c a').
  Proof.
    intros Ha v w E i Hi. unfold oscal. unfold cscal at 2. rewrite <- (Ha v w E i Hi). unfold conj_op.
    apply (lin_scal _ _ (mdot_linear n (p_S p)) c (a (Si v)) i Hi).
  Qed.
  Lemma cj_sub a b a' b' : oeqn (cj a) a' -> oeqn (cj b) b' -> oeqn (cj (osub a b)) (osub a' b').
  Proof. intros Ha Hb. apply cj_add; [exact Ha|apply cj_scal; exact Hb]. Qed.
  Lemma cj_zero : oeqn (cj ozero) ozero.
  Proof. intros v w E i Hi. unfold conj_op, ozero, mdot. apply csum_0. intros. ring. Qed.
  Lemma cj_id : oeqn (cj (fun v => v)) (fun v => v).
  Proof.
    intros v w E i Hi. unfold conj_op. rewrite <- (E i Hi).
    apply (mdot_inv n (p_S p) (p_Sinv p) v (proj1 (proj1 HD)) i Hi).
  Qed.
  Lemma cj_krogstad a b c d e f g a' b' c' d' e' f' g' :
    oeqn (cj a) a' -> oeqn (cj b) b' -> oeqn (cj c) c' -> oeqn (cj d) d' -> oeqn (cj e) e' -> oeqn (cj f) f' -> oeqn (cj g) g' ->
    erk_eq (below n) (conj_erk S Si (krogstad a b c d e f g)) (krogstad a' b' c' d' e' f' g').
  Proof.
    intros. split; unfold conj_erk, krogstad; cbn [er_E er_a er_E1 er_b map]; repeat constructor; try assumption; try apply cj_id;
      repeat first [assumption | apply cj_add | apply cj_sub | apply cj_scal | apply cj_zero].
  Qed.
  Lemma cj_dfun h F G : (forall i, (i < n)%nat -> F (RtoC h * lam i)%C = G i) ->
    oeqn (cj (dfun h lam F)) (fun v => S (fun i => (G i * Si v i)%C)).
  Proof.
    intros H v w E i Hi. unfold conj_op. rewrite (mdot_ext_eq n (p_Sinv p) v w E). unfold mdot at 1 3. apply csum_ext. intros j Hj.
    unfold dfun. rewrite (H j Hj). reflexivity.
  Qed.
  (** [phi_k(t L)] in the eigenbasis. *)
  Lemma mphi_eig k t : meq n (mphi n L k t) (mprod n (p_S p) (mprod n (diagm (fun i => phi k (RtoC t * lam i)%C)) (p_Sinv p))).
  Proof.
    assert (HI : is_inv n (p_Sinv p) (p_S p)) by (split; [apply (proj2 (proj1 HD))|apply (proj1 (proj1 HD))]).
    assert (A := sim_psi n (p_Sinv p) (p_S p) HI k _ _ (diagm_psi n k (fun i => RtoC t * lam i)%C)).
    assert (F := INR_fact_lt_0 k).
    assert (B : is_psi n k (mtimes (RtoC t) L) (simto n (p_Sinv p) (p_S p) (diagm (fun i => psi_exact k (RtoC t * lam i)%C)))).
    { eapply psi_ext; [|reflexivity|exact A]. unfold simto. transitivity (mtimes (RtoC t) (mprod n (p_S p) (mprod n (diagm lam) (p_Sinv p)))).
      - rewrite <- mprod_times_r, <- mprod_times_l. apply mprod_proper; [reflexivity|]. apply mprod_proper; [|reflexivity].
        intros i j _ _. unfold mtimes, diagm. destruct (Nat.eqb i j); ring.
      - intros i j Hi Hj. unfold mtimes. rewrite (proj2 HD i j Hi Hj). reflexivity. }
    assert (E := psi_unique n k _ _ _ (mphi_psi n L k t) B). intros i j Hi Hj. specialize (E i j Hi Hj).
    assert (E2 : simto n (p_Sinv p) (p_S p) (diagm (fun i => psi_exact k (RtoC t * lam i)%C)) i j =
                 (RtoC (INR (fact k)) * mprod n (p_S p) (mprod n (diagm (fun i => phi k (RtoC t * lam i)%C)) (p_Sinv p)) i j)%C).
    { unfold simto. rewrite !(eig_entry n _ _ _ i j Hi), <- csum_scal. apply csum_ext. intros l _. unfold psi_exact. ring. }
    rewrite E2 in E. unfold mtimes in E.
    transitivity (/ RtoC (INR (fact k)) * (RtoC (INR (fact k)) * mphi n L k t i j))%C.
    - field. intros X. apply RtoC_inj in X. lra.
    - rewrite E. field. intros X. apply RtoC_inj in X. lra.
  Qed.
  Lemma mPHI_eig k t v : veq (below n) (mPHI n L k t v) (S (fun i => (phi k (RtoC t * lam i) * Si v i)%C)).
  Proof.
    intros i Hi. unfold mPHI. transitivity (mdot n (mprod n (p_S p) (mprod n (diagm (fun i => phi k (RtoC t * lam i)%C)) (p_Sinv p))) v i).
    - unfold mdot. apply csum_ext. intros j Hj. rewrite (mphi_eig k t i j Hi Hj). reflexivity.
    - rewrite <- (mdot_prod n _ _ v i Hi). unfold mdot at 1 3. apply csum_ext. intros j Hj. f_equal.
      rewrite <- (mdot_prod n _ _ v j Hj). rewrite (mdot_diag n _ _ j Hj). reflexivity.
  Qed.
End EigenETD.

(** C72 for ETD34 with [diagonalize=True]. *)
Theorem C72_etd34_eigenbasis :
  forall n (L : mat Cops) N t0 t1 rho K u f J, smooth n 4 L N t0 t1 rho K u f J ->
  exists C h0 r0, 0 <= C /\ 0 < h0 /\ 0 < r0 /\
    forall W (p : problem Cops W) s t, computes p N -> p_size p = n -> p_mat p = L -> diagonalizes p ->
      0 < modecutoff (p_cfg p) <= contour_radius (p_cfg p) -> (0 < contour_points (p_cfg p))%nat ->
      (forall i, (i < n)%nat -> rown n (p_S p) i <= s) -> (forall i, (i < n)%nat -> rown n (p_Sinv p) i <= t) -> 0 <= s -> 0 <= t ->
      as_claim n t0 t1 u 4 C h0 r0 p ETD34z (8 * (s * (quad_error (p_cfg p) * t))).
Proof.
  intros n L N t0 t1 rho K u f J HS.
  assert (HT : 0 <= t1 - t0) by (assert (X := so_time _ _ _ _ _ _ _ _ _ _ _ HS); lra).
  assert (HF := series_is_flow n L). assert (HP := series_phi_ops n L (t1 - t0) HT). assert (HN := so_N _ _ _ _ _ _ _ _ _ _ _ HS).
  destruct (gkro_close n L (mphi n L 0) (mPHI n L) (t1 - t0) HF HP HT) as (A & HA & Hcl).
  destruct (runs_converge n 4 L N t0 t1 rho K u f J HS (gkro n (mphi n L 0) (mPHI n L)) 4 ltac:(lia)
             (kro_local n 4 L (mphi n L 0) N t0 t1 rho K u f J (mPHI n L) HF HS HP ltac:(lia)) A 4 HA) as (C & h0 & r0 & H1 & H2 & H3 & H4).
  exists C, h0, r0. split; [exact H1|]. split; [exact H2|]. split; [exact H3|].
  intros W p s t Hp En EL HD Hc HM Hs Ht Hs0 Ht0. set (e := s * (quad_error (p_cfg p) * t)).
  assert (Hq := quad_error_pos (p_cfg p) ltac:(lra)).
  assert (He : 0 <= e) by (unfold e; apply Rmult_le_pos; [exact Hs0|apply Rmult_le_pos; assumption]).
  destruct (C47_etd_diagonalized W p N (proj1 HD) ltac:(rewrite En; exact HN) Hc HM) as (g & [G1 G2] & G3).
  destruct (H4 W p (8 * e) h0 Hp ltac:(lra) (Rle_refl h0)) as [_ Q2]. apply Q2. intros h Hh Hh' _.
  set (Z := fun (G : Complex.C -> Complex.C) (v : cvec) => mdot n (p_S p) (fun i => (G (RtoC h * p_eigs p i) * mdot n (p_Sinv p) v i)%C)).
  assert (nr : forall k q, (1 <= k <= 3)%nat -> 0 < q <= 1 -> opn n (fun v => csub (mPHI n L k (q * h) v) (Z (g k q) v)) e).
  { intros k q Hk Hq1 v y Hy Hv i Hi.
    assert (X := mPHI_eig p HD k (q * h) v). rewrite En, EL in X. unfold csub. rewrite (X i Hi). unfold Z.
    set (dd := fun j => csub (dPHI (p_eigs p) k (q * h) (mdot n (p_Sinv p) v)) (dfun h (p_eigs p) (g k q) (mdot n (p_Sinv p) v)) j).
    assert (Y : (mdot n (p_S p) (fun i => (phi k (RtoC (q * h) * p_eigs p i) * mdot n (p_Sinv p) v i)%C) i -
                 mdot n (p_S p) (fun i => (g k q (RtoC h * p_eigs p i) * mdot n (p_Sinv p) v i)%C) i = mdot n (p_S p) dd i)%C).
    { unfold mdot at 1 3 5. unfold Cminus. replace (- csum n (fun j => p_S p i j * (g k q (RtoC h * p_eigs p j) * mdot n (p_Sinv p) v j)))%C
        with (csum n (fun j => - RtoC 1 * (p_S p i j * (g k q (RtoC h * p_eigs p j) * mdot n (p_Sinv p) v j))))%C by (rewrite csum_scal; ring).
      rewrite <- csum_plus. apply csum_ext. intros j _. unfold dd, csub, dPHI, dfun. ring. }
    rewrite Y. unfold e. rewrite Rmult_assoc. apply (mdot_bound n (p_S p) dd i s (quad_error (p_cfg p) * t * y) (Hs i Hi)).
    - intros j Hj. rewrite Rmult_assoc. apply (quad_bound (p_cfg p) g Hc G1 G2 n (p_eigs p) h k q Hk Hq1 (mdot n (p_Sinv p) v) (t * y)); [apply Rmult_le_pos; assumption| |exact Hj].
      intros l Hl. apply (mdot_bound n (p_Sinv p) v l t y (Ht l Hl) Hv Hy).
    - apply Rmult_le_pos; [apply Rmult_le_pos; assumption|exact Hy]. }
  exists (krogstad (mflow n (mphi n L 0) (1/2 * h)) (mflow n (mphi n L 0) (1 * h)) (Z (g 1%nat (1/2))) (Z (g 2%nat (1/2))) (Z (g 1%nat 1)) (Z (g 2%nat 1)) (Z (g 3%nat 1))).
  split; [apply (Hcl h e _ _ _ _ _ (conj (proj1 Hh) Hh') He); apply nr; (lia || lra)|].
  intros v. transitivity (erk_step (in_basis p (D_krogstad g h (p_eigs p))) N h v).
  { intros i Hi. apply (proj1 (G3 h v i ltac:(rewrite En; exact Hi))). }
  apply (erk_step_ext (below n) N HN); [|reflexivity]. unfold in_basis, D_krogstad. rewrite En.
  assert (KK := cj_krogstad p HD). rewrite En in KK.
  assert (KF := cj_dfun p). rewrite En in KF.
  assert (EX : forall q, op_eq (below n) (conj_op (mdot n (p_S p)) (mdot n (p_Sinv p)) (dfun h (p_eigs p) (fun z => Cexp (RtoC q * z))%C)) (mflow n (mphi n L 0) (q * h))).
  { intros q a b Hab i Hi. rewrite (KF h _ (fun i => Cexp (RtoC q * (RtoC h * p_eigs p i))%C) (fun i _ => eq_refl) a b Hab i Hi).
    assert (X := mPHI_eig p HD 0 (q * h) b). rewrite En, EL in X. unfold mPHI in X. unfold mflow. rewrite (X i Hi).
    unfold mdot at 1 3. apply csum_ext. intros j _. cbn [phi]. replace (RtoC (q * h) * p_eigs p j)%C with (RtoC q * (RtoC h * p_eigs p j))%C by (rewrite RtoC_mult; ring). reflexivity. }
  apply KK; first [apply EX|apply KF; intros; reflexivity].
Qed.

(** ** A concrete case: u' = -u + u^2, u(t) = 1/(1+e^t), on [0, 1] *)
Definition lg (t : R) : R := / (1 + exp t).
Lemma lg_range t : 0 < lg t < 1.
Proof.
  unfold lg. assert (E := exp_pos t). split; [apply Rinv_0_lt_compat; lra|]. rewrite <- Rinv_1. apply Rinv_lt_contravar; lra.
Qed.
Lemma lg_der t : is_derive lg t (- lg t + lg t ^ 2).
Proof.
  unfold lg. assert (E := exp_pos t). AutoDerive.auto_derive; [lra|]. field. lra.
Qed.
(** Derivatives of the nonlinear term along the solution, as polynomials in [u]. *)
Definition lgp (k : nat) (y : R) : R :=
  match k with
  | 0%nat => y ^ 2
  | 1%nat => 2 * y ^ 3 - 2 * y ^ 2
  | 2%nat => 6 * y ^ 4 - 10 * y ^ 3 + 4 * y ^ 2
  | 3%nat => 24 * y ^ 5 - 54 * y ^ 4 + 38 * y ^ 3 - 8 * y ^ 2
  | 4%nat => 120 * y ^ 6 - 336 * y ^ 5 + 330 * y ^ 4 - 130 * y ^ 3 + 16 * y ^ 2
  | 5%nat => 720 * y ^ 7 - 2400 * y ^ 6 + 3000 * y ^ 5 - 1710 * y ^ 4 + 422 * y ^ 3 - 32 * y ^ 2
  | _ => 0
  end.
Lemma lgp_der k t : (k < 5)%nat -> is_derive (fun s => lgp k (lg s)) t (lgp (S k) (lg t)).
Proof.
  intros Hk.
  assert (D : exists d, is_derive (lgp k) (lg t) d /\ (- lg t + lg t ^ 2) * d = lgp (S k) (lg t)).
  { set (y := lg t). clearbody y. destruct k as [|[|[|[|[|k]]]]]; [| | | | |lia].
    - exists (2 * y). split; [unfold lgp; AutoDerive.auto_derive; [exact I|ring]|unfold lgp; ring].
    - exists (6 * y ^ 2 - 4 * y). split; [unfold lgp; AutoDerive.auto_derive; [exact I|ring]|unfold lgp; ring].
    - exists (24 * y ^ 3 - 30 * y ^ 2 + 8 * y). split; [unfold lgp; AutoDerive.auto_derive; [exact I|ring]|unfold lgp; ring].
    - exists (120 * y ^ 4 - 216 * y ^ 3 + 114 * y ^ 2 - 16 * y). split; [unfold lgp; AutoDerive.auto_derive; [exact I|ring]|unfold lgp; ring].
    - exists (720 * y ^ 5 - 1680 * y ^ 4 + 1320 * y ^ 3 - 390 * y ^ 2 + 32 * y). split; [unfold lgp; AutoDerive.auto_derive; [exact I|ring]|unfold lgp; ring]. }
  destruct D as (d & D & E). rewrite <- E. apply (is_derive_comp (lgp k) lg t d (- lg t + lg t ^ 2)); [exact D|apply lg_der].
Qed.
Lemma lgp_bound k y : 0 < y < 1 -> Rabs (lgp k y) <= 5000.
Proof.
  intros Hy. assert (P : forall m, 0 <= y ^ m <= 1) by (intros m; split; [apply pow_le; lra|rewrite <- (pow1 m); apply pow_incr; lra]).
  assert (P2 := P 2%nat). assert (P3 := P 3%nat). assert (P4 := P 4%nat). assert (P5 := P 5%nat). assert (P6 := P 6%nat). assert (P7 := P 7%nat).
  apply Rabs_le. destruct k as [|[|[|[|[|[|k]]]]]]; cbn [lgp]; lra.
Qed.
Lemma lg_lip s t : Rabs (lg s - lg t) <= Rabs (s - t).
Proof.
  destruct (MVT_gen lg t s (fun r => - lg r + lg r ^ 2)) as (c & _ & E).
  - intros r _. apply lg_der.
  - intros r _. apply derivable_continuous_pt. exists (- lg r + lg r ^ 2). apply is_derive_Reals, lg_der.
  - rewrite E, Rabs_mult. rewrite <- (Rmult_1_l (Rabs (s - t))) at 2. apply Rmult_le_compat_r; [apply Rabs_pos|].
    assert (G := lg_range c). apply Rabs_le. nra.
Qed.
Definition lgN (v : cvec) : cvec := fun i => (v i * v i)%C.
Definition lgu (t : R) : cvec := fun _ => RtoC (lg t).
Definition lgf (k : nat) (t : R) : cvec := fun _ => RtoC (lgp k (lg t)).
Definition lgJ (t : R) (v : cvec) : cvec := fun i => (RtoC (2 * lg t) * v i)%C.
Lemma lg_smooth : smooth 1 5 (dmat (fun _ => RtoC (-1))) lgN 0 1 1 5000 lgu lgf lgJ.
Proof.
  split; try lra.
  - intros a b H i Hi. unfold lgN. rewrite (H i Hi). reflexivity.
  - intros t i _ Hi. unfold dmat. rewrite (mdot_diag 1 _ _ i Hi). unfold lgu, lgN.
    eapply is_Cder_eq; [reflexivity| |apply is_Cder_R, lg_der]. rewrite RtoC_plus, RtoC_opp. cbn [pow]. rewrite !RtoC_mult, RtoC_m1. ring.
  - intros t _ i _. unfold lgu. rewrite Cmod_R. assert (G := lg_range t). rewrite Rabs_pos_eq; lra.
  - intros t _ i _. unfold lgf, lgN, lgu, lgp. cbn [pow]. rewrite !RtoC_mult. ring.
  - intros k t i Hk _ _. unfold lgf. apply is_Cder_R. apply lgp_der. exact Hk.
  - intros k t _ _ i _. unfold lgf. rewrite Cmod_R. apply lgp_bound, lg_range.
  - intros t v w x _ Hx Hv Hw Hd i Hi. unfold csub, lgN in *.
    replace (v i * v i - w i * w i)%C with ((v i - w i) * ((v i - lgu t i) + (w i - lgu t i) + (lgu t i + lgu t i)))%C by ring.
    rewrite Cmod_mult. specialize (Hv i Hi). specialize (Hw i Hi). specialize (Hd i Hi). cbn beta in Hv, Hw, Hd.
    assert (B : Cmod ((v i - lgu t i) + (w i - lgu t i) + (lgu t i + lgu t i))%C <= 4).
    { eapply Rle_trans; [apply Cmod_triangle|]. assert (A := Cmod_triangle (v i - lgu t i)%C (w i - lgu t i)%C).
      assert (X : Cmod (lgu t i + lgu t i)%C <= 2).
      { unfold lgu. rewrite <- RtoC_plus, Cmod_R. assert (G := lg_range t). rewrite Rabs_pos_eq; lra. } lra. }
    assert (0 <= Cmod (v i - w i)%C) by apply Cmod_ge_0. assert (0 <= Cmod ((v i - lgu t i) + (w i - lgu t i) + (lgu t i + lgu t i))%C) by apply Cmod_ge_0. nra.
  - intros t _. split; [intros a b i _; unfold lgJ, cadd; ring|intros c a i _; unfold lgJ, cscal; ring].
  - intros t _ v x Hx Hv i Hi. unfold lgJ. rewrite Cmod_mult, Cmod_R. specialize (Hv i Hi). assert (G := lg_range t). rewrite Rabs_pos_eq by lra.
    assert (0 <= Cmod (v i)) by apply Cmod_ge_0. nra.
  - intros t v x _ Hx Hv i Hi. unfold csub, lgN, lgJ in *. specialize (Hv i Hi).
    replace (v i * v i - lgu t i * lgu t i - RtoC (2 * lg t) * (v i - lgu t i))%C with ((v i - lgu t i) * (v i - lgu t i))%C by (unfold lgu; replace (2 * lg t) with (lg t + lg t) by ring; rewrite RtoC_plus; ring).
    rewrite Cmod_mult. assert (0 <= Cmod (v i - lgu t i)%C) by apply Cmod_ge_0. nra.
  - intros s t _ _ v x Hx Hv i Hi. unfold csub, lgJ. specialize (Hv i Hi).
    replace (RtoC (2 * lg s) * v i - RtoC (2 * lg t) * v i)%C with (RtoC (2 * (lg s - lg t)) * v i)%C by (rewrite !RtoC_mult, RtoC_minus; ring).
    rewrite Cmod_mult, Cmod_R, Rabs_mult, (Rabs_pos_eq 2) by lra. assert (G := lg_lip s t). assert (0 <= Cmod (v i)) by apply Cmod_ge_0.
    assert (0 <= Rabs (lg s - lg t)) by apply Rabs_pos. apply Rmult_le_compat; lra.
Qed.
(** The scalar problem, with a default configuration and a state of the world that the nonlinear function does not touch. *)
Definition logistic : problem Cops unit := with_nl (single (RtoC (-1))) (pure_nl (lgN : vec Cops -> vec Cops)).
Lemma cs_uc_nl {W W'} (p : problem Cops W) (nl : vec Cops -> W' -> (exn + vec Cops) * W') k : cs_uc (with_nl p nl) k = cs_uc p k.
Proof. destruct p, k; reflexivity. Qed.
Example C71_C72_not_vacuous :
  smooth 1 4 (p_mat logistic) lgN 0 1 1 5000 lgu lgf lgJ /\
  computes logistic lgN /\ p_size logistic = 1%nat /\ p_mat logistic = dmat (p_vec logistic) /\
  exp_series logistic /\ (forall m e, p_expm logistic m <> inl e) /\ inv_ok logistic /\ diagonalizes logistic /\
  0 < modecutoff (p_cfg logistic) <= contour_radius (p_cfg logistic) /\ (0 < contour_points (p_cfg logistic))%nat /\
  (forall hb, 0 < hb <= 1/2 -> fits logistic mident mident (1/2) hb /\ cs_good logistic ETD4n hb) /\
  (forall i, (i < 1)%nat -> rown 1 mident i <= 1).
Proof.
  split; [exact (smooth_weak 1 5 4 _ _ _ _ _ _ _ _ _ ltac:(lia) lg_smooth)|]. split; [intros v w y w' E; injection E as <- _; reflexivity|]. split; [reflexivity|]. split; [reflexivity|].
  split; [exact (single_exp (RtoC (-1)))|]. split; [discriminate|]. split; [exact (single_inv_ok (RtoC (-1)))|].
  split; [|split; [cbn; lra|split; [cbn; lia|split]]].
  - split; [exact (ident_inv 1)|]. change (p_S logistic) with mident. change (p_Sinv logistic) with mident. change (p_size logistic) with 1%nat.
    rewrite mprod_ident_l, mprod_ident_r. reflexivity.
  - intros hb Hh. split.
    + split; [cbn; lia|]. split; [apply ident_inv|]. split; [cbn; lra|].
      intros i Hi. cbn [p_size logistic with_nl single] in *. assert (i = O) by lia. subst i.
      unfold rown, simto, mprod, mident, scaled, diagm. cbn [sumf csum Nat.eqb p_mat logistic with_nl single]. unfold diagm. cbn [Nat.eqb].
      replace (RtoC 0 + RtoC 1 * (RtoC 0 + RtoC (1 * hb) * RtoC (-1) * RtoC 1))%C with (RtoC (- hb)) by (apply injective_projections; cbn; ring).
      rewrite Cmod_R, Rabs_Ropp, Rabs_pos_eq; lra.
    + assert (G := proj1 (single_runs (RtoC (-1)) hb ltac:(right; left; rewrite Cmod_R, Rabs_pos_eq, Rabs_left by lra; lra))).
      unfold cs_good, logistic. rewrite cs_uc_nl. exact G.
  - intros i Hi. rewrite rown_ident by exact Hi. lra.
Qed.

Print Assumptions C71_if4_if34_diagonal.
Print Assumptions C71_if4_if34_matrix.
Print Assumptions C71_etd4_etd34_diagonal.
Print Assumptions C71_etd4_etd34_matrix.
Print Assumptions C72_etd34_eigenbasis.
