(** * C90: the ETD solvers converge with order three, with constants that do not depend on the linear operator;
      C91: IF4 does not converge uniformly in the linear operator *)

From Coq Require Import ZArith List Bool Reals Lra Lia FunctionalExtensionality QArith Qreals Setoid Morphisms.
From Coquelicot Require Import Hierarchy Derive RInt Complex.
From Verif Require Import Scalars Control ControlCS ControlCSReal ControlAS ControlASReal ControlSim ControlSound PropsControl Arrays SchemeBase
     SchemeIF SchemeETD4 SchemeETD5 Solvers SchemeFacts SchemeSound SchemeFamily SchemePartial SchemeForm CInst SpecRK
     SchemeIFReal PropsCache PropsIF SpecPhi SpecPoly ContourReal SpecERK SchemeETDReal SchemeETDCoefs PropsPsi PropsETD
     PropsLinear ContourMatrix MatrixFlow PropsMatrix Asym Solution LocalRK4 Stable Converge Voc LocalKro MatExp ConvRuns ConvMethods
     PropsConverge Stiff StiffOrder PropsStiff StiffMethods.
Import ListNotations.
Local Open Scope R_scope.

(** ** C90: runs *)
Lemma in_le_total (hs : list R) h : Forall (fun h => 0 < h) hs -> In h hs -> h <= total hs.
Proof.
  intros Hp Hin. induction Hp as [|a hs Ha Hp IH]; [destruct Hin|]. unfold total. cbn [fold_right]. assert (X := total_nonneg hs Hp). unfold total in *.
  destruct Hin as [->|Hin]; [lra|]. specialize (IH Hin). lra.
Qed.
Section Claims.
  Variables (K rho T0 C h0 r0 : R).
  Hypothesis HR : forall n L N t0 t1 u f f1 f2 J, stiff_solution n L N t0 t1 rho K u f f1 f2 J -> t1 - t0 <= T0 ->
    forall (Phi : R -> cvec -> cvec) cs H e hs v d, 0 <= e -> 0 <= d -> 0 <= H <= h0 -> d + e <= r0 -> vle n (csub v (u t0)) d ->
    Forall (fun h => 0 < h <= H /\ exists m, stiff_three n h L 20 e cs m /\ forall v, veq (below n) (Phi h v) (erk_step m N h v)) hs ->
    t0 + total hs <= t1 ->
    vle n (csub (run Phi hs v) (u (t0 + total hs))) (C * (d + e + H ^ 3)).
  Variables (n : nat) (L : cvec) (N : cvec -> cvec) (t0 t1 : R) (u f f1 f2 : R -> cvec) (J : R -> cvec -> cvec).
  Hypothesis HS : stiff_solution n L N t0 t1 rho K u f f1 f2 J.
  Hypothesis HT : t1 - t0 <= T0.
  Variables (W : Type) (p : problem Cops W) (e : R) (cs : list R) (m : R -> erk).
  Hypothesis Hp : computes p N.
  Hypothesis He : 0 <= e.
  Hypothesis Hm : forall h, 0 < h -> stiff_three n h L 20 e cs (m h).
  Lemma stiff_accurate (Phi : R -> cvec -> cvec) H hs v d ts vs : (forall h v, Phi h v = erk_step (m h) N h v) ->
    0 <= d -> 0 <= H <= h0 -> d + e <= r0 -> vle n (csub v (u t0)) d -> Forall (fun h => 0 < h) hs -> Forall (fun h => h <= H) hs ->
    t0 + total hs <= t1 -> steps_of Phi t0 v hs ts vs ->
    accurate n u (C * (d + e + H ^ 3)) ts vs /\ vle n (csub (grun Phi hs v) (u (t0 + total hs))) (C * (d + e + H ^ 3)).
  Proof.
    intros HP Hd HH Hde Hv Hpos Hmax Htot [Ets Evs].
    assert (G : forall j, vle n (csub (grun Phi (firstn j hs) v) (u (t0 + total (firstn j hs)))) (C * (d + e + H ^ 3))).
    { intros j. rewrite grun_run. apply (HR n L N t0 t1 u f f1 f2 J HS HT Phi cs H e); try assumption.
      - apply Forall_forall. intros h Hin.
        assert (In h hs) by (rewrite <- (firstn_skipn j hs); apply in_or_app; left; exact Hin).
        rewrite Forall_forall in Hpos, Hmax. split; [split; auto|]. exists (m h). split; [apply Hm; auto|]. intros w. rewrite HP. reflexivity.
      - assert (X := total_firstn hs j Hpos). lra. }
    split.
    - unfold accurate. rewrite Ets, Evs. clear - G. induction (seq 0 (Datatypes.S (length hs))) as [|j l IH]; cbn [map]; constructor; [apply G|exact IH].
    - assert (X := G (length hs)). rewrite firstn_all in X. exact X.
  Qed.
  Lemma stiff_cs k : (forall h v, cs_Phi p N k h v = erk_step (m h) N h v) -> cs_claim n t0 t1 u 3 C h0 r0 p k e.
  Proof.
    intros HP fuel v s0 sf h o w r o' w' d E0 Hsf Hend Hh Hd Hde Hv E.
    destruct (cs_model_sound1 (F := Rops) (fun a b X => proj1 (Reqb_true a b) X) p N Hp k) as [Inv HM].
    destruct (cs_evolve_steps HM fuel v s0 sf h o w ltac:(lra) Hsf E) as (j & Hg & Hj & Hst & Hr).
    set (vh := val h : R) in *. rewrite E0 in *.
    assert (TR := total_repeat vh j).
    assert (TB : t0 + total (repeat vh j) < val sf + vh \/ j = 0%nat).
    { destruct j as [|j]; [right; reflexivity|left]. specialize (Hj ltac:(lia)). rewrite TR, S_INR. replace (Datatypes.S j - 1)%nat with j in Hj by lia. lra. }
    assert (P1 : Forall (fun x => 0 < x) (repeat vh j)) by (apply repeat_pos; lra).
    assert (P2 : Forall (fun x => x <= vh) (repeat vh j)) by (apply Forall_forall; intros x Hx; apply repeat_spec in Hx; subst x; lra).
    assert (P3 : t0 + total (repeat vh j) <= t1) by (destruct TB as [TB| ->]; [lra|]; unfold total; cbn; lra).
    destruct (stiff_accurate (cs_Phi p N k) vh (repeat vh j) v d _ _ HP Hd ltac:(lra) Hde Hv P1 P2 P3 Hst) as [G1 G2].
    split; [exact G1|]. intros v' Ev. destruct (Hr v' Ev) as [-> Hge]. exists (t0 + total (repeat vh j)).
    split; [|exact G2]. rewrite TR in *. destruct TB as [TB| ->]; [lra|]. change (INR 0) with 0 in *. rewrite Rmult_0_l in *. split; [exact Hge|]. apply Rle_lt_trans with (val sf); lra.
  Qed.
  Lemma stiff_as k : (forall h v, fst (as_Phi p N k h v) = erk_step (m h) N h v) -> as_claim n t0 t1 u 3 C h0 r0 p k e.
  Proof.
    intros HP ks cfg compute_s fuel v s0 sf hi o w r o' w' d H Hks Hcfg E0 Hsf Hend Hhi Hd Hde Hv E HG HH.
    destruct (as_model_sound1 (F := Rops) (fun a b X => proj1 (Reqb_true a b) X) p N Hp k) as [Inv HM].
    destruct (as_evolve_steps ks compute_s HM Hks Hcfg fuel v s0 sf hi o w Hsf Hhi E) as (hs & Hpos & Hg & Htot & Hst & Hr).
    rewrite E0 in *.
    destruct (stiff_accurate (fun h v => fst (as_Phi p N k h v)) H hs v d _ _ HP Hd HH Hde Hv Hpos
                (steps_gaps _ _ _ _ _ _ _ _ Hst HG) ltac:(lra) Hst) as [G1 G2].
    split; [exact G1|]. intros v' Ev. destruct (Hr v' Ev) as [-> <-]. exact G2.
  Qed.
End Claims.

(** C90. The constants depend on bounds of the nonlinear part along the solution and on the length of the interval; neither
    the operator nor its size enters. The order is three (the stiff order of the two methods), see C91 for the integrating
    factor methods. *)
Theorem C90_uniform_convergence :
  forall K rho T0, 0 <= K -> 0 < rho -> 0 < T0 ->
  exists C h0 r0, 0 <= C /\ 0 < h0 /\ 0 < r0 /\
  forall n (L : cvec) N t0 t1 u f f1 f2 J, stiff_solution n L N t0 t1 rho K u f f1 f2 J -> t1 - t0 <= T0 ->
  forall W (p : problem Cops W), computes p N -> p_vec p = L -> good_contour (p_cfg p) ->
    cs_claim n t0 t1 u 3 C h0 r0 p ETD4d (quad_error (p_cfg p)) /\ cs_claim n t0 t1 u 3 C h0 r0 p ETD5d (quad_error (p_cfg p)) /\
    as_claim n t0 t1 u 3 C h0 r0 p ETD34d (quad_error (p_cfg p)) /\ as_claim n t0 t1 u 3 C h0 r0 p ETD35d (quad_error (p_cfg p)).
Proof.
  intros K rho T0 HK Hrho HT0. destruct (stiff_runs 20 K rho T0 ltac:(lra) HK Hrho HT0) as (C & h0 & r0 & H1 & H2 & H3 & H4).
  exists C, h0, r0. split; [exact H1|]. split; [exact H2|]. split; [exact H3|].
  intros n L N t0 t1 u f f1 f2 J HS HT W p Hp EL Hc. subst L.
  assert (HL := ss_L _ _ _ _ _ _ _ _ _ _ _ _ HS). assert (He := e_pos _ Hc).
  assert (M1 : forall h, 0 < h -> stiff_three n h (p_vec p) 20 (quad_error (p_cfg p)) [0; 1/2; 1/2; 1] (d_krogstad (p_cfg p) h (p_vec p)))
    by (intros h Hh; apply kro_three; [exact HL|lra|exact Hc]).
  assert (M2 : forall h, 0 < h -> stiff_three n h (p_vec p) 20 (quad_error (p_cfg p)) [0; 1/4; 1/4; 1/2; 3/4; 1] (d_etd5 (p_cfg p) h (p_vec p)))
    by (intros h Hh; apply etd5_three; [exact HL|lra|exact Hc]).
  split; [|split; [|split]].
  - apply (stiff_cs K rho T0 C h0 r0 H4 n _ N t0 t1 u f f1 f2 J HS HT W p _ _ _ Hp He M1). intros h v. apply etd4d_erk.
  - apply (stiff_cs K rho T0 C h0 r0 H4 n _ N t0 t1 u f f1 f2 J HS HT W p _ _ _ Hp He M2). intros h v. apply etd5d_erk.
  - apply (stiff_as K rho T0 C h0 r0 H4 n _ N t0 t1 u f f1 f2 J HS HT W p _ _ _ Hp He M1). intros h v. rewrite etd34d_erk. reflexivity.
  - apply (stiff_as K rho T0 C h0 r0 H4 n _ N t0 t1 u f f1 f2 J HS HT W p _ _ _ Hp He M2). intros h v. rewrite etd35d_erk. reflexivity.
Qed.

(** The hypotheses with the same bounds for every operator [diag(0, lam)], [Re lam <= 0]: the solution of
    [u_0' = 1, u_1' = lam u_1 + u_0]. *)
Definition sxL (lam : C) : cvec := fun i => match i with O => RtoC 0 | _ => lam end.
Definition sxN (v : cvec) : cvec := fun i => match i with O => RtoC 1 | _ => v O end.
Definition sxu (lam : C) (t : R) : cvec :=
  fun i => match i with O => RtoC t | _ => (Cexp (RtoC t * lam) + RtoC (t ^ 2) * phi 2 (RtoC t * lam))%C end.
Definition sxf (t : R) : cvec := fun i => match i with O => RtoC 1 | _ => RtoC t end.
Definition sxf1 (t : R) : cvec := fun i => match i with O => RtoC 0 | _ => RtoC 1 end.
Definition sx0 (t : R) : cvec := fun i => RtoC 0.
Definition sxJ (t : R) (v : cvec) : cvec := fun i => match i with O => RtoC 0 | _ => v O end.
Definition sx_problem (lam : C) : problem Cops unit :=
  mk_problem (A := Cops) (pure_nl (sxN : vec Cops -> vec Cops)) 2 (sxL lam) (diagm (sxL lam)) default_etdcfg
    (fun m => inr m) (fun m => inr m) (eye Cops) (eye Cops) (sxL lam).
Example C90_not_vacuous : forall lam, fst lam <= 0 ->
  stiff_solution 2 (sxL lam) sxN 0 1 1 1 (sxu lam) sxf sxf1 sx0 sxJ /\
  computes (sx_problem lam) sxN /\ p_vec (sx_problem lam) = sxL lam /\ good_contour (p_cfg (sx_problem lam)).
Proof.
  intros lam Hl. split; [|split; [intros v w y w' E; injection E as <- _; reflexivity|split; [reflexivity|exact default_contour]]].
  assert (Z : forall (a : C) x, 0 <= x -> Cmod (a - a)%C <= x) by (intros a x Hx; replace (a - a)%C with (RtoC 0) by ring; rewrite Cmod_0; exact Hx).
  split; try lra.
  - intros a b E i Hi. destruct i; [reflexivity|]. apply (E O). unfold below; lia.
  - intros i Hi. destruct i; cbn; lra.
  - intros t i Ht Hi. destruct i.
    + cbn [sxu sxL sxf]. eapply is_Cder_eq; [reflexivity| |apply (is_Cder_R (fun t => t) t 1); exact (is_derive_id (K := R_AbsRing) t)]. ring.
    + cbn [sxu sxL sxf]. eapply is_Cder_eq; [| |apply is_Cder_plus; [apply (is_Cder_exp (RtoC 0) lam t)|apply (qk_der lam 1 t)]].
      * intros s. cbn beta. rewrite Cplus_0_l. reflexivity.
      * rewrite Cplus_0_l. replace (t ^ 1 / INR (fact 1)) with t by (change (INR (fact 1)) with 1; field). ring.
  - intros t Ht i Hi. destruct i; reflexivity.
  - intros t i Ht Hi. destruct i as [|i]; cbn [sxf sxf1]; [exact (is_Cder_const (RtoC 1) t)|]. exact (is_Cder_R (fun t => t) t 1 (is_derive_id (K := R_AbsRing) t)).
  - intros t i Ht Hi. destruct i as [|i]; cbn [sxf1]; unfold sx0; [exact (is_Cder_const (RtoC 0) t)|exact (is_Cder_const (RtoC 1) t)].
  - intros t Ht i Hi. destruct i; cbn [sxf]; rewrite Cmod_R, Rabs_pos_eq; lra.
  - intros t Ht i Hi. destruct i; cbn [sxf1]; rewrite Cmod_R, Rabs_pos_eq; lra.
  - intros t Ht i Hi. unfold sx0. rewrite Cmod_0. lra.
  - intros s t Hs Ht i Hi. unfold csub, sx0. apply Z. rewrite Rmult_1_l. apply Rabs_pos.
  - intros t v w x Ht Hx Hv Hw Hvw i Hi. unfold csub. destruct i; cbn [sxN]; [apply Z; lra|]. rewrite Rmult_1_l. apply (Hvw O). lia.
  - intros t Ht. split.
    + intros a b i Hi. destruct i; cbn [sxJ]; unfold cadd; [apply C_eq; cbn; ring|reflexivity].
    + intros a b i Hi. destruct i; cbn [sxJ]; unfold rscal, cscal; [apply C_eq; cbn; ring|reflexivity].
  - intros t Ht v x Hx Hv i Hi. destruct i; cbn [sxJ]; [rewrite Cmod_0; lra|]. rewrite Rmult_1_l. apply (Hv O). lia.
  - intros t v x Ht Hx Hv i Hi. unfold csub. destruct i; cbn [sxN sxJ sxu].
    + replace (1 - 1 - 0)%C with (RtoC 0) by ring. rewrite Cmod_0. assert (0 <= x ^ 2) by (apply pow_le; lra). lra.
    + apply Z. assert (0 <= x ^ 2) by (apply pow_le; lra). lra.
  - intros s t Hs Ht v x Hx Hv i Hi. unfold csub. assert (P : 0 <= 1 * Rabs (s - t) * x) by (apply Rmult_le_pos; [rewrite Rmult_1_l; apply Rabs_pos|exact Hx]).
    destruct i; cbn [sxJ]; apply Z; exact P.
Qed.

(** ** C91: IF4 does not converge uniformly *)
Notation py x := (PyN (A := T Rops) false x).
(** The solution of [u' = lam u + 1, u(0) = 0]. *)
Definition oneu (lam : C) (t : R) : cvec := fun _ => (RtoC (t ^ 1) * phi 1 (RtoC t * lam))%C.
Definition one_problem (lam : C) : problem Cops unit :=
  mk_problem (A := Cops) (pure_nl (fun _ : vec Cops => const_vec 1)) 1 (fun _ => lam) (diagm (fun _ => lam)) default_etdcfg
    (fun m => inr m) (fun m => inr m) (eye Cops) (eye Cops) (fun _ => lam).
Definition one_v (t : R) : cvec := const_vec 1.
Definition oneJ (t : R) (v : cvec) : cvec := const_vec 0.
Lemma one_stiff (lam : C) : fst lam <= 0 ->
  stiff_solution 1 (fun _ => lam) (fun _ => const_vec 1) 0 2 1 1 (oneu lam) one_v sx0 sx0 oneJ.
Proof.
  intros Hl. assert (Z : forall (a : C) x, 0 <= x -> Cmod (a - a)%C <= x) by (intros a x Hx; replace (a - a)%C with (RtoC 0) by ring; rewrite Cmod_0; exact Hx).
  split; try lra.
  - intros a b E i Hi. reflexivity.
  - intros i Hi. exact Hl.
  - intros t i Ht Hi. unfold oneu, one_v, const_vec. eapply is_Cder_eq; [reflexivity| |apply (qk_der lam 0 t)].
    cbn [fact INR pow]. f_equal. replace (1 / 1) with 1 by field. reflexivity.
  - intros t Ht i Hi. reflexivity.
  - intros t i Ht Hi. exact (is_Cder_const (RtoC 1) t).
  - intros t i Ht Hi. exact (is_Cder_const (RtoC 0) t).
  - intros t Ht i Hi. unfold one_v, const_vec. rewrite Cmod_R, Rabs_pos_eq; lra.
  - intros t Ht i Hi. unfold sx0. rewrite Cmod_0. lra.
  - intros t Ht i Hi. unfold sx0. rewrite Cmod_0. lra.
  - intros s t Hs Ht i Hi. unfold csub, sx0. apply Z. rewrite Rmult_1_l. apply Rabs_pos.
  - intros t v w x Ht Hx Hv Hw Hvw i Hi. unfold csub. apply Z. lra.
  - intros t Ht. split; intros a b i Hi; unfold oneJ, const_vec, cadd, rscal, cscal; ring.
  - intros t Ht v x Hx Hv i Hi. unfold oneJ, const_vec. rewrite Cmod_0. lra.
  - intros t v x Ht Hx Hv i Hi. unfold csub, oneJ, const_vec. replace (1 - 1 - 0)%C with (RtoC 0) by ring. rewrite Cmod_0.
    assert (0 <= x ^ 2) by (apply pow_le; lra). lra.
  - intros s t Hs Ht v x Hx Hv i Hi. unfold csub, oneJ. apply Z. apply Rmult_le_pos; [rewrite Rmult_1_l; apply Rabs_pos|exact Hx].
Qed.
Lemma oneu_small (lam : C) (t : R) i : lam <> 0%C -> fst lam <= 0 -> 0 <= t -> Cmod (oneu lam t i) <= 2 / Cmod lam.
Proof.
  intros Hn Hl Ht. assert (P := phi_rec 0 (RtoC t * lam)%C). change (phi 0 (RtoC t * lam)%C) with (Cexp (RtoC t * lam)%C) in P. change (INR (fact 0)) with 1 in P. rewrite Rinv_1 in P.
  assert (Q : (lam * oneu lam t i = Cexp (RtoC t * lam) - 1)%C) by (unfold oneu; rewrite <- P; cbn [pow]; rewrite Rmult_1_r; ring).
  assert (M : 0 < Cmod lam) by (apply Cmod_gt_0; exact Hn).
  apply Rmult_le_reg_l with (Cmod lam); [exact M|]. rewrite <- Cmod_mult, Q. replace (Cmod lam * (2 / Cmod lam)) with 2 by (field; lra).
  unfold Cminus. eapply Rle_trans; [apply Cmod_triangle|]. rewrite Cmod_opp, Cmod_R, Rabs_pos_eq by lra. assert (X : Cmod (Cexp (RtoC t * lam)%C) <= 1).
  { apply exp_left. rewrite Re_scal. assert (0 <= t * - fst lam) by (apply Rmult_le_pos; lra). lra. }
  lra.
Qed.
(** The run of IF4 from 0 to 1 with step [1/k]: the value returned. *)
Lemma if4_one_step (lam : C) (h : R) v :
  cs_Phi (one_problem lam) (fun _ => const_vec 1) IF4d h v O =
  (Cexp (RtoC h * lam) * v O + RtoC h * (RtoC (/ 6) * Cexp (RtoC h * lam) + RtoC (2 / 3) * Cexp (RtoC (h / 2) * lam) + RtoC (/ 6)))%C.
Proof.
  rewrite if4d_ref. unfold vk, dflow, const_vec. cbn [p_vec one_problem]. replace (2 / 3) with (/ 3 + / 3) by field. rewrite RtoC_plus. ceq. ring.
Qed.
Lemma if4_one_run (lam : C) k : (0 < k)%nat -> exists o' w',
  cs_evolve (F := Rops) k (fun _ => RtoC 0) (py 0) (py 1) (py (/ INR k)) true 1 (cs_new_obj (one_problem lam) IF4d) tt
  = (Ret (Nat.iter k (cs_Phi (one_problem lam) (fun _ => const_vec 1) IF4d (/ INR k)) (fun _ => RtoC 0)), o', w').
Proof.
  intros Hk. set (p := one_problem lam). set (N := fun _ : cvec => const_vec 1).
  assert (HN : computes p N) by (intros v w y w' E; injection E as <- _; reflexivity).
  assert (HM : cs_memoryless (cs_model p IF4d) (cs_Phi p N IF4d) (cs_inv p N IF4d)).
  { apply cs_sound_memoryless; [apply cs_model_sound; [exact HN|split; discriminate|]|].
    - intros a b E. apply Reqb_true in E. subst. reflexivity.
    - intros. apply cs_model_never_raises; [intros; discriminate|split; discriminate]. }
  assert (K0 : 1 <= INR k) by (change 1 with (INR 1); apply le_INR; lia).
  assert (I0 : 0 < / INR k) by (apply Rinv_0_lt_compat; lra).
  assert (I1 : / INR k <= 1) by (rewrite <- Rinv_1; apply Rinv_le_contravar; lra).
  assert (IK : INR (k - 1) = INR k - 1) by (rewrite minus_INR by lia; reflexivity).
  assert (E1 : INR k * / INR k = 1) by (field; lra).
  destruct (@cs_evolve_exact _ unit (cs_model p IF4d) _ _ k (fun _ => RtoC 0) (py 0) (py 1) (py (/ INR k)) 1 k (cs_new_obj p IF4d) tt HM)
    as (o' & w' & E & _); cbn [val]; try lia; try lra.
  - rewrite IK. lra.
  - exists o', w'. exact E.
Qed.
Definition uniform_order (only : cvec -> Prop) (ord : nat) : Prop :=
  exists C h0 r0, 0 <= C /\ 0 < h0 /\ 0 < r0 /\
  forall n (L : cvec) N t0 t1 u f f1 f2 J, only L -> stiff_solution n L N t0 t1 1 1 u f f1 f2 J -> t1 - t0 <= 2 ->
  forall W (p : problem Cops W), computes p N -> p_vec p = L -> good_contour (p_cfg p) ->
    cs_claim n t0 t1 u ord C h0 r0 p IF4d 0.
(** What a uniform order would give for the run above. *)
Lemma if4_one_claim (only : cvec -> Prop) ord : uniform_order only ord -> exists B h0, 0 <= B /\ 0 < h0 /\
  forall k (lam : C), (0 < k)%nat -> / INR k <= h0 -> lam <> 0%C -> fst lam <= 0 -> only (fun _ => lam) ->
    Cmod (Nat.iter k (cs_Phi (one_problem lam) (fun _ => const_vec 1) IF4d (/ INR k)) (fun _ => RtoC 0) O) <= 2 / Cmod lam + B * (/ INR k) ^ ord.
Proof.
  intros (C & h0 & r0 & HC & Hh0 & Hr0 & H). exists C, h0. split; [exact HC|]. split; [exact Hh0|].
  intros k lam Hk Hkh Hn Hl Ho.
  assert (K0 : 1 <= INR k) by (change 1 with (INR 1); apply le_INR; lia).
  assert (I0 : 0 < / INR k) by (apply Rinv_0_lt_compat; lra).
  assert (I1 : / INR k <= 1) by (rewrite <- Rinv_1; apply Rinv_le_contravar; lra).
  destruct (if4_one_run lam k Hk) as (o' & w' & E).
  assert (HN : computes (one_problem lam) (fun _ => const_vec 1)) by (intros v w y w1 E1; injection E1 as <- _; reflexivity).
  destruct (H 1%nat _ _ 0 2 _ _ _ _ _ Ho (one_stiff lam Hl) ltac:(lra) unit (one_problem lam) HN eq_refl default_contour k (fun _ => RtoC 0) (py 0) (py 1) (py (/ INR k))
              (cs_new_obj (one_problem lam) IF4d) tt _ o' w' 0 eq_refl ltac:(cbn; lra) ltac:(cbn; lra) ltac:(cbn; lra) (Rle_refl 0) ltac:(lra)
              ltac:(apply vle_eq_0; intros i Hi; unfold oneu; cbn [pow]; apply C_eq; cbn; ring) E) as [_ G].
  destruct (G _ eq_refl) as (t & Ht & G1). specialize (G1 O ltac:(lia)). cbn [val] in *. unfold csub in G1.
  set (y := Nat.iter k (cs_Phi (one_problem lam) (fun _ => const_vec 1) IF4d (/ INR k)) (fun _ => RtoC 0) O) in *. assert (U := oneu_small lam t O Hn Hl ltac:(lra)).
  replace y with ((y - oneu lam t O) + oneu lam t O)%C by ring. eapply Rle_trans; [apply Cmod_triangle|].
  rewrite !Rplus_0_l in G1. lra.
Qed.
Lemma big_nat (x : R) : exists k, (0 < k)%nat /\ x < INR k.
Proof.
  exists (S (Z.to_nat (up (Rmax x 0)))). split; [lia|]. destruct (archimed (Rmax x 0)) as [A _]. assert (M1 := Rmax_l x 0). assert (M2 := Rmax_r x 0).
  assert (Z0 : (0 <= up (Rmax x 0))%Z) by (apply le_IZR; lra). rewrite S_INR, INR_IZR_INZ, Z2Nat.id by exact Z0. lra.
Qed.

(** C91, refuted: for oscillating modes the error of IF4 does not even tend to 0 uniformly. *)
Theorem C91_if4_uniform_refuted : forall ord, (0 < ord)%nat -> ~ uniform_order (fun _ => True) ord.
Proof.
  intros ord Hord HU. destruct (if4_one_claim _ ord HU) as (C & h0 & HC & Hh0 & H).
  destruct (big_nat (1 + C + / h0)) as (k & Hk & Hbig).
  assert (K0 : 1 <= INR k) by (change 1 with (INR 1); apply le_INR; lia). assert (J0 := Rinv_0_lt_compat h0 Hh0).
  set (h := / INR k) in *. assert (I0 : 0 < h) by (apply Rinv_0_lt_compat; lra).
  assert (I1 : h <= 1) by (unfold h; rewrite <- Rinv_1; apply Rinv_le_contravar; lra).
  assert (E1 : INR k * h = 1) by (unfold h; field; lra).
  assert (P := PI_RGT_0). assert (P2 := PI2_3_2).
  set (om := 4 * PI * INR k). set (lam := (0, om) : Complex.C).
  assert (Ho : 4 * INR k <= om). { unfold om. apply Rmult_le_compat_r; lra. }
  assert (EH : Cexp (RtoC h * lam)%C = RtoC 1).
  { replace (RtoC h * lam)%C with ((0, 2 * PI * INR 2) : Complex.C); [apply Cexp_turns|]. unfold lam, om. apply C_eq; cbn; [ring|]. transitivity (4 * PI * (INR k * h)); [rewrite E1; ring|ring]. }
  assert (EH2 : Cexp (RtoC (h / 2) * lam)%C = RtoC 1).
  { replace (RtoC (h / 2) * lam)%C with ((0, 2 * PI * INR 1) : Complex.C); [apply Cexp_turns|]. unfold lam, om. apply C_eq; cbn; [ring|]. transitivity (2 * PI * (INR k * h)); [rewrite E1; ring|field]. }
  assert (V : forall j, Nat.iter j (cs_Phi (one_problem lam) (fun _ => const_vec 1) IF4d h) (fun _ => RtoC 0) O = RtoC (INR j * h)).
  { induction j as [|j IH]; [cbn; f_equal; ring|]. cbn [Nat.iter nat_rect]. 
    change (cs_Phi (one_problem lam) (fun _ => const_vec 1) IF4d h (Nat.iter j (cs_Phi (one_problem lam) (fun _ => const_vec 1) IF4d h) (fun _ => RtoC 0)) O = RtoC (INR (S j) * h)).
    rewrite if4_one_step, IH, EH, EH2, S_INR. apply C_eq; cbn; field. }
  assert (ML : Cmod lam = om).
  { unfold lam, Cmod. cbn [fst snd]. replace (0 ^ 2 + om ^ 2) with (om ^ 2) by ring. apply sqrt_pow2. lra. }
  assert (B := H k lam Hk). rewrite V in B. fold h in B. rewrite E1, Cmod_R, Rabs_R1, ML in B.
  assert (Hh : h <= h0). { unfold h. rewrite <- (Rinv_inv h0). apply Rinv_le_contravar; lra. }
  specialize (B Hh ltac:(intros X; apply (f_equal snd) in X; cbn in X; lra) ltac:(cbn; lra) I).
  assert (S1 : 2 / om <= h).
  { apply Rmult_le_reg_r with om; [lra|]. replace (2 / om * om) with 2 by (field; lra). apply Rle_trans with (h * (4 * INR k)); [|apply Rmult_le_compat_l; lra].
    replace (h * (4 * INR k)) with (4 * (INR k * h)) by ring. lra. }
  assert (S2 : h ^ ord <= h).
  { destruct ord as [|o]; [lia|]. cbn [pow]. rewrite <- (Rmult_1_r h) at 3. apply Rmult_le_compat_l; [lra|]. rewrite <- (pow1 o). apply pow_incr. lra. }
  assert (S3 : C * h ^ ord <= C * h) by (apply Rmult_le_compat_l; assumption).
  assert (S4 : INR k * 1 <= INR k * (h + C * h)) by (apply Rmult_le_compat_l; lra).
  replace (INR k * (h + C * h)) with ((1 + C) * (INR k * h)) in S4 by ring. rewrite E1 in S4. lra.
Qed.
(** Also for real operators (parabolic equations) the order of IF4 is not uniform: not two. *)
Theorem C91_if4_parabolic_refuted : ~ uniform_order (fun L => forall i, snd (L i) = 0) 2.
Proof.
  intros HU. destruct (if4_one_claim _ 2 HU) as (C & h0 & HC & Hh0 & H).
  destruct (big_nat (24 + 24 * C + / h0)) as (k & Hk & Hbig).
  assert (K0 : 1 <= INR k) by (change 1 with (INR 1); apply le_INR; lia). assert (J0 := Rinv_0_lt_compat h0 Hh0).
  set (h := / INR k) in *. assert (I0 : 0 < h) by (apply Rinv_0_lt_compat; lra).
  assert (E1 : INR k * h = 1) by (unfold h; field; lra).
  set (x := 24 * INR k). set (lam := RtoC (- x)).
  assert (EX : forall s, Cexp (RtoC s * lam)%C = RtoC (exp (s * - x))) by (intros s; unfold lam; rewrite <- RtoC_mult; apply Cexp_R).
  assert (V : forall j, exists y, 0 <= y /\ ((0 < j)%nat -> h / 6 <= y) /\ Nat.iter j (cs_Phi (one_problem lam) (fun _ => const_vec 1) IF4d h) (fun _ => RtoC 0) O = RtoC y).
  { induction j as [|j (y & Y1 & _ & IH)]; [exists 0; split; [lra|split; [lia|reflexivity]]|].
    set (q := exp (h * - x)). set (q2 := exp (h / 2 * - x)). assert (Q := exp_pos (h * - x)). assert (Q2 := exp_pos (h / 2 * - x)). fold q in Q. fold q2 in Q2.
    assert (B : h / 6 <= q * y + h * (/ 6 * q + 2 / 3 * q2 + / 6)).
    { assert (0 <= q * y) by (apply Rmult_le_pos; lra). assert (0 <= h * (/ 6 * q + 2 / 3 * q2)) by (apply Rmult_le_pos; lra). lra. }
    exists (q * y + h * (/ 6 * q + 2 / 3 * q2 + / 6)). split; [lra|]. split; [intros _; exact B|].
    change (cs_Phi (one_problem lam) (fun _ => const_vec 1) IF4d h (Nat.iter j (cs_Phi (one_problem lam) (fun _ => const_vec 1) IF4d h) (fun _ => RtoC 0)) O = RtoC (q * y + h * (/ 6 * q + 2 / 3 * q2 + / 6))).
    rewrite if4_one_step, IH, !EX. fold q q2. rewrite <- !RtoC_mult, <- !RtoC_plus, <- !RtoC_mult, <- !RtoC_plus. reflexivity. }
  destruct (V k) as (y & Y1 & Y2 & Y3). specialize (Y2 Hk).
  assert (ML : Cmod lam = x) by (unfold lam; rewrite Cmod_R, Rabs_left; unfold x; lra).
  assert (B := H k lam Hk). fold h in B. rewrite Y3, Cmod_R, Rabs_pos_eq, ML in B by exact Y1.
  assert (Hh : h <= h0). { unfold h. rewrite <- (Rinv_inv h0). apply Rinv_le_contravar; lra. }
  specialize (B Hh ltac:(intros X; apply (f_equal fst) in X; unfold lam, x in X; cbn in X; lra) ltac:(unfold lam, x; cbn; lra) ltac:(intros i; reflexivity)).
  assert (S1 : 2 / x = h / 12) by (unfold x, h; field; lra).
  assert (S2 : INR k * (h / 12) <= INR k * (C * h ^ 2)) by (apply Rmult_le_compat_l; lra).
  replace (INR k * (h / 12)) with ((INR k * h) / 12) in S2 by field. replace (INR k * (C * h ^ 2)) with (C * (INR k * h) * h) in S2 by ring. rewrite E1 in S2.
  assert (S3 : INR k * (1 / 12) <= INR k * (C * 1 * h)) by (apply Rmult_le_compat_l; lra).
  replace (INR k * (C * 1 * h)) with (C * (INR k * h)) in S3 by ring. rewrite E1 in S3. lra.
Qed.

Print Assumptions C90_uniform_convergence.
Print Assumptions C91_if4_uniform_refuted.
Print Assumptions C91_if4_parabolic_refuted.
