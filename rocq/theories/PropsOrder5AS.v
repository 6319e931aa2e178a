(** * C73 for the adaptive solver: order five fails for runs of ETD35 *)

From Coq Require Import ZArith List Bool Reals Lra Lia FunctionalExtensionality QArith Qreals Setoid Morphisms.
From Coquelicot Require Import Hierarchy Derive RInt Complex.
From Verif Require Import Scalars Control ControlCS ControlCSReal ControlAS ControlASReal ControlSim ControlSound PropsControl Arrays SchemeBase
     SchemeIF SchemeETD4 SchemeETD5 Solvers SchemeFacts SchemeSound SchemeFamily SchemePartial SchemeForm CInst SpecRK
     SchemeIFReal PropsCache PropsIF SpecPhi SpecPoly ContourReal SpecERK SchemeETDReal SchemeETDCoefs PropsPsi PropsETD
     PropsLinear ContourMatrix MatrixFlow PropsMatrix Asym Solution LocalRK4 Stable Converge Voc LocalKro MatExp ConvRuns ConvMethods
     PropsConverge OrderWords OrderLocal OrderMethods OrderSharp PropsOrder5 PropsTolerance PropsStiff PropsStiffIF.
Import ListNotations.
Local Open Scope R_scope.
Local Notation py x := (PyN (A := T Rops) false x).

(** No constants bound the errors of the runs of ETD35 by [C (d + e + H^5)] for the problem of C73_order_five_refuted. The runs that
    violate the bounds accept every step and leave its size unchanged. *)
Theorem C73_etd35_order_five_refuted :
  exists n (L : cvec) N t0 t1 rho K u f J J1, smooth n 5 (dmat L) N t0 t1 rho K u f J /\ Jsmooth n t0 t1 K J J1 /\
  ~ (exists C h0 r0, 0 <= C /\ 0 < h0 /\ 0 < r0 /\
    forall W (p : problem Cops W), computes p N -> p_vec p = L ->
      0 < modecutoff (p_cfg p) <= contour_radius (p_cfg p) -> (0 < contour_points (p_cfg p))%nat ->
      as_claim n t0 t1 u 5 C h0 r0 p ETD35d (12 * quad_error (p_cfg p))).
Proof.
  exists 2%nat, ncL, ncN, 0, 1, 1, 300, ncu, ncf, ncJ, ncJ1. split; [exact nc_smooth|]. split; [exact nc_J|].
  intros (C & h0 & r0 & HC & Hh0 & Hr0 & H).
  destruct nc_close as (A & HA & Hcl). destruct nc_local as (h1 & Hh1 & Hloc).
  set (hb := Rmin (Rmin h0 r0) (1/2)). assert (Hhb : 0 < hb) by (unfold hb; repeat apply Rmin_glb_lt; lra).
  apply (order_sharp 2 5 (dmat ncL) ncN 0 1 1 300 ncu ncf ncJ nc_smooth (fun h => getd5 2 (dexp ncL) (dPHI ncL) h) A 6 5 0 (/ 4320) h1 (C * 2) hb (1/2)
           HA ltac:(lia) Hcl ltac:(lia) ltac:(lra) Hh1 Hloc ltac:(lra) Hhb ltac:(lra) ltac:(lra)).
  intros k h Hk Hh Ekh j Hj.
  assert (M1 := Rmin_l (Rmin h0 r0) (1/2)). assert (M2 := Rmin_r (Rmin h0 r0) (1/2)). assert (M3 := Rmin_l h0 r0). assert (M4 := Rmin_r h0 r0). fold hb in M1, M2.
  assert (Q := nc_quad h ltac:(lra)). set (p := nc_problem h) in *.
  assert (P5 : h ^ 5 <= h).
  { cbn [pow]. apply Rle_trans with (h * 1); [|lra]. apply Rmult_le_compat_l; [lra|]. change (h * (h * (h * (h * 1)))) with (h ^ 4). rewrite <- (pow1 4). apply pow_incr. lra. }
  assert (PB : 0 <= h ^ 5) by (apply pow_le; lra).
  destruct j as [|j0].
  { change (INR 0) with 0. replace (0 + 0 * h) with 0 by ring. eapply vle_mono; [apply vle_eq_0; reflexivity|]. apply Rmult_le_pos; lra. }
  set (j := S j0) in *.
  assert (HN : computes p ncN) by (intros v w y w' E; injection E as <- _; reflexivity).
  assert (HM : as_memoryless (as_model p ETD35d) (as_Phi p ncN ETD35d) (as_inv p ncN ETD35d)).
  { apply as_sound_memoryless; [apply as_model_sound; [exact HN|split; discriminate|]|].
    - intros a b E. apply Reqb_true in E. subst. reflexivity.
    - intros. apply as_model_never_raises; [intros; discriminate|split; discriminate]. }
  destruct (keep_run _ unit (as_model p ETD35d) _ _ HM default_config default_config_valid h j (ncu 0) (as_new_obj p ETD35d) tt ltac:(lra) ltac:(unfold j; lia)) as (o' & w' & E & Hg).
  assert (J0 : 0 < INR j) by (apply lt_0_INR; unfold j; lia). assert (J1 : INR j <= INR k) by (apply le_INR; exact Hj).
  assert (J2 : 0 < INR j * h) by (apply Rmult_lt_0_compat; lra). assert (J3 : INR j * h <= INR k * h) by (apply Rmult_le_compat_r; lra).
  destruct (H unit p HN eq_refl ltac:(cbn; lra) ltac:(cbn; lia) the_consts default_config (keep _) j (ncu 0) (py 0) (py (INR j * h)) (Some (py h)) (as_new_obj p ETD35d) tt _ o' w' 0 h
              ltac:(cbn; lra) default_config_valid eq_refl J2 ltac:(cbn [val]; lra) ltac:(cbn; lra) (Rle_refl 0) ltac:(lra) ltac:(apply vle_eq_0; reflexivity) E Hg ltac:(lra)) as [_ G].
  assert (G2 := G _ eq_refl). clear G. cbn [val] in G2.
  assert (EQ : forall j, veq (below 2) (Nat.iter j (erk_step (getd5 2 (dexp ncL) (dPHI ncL) h) ncN h) (ncu 0)) (Nat.iter j (fun v => fst (as_Phi p ncN ETD35d h v)) (ncu 0))).
  { clear - Hh. induction j as [|j IH]; [reflexivity|]. cbn [Nat.iter].
    change (veq (below 2) (erk_step (getd5 2 (dexp ncL) (dPHI ncL) h) ncN h (Nat.iter j (erk_step (getd5 2 (dexp ncL) (dPHI ncL) h) ncN h) (ncu 0))) (fst (as_Phi p ncN ETD35d h (Nat.iter j (fun v => fst (as_Phi p ncN ETD35d h v)) (ncu 0))))).
    rewrite (proj1 (proj2 (C37_exact_method unit p ncN h _ ltac:(cbn; lra) (fun i => eq_ind_r (fun x => h <= x) (Rle_refl h) (ncL_mod h i (proj1 Hh)))))).
    symmetry. apply nc_method. symmetry. exact IH. }
  rewrite Rplus_0_l. eapply vle_ext; [|eapply vle_mono; [exact G2|]].
  - intros i Hi. unfold csub. rewrite (EQ j i Hi). reflexivity.
  - apply Rle_trans with (C * (2 * h ^ 5)); [apply Rmult_le_compat_l; lra|lra].
Qed.

Print Assumptions C73_etd35_order_five_refuted.
