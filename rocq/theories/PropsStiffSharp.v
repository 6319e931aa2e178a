(** * C92: order three is the best uniform order of ETD4 and ETD5 *)

From Coq Require Import ZArith List Bool Reals Lra Lia FunctionalExtensionality QArith Qreals Setoid Morphisms.
From Coquelicot Require Import Hierarchy Derive RInt Complex.
From Verif Require Import Scalars Control ControlCS ControlCSReal ControlAS ControlASReal ControlSim ControlSound PropsControl Arrays SchemeBase
     SchemeIF SchemeETD4 SchemeETD5 Solvers SchemeFacts SchemeSound SchemeFamily SchemePartial SchemeForm CInst SpecRK
     SchemeIFReal PropsCache PropsIF SpecPhi SpecPoly ContourReal SpecERK SchemeETDReal SchemeETDCoefs PropsPsi PropsETD
     PropsLinear ContourMatrix MatrixFlow PropsMatrix Asym Solution LocalRK4 Stable Converge Voc LocalKro MatExp ConvRuns ConvMethods
     PropsConverge PropsOrder5 Stiff StiffOrder PropsStiff StiffMethods PropsStiffOrder.
Import ListNotations.
Local Open Scope R_scope.

(** [u_0' = -u_0, u_1' = i om u_1 + u_0] with [om h = 8 pi]. *)
Definition Y8 : R := 2 * PI * INR 4.
Definition im (y : R) : C := (0, y).
Definition z8 : C := im Y8.
Definition osL (h : R) : cvec := fun i => match i with O => RtoC (-1) | _ => im (Y8 / h) end.
Definition osN (v : cvec) : cvec := fun i => match i with O => RtoC 0 | _ => v O end.
Definition osu (h t : R) : cvec := fun i => match i with O => RtoC (exp (- t)) | _ => (RtoC (- exp (- t)) / (1 + im (Y8 / h)%R))%C end.
Definition osf (c t : R) : cvec := fun i => match i with O => RtoC 0 | _ => RtoC (c * exp (- t)) end.
Definition os_problem (h : R) : problem Cops unit :=
  mk_problem (A := Cops) (pure_nl (osN : vec Cops -> vec Cops)) 2 (osL h) (fun _ _ => RtoC 0) (mk_etdcfg (F := Rops) h 5 h)
    (fun m => inr m) (fun m => inr m) mident mident (osL h).

Lemma Y8_pos : 24 <= Y8.
Proof. unfold Y8. assert (P2 := PI2_3_2). cbn [INR]. lra. Qed.
Lemma one_om (y : R) : (1 + im y)%C <> 0%C.
Proof. intros X. apply (f_equal fst) in X. cbn in X. lra. Qed.
Lemma exp_neg_der t : is_Cder (fun s => RtoC (exp (- s))) t (RtoC (- exp (- t))).
Proof.
  assert (G := is_Cder_exp (RtoC 0) (RtoC (-1)) t). eapply is_Cder_eq; [| |exact G].
  - intros s. cbn beta. rewrite Cplus_0_l, <- RtoC_mult, Cexp_R. f_equal. f_equal. ring.
  - rewrite Cplus_0_l, <- RtoC_mult, Cexp_R, <- RtoC_mult. f_equal. replace (t * -1) with (- t) by ring. ring.
Qed.
Lemma exp_neg_scal (c : C) t : is_Cder (fun s => (c * RtoC (exp (- s)))%C) t (c * RtoC (- exp (- t)))%C.
Proof. apply is_Cder_scal. apply exp_neg_der. Qed.
Lemma osf_der c t i : is_Cder (fun s => osf c s i) t (osf (- c) t i).
Proof.
  destruct i as [|i]; cbn [osf]; [exact (is_Cder_const (RtoC 0) t)|].
  eapply is_Cder_eq; [| |exact (exp_neg_scal (RtoC c) t)]; [intros s; cbn beta; rewrite RtoC_mult; reflexivity|rewrite <- RtoC_mult; f_equal; ring].
Qed.
Lemma exp_neg_le t : 0 <= t -> 0 < exp (- t) <= 1.
Proof. intros Ht. split; [apply exp_pos|]. rewrite <- exp_0. apply exp_mono. lra. Qed.
Lemma exp_neg_diff s t : 0 <= s -> 0 <= t -> Rabs (exp (- s) - exp (- t)) <= Rabs (s - t).
Proof.
  intros Hs Ht. assert (G : forall a b, 0 <= a -> a <= b -> 0 <= exp (- a) - exp (- b) <= b - a).
  { intros a b Ha Hab. split; [assert (exp (- b) <= exp (- a)) by (apply exp_mono; lra); lra|].
    assert (E := exp_neg_le a Ha). assert (X := exp_ineq1_le (- (b - a))). replace (- b) with (- a + - (b - a)) by ring. rewrite exp_plus.
    assert (exp (- a) * (1 - exp (- (b - a))) <= 1 * (b - a)).
    { apply Rmult_le_compat; try lra. assert (exp (- (b - a)) <= 1) by (rewrite <- exp_0; apply exp_mono; lra). lra. }
    lra. }
  destruct (Rle_dec s t) as [L|L].
  - assert (X := G s t Hs L). rewrite (Rabs_pos_eq (exp (- s) - exp (- t))) by lra. rewrite Rabs_left1 by lra. lra.
  - assert (X := G t s Ht ltac:(lra)). rewrite (Rabs_left1 (exp (- s) - exp (- t))) by lra. rewrite Rabs_pos_eq by lra. lra.
Qed.
Lemma os_stiff h : stiff_solution 2 (osL h) osN 0 2 1 1 (osu h) (osf 1) (osf (-1)) (osf 1) (fun _ => osN).
Proof.
  assert (Z : forall (a : C) x, 0 <= x -> Cmod (a - a)%C <= x) by (intros a x Hx; replace (a - a)%C with (RtoC 0) by ring; rewrite Cmod_0; exact Hx).
  assert (B : forall c t, Rabs c <= 1 -> 0 <= t -> vle 2 (osf c t) 1).
  { intros c t Hc Ht i Hi. destruct i as [|i]; cbn [osf]; [rewrite Cmod_0; lra|]. rewrite Cmod_R, Rabs_mult. assert (E := exp_neg_le t Ht).
    rewrite (Rabs_pos_eq (exp (- t))) by lra. apply Rle_trans with (1 * 1); [apply Rmult_le_compat; try lra; apply Rabs_pos|lra]. }
  split; try lra.
  - intros a b E i Hi. destruct i; [reflexivity|]. apply (E O). unfold below; lia.
  - intros i Hi. destruct i; cbn; lra.
  - intros t i Ht Hi. destruct i as [|i]; cbn [osu osL osf].
    + eapply is_Cder_eq; [reflexivity| |exact (exp_neg_der t)]. rewrite <- RtoC_mult, <- RtoC_plus. f_equal. ring.
    + eapply is_Cder_eq; [| |exact (exp_neg_scal (RtoC (-1) / (1 + im (Y8 / h)%R))%C t)].
      * intros s. cbn beta. replace (RtoC (- exp (- s))) with (RtoC (-1) * RtoC (exp (- s)))%C by (rewrite <- RtoC_mult; f_equal; ring). field. apply one_om.
      * replace (RtoC (- exp (- t))) with (RtoC (-1) * RtoC (exp (- t)))%C by (rewrite <- RtoC_mult; f_equal; ring). rewrite Rmult_1_l.
        rewrite RtoC_m1. field. apply one_om.
  - intros t Ht i Hi. destruct i; cbn [osf osN osu]; [reflexivity|]. rewrite Rmult_1_l. reflexivity.
  - intros t i Ht Hi. eapply is_Cder_eq; [reflexivity| |exact (osf_der 1 t i)]. reflexivity.
  - intros t i Ht Hi. eapply is_Cder_eq; [reflexivity| |exact (osf_der (-1) t i)]. destruct i; cbn [osf]; [reflexivity|]. f_equal. ring.
  - intros t Ht. apply B; [rewrite Rabs_R1; lra|lra].
  - intros t Ht. apply B; [rewrite Rabs_left; lra|lra].
  - intros t Ht. apply B; [rewrite Rabs_R1; lra|lra].
  - intros s t Hs Ht i Hi. unfold csub. destruct i as [|i]; cbn [osf].
    + apply Z. rewrite Rmult_1_l. apply Rabs_pos.
    + rewrite <- RtoC_minus, Cmod_R, !Rmult_1_l. apply exp_neg_diff; lra.
  - intros t v w x Ht Hx Hv Hw Hvw i Hi. unfold csub. destruct i; cbn [osN]; [apply Z; lra|]. rewrite Rmult_1_l. apply (Hvw O). lia.
  - intros t Ht. split.
    + intros a b i Hi. destruct i; cbn [osN]; unfold cadd; [apply C_eq; cbn; ring|reflexivity].
    + intros a b i Hi. destruct i; cbn [osN]; unfold rscal, cscal; [apply C_eq; cbn; ring|reflexivity].
  - intros t Ht v x Hx Hv i Hi. destruct i; cbn [osN]; [rewrite Cmod_0; lra|]. rewrite Rmult_1_l. apply (Hv O). lia.
  - intros t v x Ht Hx Hv i Hi. assert (0 <= x ^ 2) by (apply pow_le; lra). unfold csub. destruct i; cbn [osN].
    + replace (0 - 0 - 0)%C with (RtoC 0) by ring. rewrite Cmod_0. lra.
    + apply Z. lra.
  - intros s t Hs Ht v x Hx Hv i Hi. unfold csub. apply Z. apply Rmult_le_pos; [rewrite Rmult_1_l; apply Rabs_pos|exact Hx].
Qed.
Lemma os_mod h i : 0 < h <= 1 -> h <= Cmod (RtoC h * osL h i)%C.
Proof.
  intros Hh. destruct i as [|i]; cbn [osL].
  - rewrite <- RtoC_mult, Cmod_R, Rabs_left1; lra.
  - rewrite Cmod_mult, Cmod_R, Rabs_pos_eq by lra. assert (Y := Y8_pos).
    assert (D : 0 <= Y8 / h) by (apply Rmult_le_pos; [lra|left; apply Rinv_0_lt_compat; lra]).
    replace (Cmod (im (Y8 / h))) with (Y8 / h); [replace (h * (Y8 / h)) with Y8 by (field; lra); lra|].
    unfold im, Cmod. cbn [fst snd]. replace (0 ^ 2 + (Y8 / h) ^ 2) with ((Y8 / h) ^ 2) by ring. symmetry. apply sqrt_pow2. exact D.
Qed.
Lemma os_quad h : 0 < h <= 1 -> 0 <= quad_error (p_cfg (os_problem h)) <= h ^ 4 /\ good_contour (p_cfg (os_problem h)).
Proof.
  intros Hh. assert (Q := nc_quad h Hh). change (p_cfg (nc_problem h)) with (p_cfg (os_problem h)) in Q.
  assert (P5 : h ^ 5 <= h ^ 4). { change (h ^ 5) with (h * h ^ 4). assert (0 <= h ^ 4) by (apply pow_le; lra). rewrite <- (Rmult_1_l (h ^ 4)) at 2. apply Rmult_le_compat_r; lra. }
  assert (P4 : h ^ 5 <= 1). { rewrite <- (pow1 5). apply pow_incr. lra. }
  split; [lra|]. split; [cbn; lra|]. split; [cbn; lia|]. lra.
Qed.

(** The phi functions at [z8]. *)
Lemma Cexp_z8 : Cexp z8 = RtoC 1.
Proof. unfold z8, im, Y8. apply Cexp_turns. Qed.
Lemma z8_neq : z8 <> 0%C.
Proof. intros X. apply (f_equal snd) in X. cbn in X. assert (Y := Y8_pos). lra. Qed.
Lemma phi_z8 : phi 1 z8 = RtoC 0 /\ phi 2 z8 = (- / z8)%C /\ phi 3 z8 = (- / (z8 * z8) - RtoC (1 / 2) * / z8)%C.
Proof.
  assert (N := z8_neq). assert (S : forall k, phi (S k) z8 = (/ z8 * (phi k z8 - RtoC (/ INR (fact k))))%C) by (intros k; rewrite <- phi_rec; field; exact N).
  assert (P1 : phi 1 z8 = RtoC 0).
  { rewrite S. change (phi 0 z8) with (Cexp z8). rewrite Cexp_z8. change (INR (fact 0)) with 1. rewrite Rinv_1. ring. }
  assert (P2 : phi 2 z8 = (- / z8)%C).
  { rewrite S, P1. change (INR (fact 1)) with 1. rewrite Rinv_1. ring. }
  split; [exact P1|]. split; [exact P2|]. rewrite S, P2. replace (/ INR (fact 2)) with (1 / 2) by (cbn; field). field. exact N.
Qed.
Lemma os_arg h (c : R) : 0 < h -> (RtoC c * (RtoC h * im (Y8 / h)%R))%C = (RtoC c * z8)%C.
Proof. intros Hh. f_equal. unfold z8, im. apply C_eq; cbn; [ring|field; lra]. Qed.
Lemma os_dec h (c : R) : Cexp (RtoC c * (RtoC h * RtoC (-1)))%C = RtoC (exp (- (c * h))).
Proof. rewrite <- !RtoC_mult, Cexp_R. f_equal. f_equal. ring. Qed.

(** One step: the weights at [z8] as polynomials in [/ z8]. *)
Definition os_form (m : erk) (h P Q : R) : Prop := forall v,
  erk_step m osN h v O = (RtoC (exp (- h)) * v O)%C /\
  erk_step m osN h v 1%nat = (v 1%nat + RtoC h * ((RtoC P * / z8 + RtoC Q * / (z8 * z8)) * v O))%C.
Ltac os_unfold := unfold erk_step; cbn [er_E er_a er_b er_E1 erk_stages app]; unfold erk_value; cbn [ocomb]; unfold osub; unfold oadd; unfold oscal; unfold ozero, dE, dphi, csub, cadd, cscal, dfun; cbv beta.
Lemma kro_form h : 0 < h -> os_form (kro h (osL h)) h (1 - exp (- (1/2 * h)) * exp (- (1/2 * h))) (- 4 * ((1 - exp (- (1/2 * h))) * (1 - exp (- (1/2 * h))))).
Proof.
  intros Hh v. unfold kro, krogstad. os_unfold. cbn [osN osL]. rewrite !os_dec, !os_arg by exact Hh.
  destruct phi_z8 as (P1 & P2 & P3). rewrite !Cmult_1_l, Cexp_z8, P1, P2, P3.
  replace (exp (- (1 * h))) with (exp (- h)) by (f_equal; ring).
  assert (EH : exp (- h) = exp (- (1/2 * h)) * exp (- (1/2 * h))) by (rewrite <- exp_plus; f_equal; field).
  split; [ring|]. rewrite EH. set (q := exp (- (1/2 * h))). generalize (v O) (v 1%nat). intros a b.
  rewrite ?RtoC_mult, ?RtoC_minus, ?RtoC_mult, ?RtoC_minus. replace (/ (z8 * z8))%C with (/ z8 * / z8)%C by (field; apply z8_neq).
  generalize (/ z8)%C. generalize (RtoC q). intros x w. repeat rewrite ?Cmult_0_r, ?Cplus_0_r, ?Cmult_0_l, ?Cplus_0_l.
  cfield.
Qed.
Lemma etd5_form h : 0 < h -> let q := exp (- (1/4 * h)) in
  os_form (etd5 h (osL h)) h ((644 + 1384 * q + 84 * (q * q) - 1496 * (q * q * q) - 616 * (q * q * q * q)) / 1350)
    ((- 63 + 10 * q + 108 * (q * q) + 6 * (q * q * q) - 61 * (q * q * q * q)) / 15).
Proof.
  intros Hh q v. unfold etd5, etd5_method. os_unfold. cbn [osN osL]. rewrite !os_dec, !os_arg by exact Hh.
  destruct phi_z8 as (P1 & P2 & P3). rewrite !Cmult_1_l, Cexp_z8, P1, P2, P3.
  replace (exp (- (1 * h))) with (exp (- h)) by (f_equal; ring).
  assert (E2 : exp (- (1/2 * h)) = q * q) by (unfold q; rewrite <- exp_plus; f_equal; field).
  assert (E3 : exp (- (3/4 * h)) = q * q * q) by (unfold q; rewrite <- !exp_plus; f_equal; field).
  assert (E4 : exp (- h) = q * q * q * q) by (unfold q; rewrite <- !exp_plus; f_equal; field).
  split; [ring|]. rewrite E2, E3, E4. fold q. generalize (v O) (v 1%nat). intros a b. clear.
  repeat rewrite ?Cmult_0_r, ?Cplus_0_r, ?Cmult_0_l, ?Cplus_0_l.
  f_equal; [ring|]. f_equal.
  generalize (/ (z8 * z8))%C. generalize (/ z8)%C. intros w w2. generalize (q * q * q * q) (q * q * q) (q * q) q. intros x4 x3 x2 x. destruct w as [w_1 w_2], w2 as [w2_1 w2_2], a as [a1 a2].
  unfold RtoC, Cminus, Copp, Cplus, Cmult. cbn [fst snd]. apply C_eq; field.
Qed.

(** The error per step in the direction of the forcing. *)
Definition os_D (h P Q : R) : C := (RtoC P * / z8 + RtoC Q * / (z8 * z8) - RtoC (1 - exp (- h)) / (RtoC h + z8))%C.
Lemma hz8 h : (RtoC h + z8)%C <> 0%C.
Proof. intros X. apply (f_equal snd) in X. unfold z8, im in X. cbn in X. assert (Y := Y8_pos). lra. Qed.
Lemma Cmod_z8 : Cmod z8 = Y8.
Proof.
  assert (Y := Y8_pos). unfold z8, im, Cmod. cbn [fst snd]. replace (0 ^ 2 + Y8 ^ 2) with (Y8 ^ 2) by ring. apply sqrt_pow2. lra.
Qed.
Definition os_kap : R := / (4 * (Y8 * Y8 * (Y8 + 1))).
Lemma os_kap_pos : 0 < os_kap.
Proof. assert (Y := Y8_pos). apply Rinv_0_lt_compat. apply Rmult_lt_0_compat; [lra|]. apply Rmult_lt_0_compat; [apply Rmult_lt_0_compat|]; lra. Qed.
Lemma os_D_big h P Q : 0 < h <= 1 -> h ^ 3 / 4 <= Rabs (Y8 * Y8 * (1 - exp (- h) - P) + Q * h) -> os_kap * h ^ 3 <= Cmod (os_D h P Q).
Proof.
  intros Hh HB. assert (Y := Y8_pos). assert (N1 := z8_neq). assert (N2 := hz8 h).
  set (g := exp (- h)) in *.
  assert (E : (z8 * z8 * (RtoC h + z8) * os_D h P Q)%C = (((RtoC P * z8 + RtoC Q) * (RtoC h + z8)) - RtoC (1 - g) * (z8 * z8))%C).
  { unfold os_D. fold g. field. split; [exact N2|exact N1]. }
  assert (F : fst ((RtoC P * z8 + RtoC Q) * (RtoC h + z8) - RtoC (1 - g) * (z8 * z8))%C = Y8 * Y8 * (1 - g - P) + Q * h) by (unfold z8, im; cbn; ring).
  assert (G : Rabs (Y8 * Y8 * (1 - g - P) + Q * h) <= Cmod (z8 * z8 * (RtoC h + z8) * os_D h P Q)%C).
  { rewrite E, <- F. eapply Rle_trans; [apply Rmax_l|apply Rmax_Cmod]. }
  rewrite !Cmod_mult, Cmod_z8 in G.
  assert (M : Cmod (RtoC h + z8)%C <= Y8 + 1). { eapply Rle_trans; [apply Cmod_triangle|]. rewrite Cmod_R, Rabs_pos_eq, Cmod_z8 by lra. lra. }
  assert (P0 := Cmod_ge_0 (os_D h P Q)). set (d := Cmod (os_D h P Q)) in *. set (YY := Y8 * Y8 * (Y8 + 1)).
  assert (YP : 0 < YY) by (unfold YY; apply Rmult_lt_0_compat; [apply Rmult_lt_0_compat|]; lra).
  assert (G2 : h ^ 3 / 4 <= YY * d).
  { eapply Rle_trans; [exact HB|]. eapply Rle_trans; [exact G|]. apply Rmult_le_compat_r; [exact P0|]. unfold YY. apply Rmult_le_compat_l; [apply Rmult_le_pos; lra|exact M]. }
  apply Rmult_le_reg_l with (4 * YY); [lra|]. unfold os_kap. fold YY. replace (4 * YY * (/ (4 * YY) * h ^ 3)) with (h ^ 3) by (field; lra). lra.
Qed.
Lemma exp_gap x : 0 <= x <= 1 -> x / 2 <= 1 - exp (- x) <= x.
Proof.
  intros Hx. assert (A := exp_ineq1_le (- x)). assert (B := exp_ineq1_le x). split; [|lra].
  rewrite exp_Ropp. assert (P := exp_pos x). assert (I : / exp x <= / (1 + x)) by (apply Rinv_le_contravar; lra).
  assert (J : / (1 + x) <= 1 - x / 2).
  { apply Rmult_le_reg_l with (1 + x); [lra|]. rewrite Rinv_r by lra. assert (0 <= x * (1 - x)) by (apply Rmult_le_pos; lra). lra. }
  lra.
Qed.
Lemma kro_D h : 0 < h <= 1 ->
  os_kap * h ^ 3 <= Cmod (os_D h (1 - exp (- (1/2 * h)) * exp (- (1/2 * h))) (- 4 * ((1 - exp (- (1/2 * h))) * (1 - exp (- (1/2 * h)))))).
Proof.
  intros Hh. apply os_D_big; [exact Hh|]. assert (G := exp_gap (1/2 * h) ltac:(lra)).
  assert (EH : exp (- h) = exp (- (1/2 * h)) * exp (- (1/2 * h))) by (rewrite <- exp_plus; f_equal; field).
  rewrite EH. set (q := exp (- (1/2 * h))) in *. replace (Y8 * Y8 * (1 - q * q - (1 - q * q)) + - 4 * ((1 - q) * (1 - q)) * h) with (- (4 * ((1 - q) * (1 - q)) * h)) by ring.
  assert (S : h / 4 * (h / 4) <= (1 - q) * (1 - q)) by (apply Rmult_le_compat; lra).
  assert (S2 : h / 4 * (h / 4) * h <= (1 - q) * (1 - q) * h) by (apply Rmult_le_compat_r; lra).
  rewrite Rabs_Ropp, Rabs_pos_eq; [|assert (0 <= h / 4 * (h / 4) * h) by (apply Rmult_le_pos; [apply Rmult_le_pos|]; lra); lra]. lra.
Qed.
Lemma etd5_D h : 0 < h <= 1 -> let q := exp (- (1/4 * h)) in
  os_kap * h ^ 3 <= Cmod (os_D h ((644 + 1384 * q + 84 * (q * q) - 1496 * (q * q * q) - 616 * (q * q * q * q)) / 1350)
    ((- 63 + 10 * q + 108 * (q * q) + 6 * (q * q * q) - 61 * (q * q * q * q)) / 15)).
Proof.
  intros Hh q. apply os_D_big; [exact Hh|]. assert (G := exp_gap (1/4 * h) ltac:(lra)). fold q in G. assert (Qp := exp_pos (- (1/4 * h))). fold q in Qp.
  assert (E4 : exp (- h) = q * q * q * q) by (unfold q; rewrite <- !exp_plus; f_equal; field). rewrite E4. assert (Y := Y8_pos).
  set (y := 1 - q) in *. assert (Eq : q = 1 - y) by (unfold y; ring).
  replace (Y8 * Y8 * (1 - q * q * q * q - (644 + 1384 * q + 84 * (q * q) - 1496 * (q * q * q) - 616 * (q * q * q * q)) / 1350) +
           (-63 + 10 * q + 108 * (q * q) + 6 * (q * q * q) - 61 * (q * q * q * q)) / 15 * h)
    with (Y8 * Y8 * (y * y * y * ((706 + 734 * q) / 1350)) - y * y * ((63 + 116 * q + 61 * (q * q)) / 15) * h) by (unfold y; field).
  assert (y3 : 0 <= y * y * y) by (apply Rmult_le_pos; [apply Rmult_le_pos|]; lra). assert (y2 : 0 <= y * y) by (apply Rmult_le_pos; lra).
  assert (A1 : y * y * y * (1/2) <= y * y * y * ((706 + 734 * q) / 1350)) by (apply Rmult_le_compat_l; lra).
  assert (A2 : 24 * 24 * (y * y * y * (1/2)) <= Y8 * Y8 * (y * y * y * ((706 + 734 * q) / 1350))).
  { apply Rmult_le_compat; [lra| |apply Rmult_le_compat; lra|exact A1]. apply Rmult_le_pos; lra. }
  assert (Q2 : q * q <= 1) by (assert (q * q <= 1 * 1) by (apply Rmult_le_compat; lra); lra).
  assert (A3 : y * y * ((63 + 116 * q + 61 * (q * q)) / 15) * h <= y * y * 16 * (8 * y)).
  { apply Rmult_le_compat; try lra; [apply Rmult_le_pos; [exact y2|]; assert (0 <= q * q) by (apply Rmult_le_pos; lra); lra|]. apply Rmult_le_compat_l; lra. }
  assert (H3 : h ^ 3 <= 512 * (y * y * y)).
  { apply Rle_trans with ((8 * y) * (8 * y) * (8 * y)); [|lra]. replace (h ^ 3) with (h * h * h) by ring. apply Rmult_le_compat; try lra; [apply Rmult_le_pos; lra|]. apply Rmult_le_compat; lra. }
  rewrite Rabs_pos_eq by lra. lra.
Qed.

(** The numerical solution: the errors add up. *)
Lemma os_iter (Phi : cvec -> cvec) m h P Q : 0 < h -> os_form m h P Q -> (forall v, Phi v = erk_step m osN h v) ->
  forall j, exists s, INR j * exp (- (INR j * h)) <= s /\
    Nat.iter j Phi (osu h 0) O = RtoC (exp (- (INR j * h))) /\
    (Nat.iter j Phi (osu h 0) 1%nat - osu h (INR j * h) 1%nat)%C = (RtoC h * (RtoC s * os_D h P Q))%C.
Proof.
  intros Hh HF HP. induction j as [|j (s & S1 & S2 & S3)].
  - exists 0. change (INR 0) with 0. rewrite !Rmult_0_l. split; [lra|]. split; [reflexivity|]. cbn [Nat.iter nat_rect]. ring.
  - exists (s + exp (- (INR j * h))). change (Nat.iter (S j) Phi (osu h 0)) with (Phi (Nat.iter j Phi (osu h 0))).
    set (v := Nat.iter j Phi (osu h 0)) in *. rewrite HP. destruct (HF v) as [F0 F1]. rewrite F0, F1, S2. rewrite S_INR.
    set (t := INR j * h) in *. replace ((INR j + 1) * h) with (t + h) by (unfold t; ring).
    assert (EE : exp (- (t + h)) = exp (- h) * exp (- t)) by (rewrite <- exp_plus; f_equal; ring).
    split; [|split].
    + assert (E1 : exp (- (t + h)) <= exp (- t)) by (apply exp_mono; lra). assert (N0 := pos_INR j).
      assert (INR j * exp (- (t + h)) <= INR j * exp (- t)) by (apply Rmult_le_compat_l; assumption). lra.
    + rewrite EE, RtoC_mult. reflexivity.
    + assert (V : v 1%nat = (osu h t 1%nat + RtoC h * (RtoC s * os_D h P Q))%C) by (rewrite <- S3; ring). rewrite V. unfold os_D. cbn [osu]. rewrite EE.
      set (a := exp (- t)). set (g := exp (- h)).
      assert (X : (1 + im (Y8 / h)%R)%C = (/ RtoC h * (RtoC h + z8))%C).
      { unfold z8, im. apply C_eq; cbn; field; lra. }
      rewrite X. assert (N2 := hz8 h). assert (Nh : RtoC h <> 0%C) by (intros Y; apply (f_equal fst) in Y; cbn in Y; lra). assert (N1 := z8_neq).
      rewrite !RtoC_plus, !RtoC_minus, !RtoC_opp, !RtoC_mult. field. repeat split; assumption.
Qed.

(** The property: one constant for all operators, order [ord]. *)
Definition etd_uniform (k : cs_kind) (ord : nat) : Prop :=
  forall K rho T0, 0 <= K -> 0 < rho -> 0 < T0 ->
  exists C h0 r0, 0 <= C /\ 0 < h0 /\ 0 < r0 /\
  forall n (L : cvec) N t0 t1 u f f1 f2 J, stiff_solution n L N t0 t1 rho K u f f1 f2 J -> t1 - t0 <= T0 ->
  forall W (p : problem Cops W), computes p N -> p_vec p = L -> good_contour (p_cfg p) ->
    cs_claim n t0 t1 u ord C h0 r0 p k (quad_error (p_cfg p)).
Lemma os_refutes k (m : R -> erk) (P Q : R -> R) :
  (forall h, 0 < h -> os_form (m h) h (P h) (Q h)) -> (forall h, 0 < h <= 1 -> os_kap * h ^ 3 <= Cmod (os_D h (P h) (Q h))) ->
  (forall h v, 0 < h <= 1 -> cs_Phi (os_problem h) osN k h v = erk_step (m h) osN h v) ->
  ~ etd_uniform k 4.
Proof.
  intros HF HD HP HU. destruct (HU 1 1 2 ltac:(lra) ltac:(lra) ltac:(lra)) as (C & h0 & r0 & HC & Hh0 & Hr0 & H). clear HU.
  assert (KP := os_kap_pos).
  destruct (big_nat (1 + 6 * C / os_kap + / h0 + / r0)) as (j & Hj & Hbig).
  assert (J0 := Rinv_0_lt_compat h0 Hh0). assert (J1 := Rinv_0_lt_compat r0 Hr0).
  assert (CK : 0 <= 6 * C / os_kap) by (apply Rmult_le_pos; [lra|left; apply Rinv_0_lt_compat; exact KP]).
  set (h := / INR j) in *. assert (I0 : 0 < h) by (apply Rinv_0_lt_compat; lra).
  assert (I1 : h <= 1) by (unfold h; rewrite <- Rinv_1; apply Rinv_le_contravar; lra).
  assert (E1 : INR j * h = 1) by (unfold h; field; lra).
  assert (Hh : h <= h0). { unfold h. rewrite <- (Rinv_inv h0). apply Rinv_le_contravar; lra. }
  assert (Hr : h <= r0). { unfold h. rewrite <- (Rinv_inv r0). apply Rinv_le_contravar; lra. }
  destruct (os_quad h (conj I0 I1)) as [QE GC]. set (p := os_problem h) in *.
  assert (P4 : h ^ 4 <= h). { cbn [pow]. apply Rle_trans with (h * 1); [|lra]. apply Rmult_le_compat_l; [lra|]. change (h * (h * (h * 1))) with (h ^ 3). rewrite <- (pow1 3). apply pow_incr. lra. }
  assert (HN : computes p osN) by (intros v w y w' E; injection E as <- _; reflexivity).
  assert (HM : cs_memoryless (cs_model p k) (cs_Phi p osN k) (cs_inv p osN k)).
  { apply cs_sound_memoryless; [apply cs_model_sound; [exact HN|split; discriminate|]|].
    - intros a b E. apply Reqb_true in E. subst. reflexivity.
    - intros. apply cs_model_never_raises; [intros; discriminate|split; discriminate]. }
  assert (IK : INR (j - 1) = INR j - 1) by (rewrite minus_INR by lia; reflexivity).
  assert (K0 : 1 <= INR j) by lra.
  destruct (@cs_evolve_exact _ unit (cs_model p k) _ _ j (osu h 0) (py 0) (py 1) (py h) 1 j (cs_new_obj p k) tt HM)
    as (o' & w' & R1 & _ & E3 & E4 & _); cbn [val]; try lia; try lra.
  - rewrite IK. lra.
  - destruct (H 2%nat _ _ 0 2 _ _ _ _ _ (os_stiff h) ltac:(lra) unit p HN eq_refl GC j (osu h 0) (py 0) (py 1) (py h) (cs_new_obj p k) tt _ o' w' 0
                eq_refl ltac:(cbn; lra) ltac:(cbn; lra) ltac:(cbn; lra) (Rle_refl 0) ltac:(lra) ltac:(apply vle_eq_0; reflexivity) R1) as [G _].
    assert (G0 : Forall2 (fun t v => vle 2 (csub v (osu h t)) (C * (0 + quad_error (p_cfg p) + h ^ 4)))
                   (snapshots 1 j (fun j => 0 + INR j * h)) (snapshots 1 j (fun j => Nat.iter j (cs_Phi p osN k h) (osu h 0))))
      by exact (eq_ind _ (fun l => Forall2 _ l _) (eq_ind _ (fun l => Forall2 _ _ l) G _ E4) _ E3).
    clear G. unfold snapshots in G0. rewrite Nat.div_1_r in G0.
    assert (G' : forall l, Forall2 (fun t v => vle 2 (csub v (osu h t)) (C * (0 + quad_error (p_cfg p) + h ^ 4)))
                     (map (fun j => 0 + INR (j * 1) * h) l) (map (fun j => Nat.iter (j * 1) (cs_Phi p osN k h) (osu h 0)) l) ->
                   forall i, In i l -> vle 2 (csub (Nat.iter i (cs_Phi p osN k h) (osu h 0)) (osu h (0 + INR i * h))) (C * (0 + quad_error (p_cfg p) + h ^ 4))).
    { clearbody p h. clear. induction l as [|a l IH]; intros F i Hi; [destruct Hi|]. cbn [map] in F. inversion F; subst. destruct Hi as [-> |Hi]; [|apply IH; assumption].
      rewrite Nat.mul_1_r in H2. exact H2. }
    assert (G2 := G' _ G0 j ltac:(apply in_seq; lia) 1%nat ltac:(lia)). clear G0 G'. rewrite Rplus_0_l in G2. unfold csub in G2.
    destruct (os_iter (cs_Phi p osN k h) (m h) h (P h) (Q h) I0 (HF h I0) (fun v => HP h v (conj I0 I1)) j) as (s & S1 & _ & S3).
    assert (G3 := eq_ind _ (fun y => Cmod y <= C * (0 + quad_error (p_cfg p) + h ^ 4)) G2 _ S3). clear G2 S3. rename G3 into G2. cbn beta in G2.
    rewrite !Cmod_mult, !Cmod_R in G2. rewrite E1 in S1.
    assert (EX : / 3 <= exp (- (1))). { rewrite exp_Ropp. apply Rinv_le_contravar; [apply exp_pos|apply exp_le_3]. }
    assert (S4 : INR j * / 3 <= s). { eapply Rle_trans; [|exact S1]. apply Rmult_le_compat_l; lra. }
    rewrite (Rabs_pos_eq h) in G2 by lra. rewrite (Rabs_pos_eq s) in G2 by lra.
    assert (D := HD h (conj I0 I1)). assert (K3 : 0 <= os_kap * h ^ 3) by (apply Rmult_le_pos; [lra|apply pow_le; lra]).
    assert (G3 : (INR j * / 3) * (os_kap * h ^ 3) <= s * Cmod (os_D h (P h) (Q h))) by (apply Rmult_le_compat; lra).
    assert (G4 : h * ((INR j * / 3) * (os_kap * h ^ 3)) <= h * (s * Cmod (os_D h (P h) (Q h)))) by (apply Rmult_le_compat_l; lra).
    replace (h * ((INR j * / 3) * (os_kap * h ^ 3))) with ((INR j * h) * (os_kap * h ^ 3) / 3) in G4 by field. rewrite E1 in G4.
    assert (G5 : C * (0 + quad_error (p_cfg p) + h ^ 4) <= C * (2 * h ^ 4)) by (apply Rmult_le_compat_l; lra).
    assert (G6 : os_kap * h ^ 3 <= 6 * C * h * h ^ 3) by (cbn [pow] in *; lra).
    assert (P3 : 0 < h ^ 3) by (apply pow_lt; lra). apply Rmult_le_reg_r in G6; [|exact P3].
    assert (G7 : INR j * os_kap <= INR j * (6 * C * h)) by (apply Rmult_le_compat_l; lra).
    replace (INR j * (6 * C * h)) with (6 * C * (INR j * h)) in G7 by ring. rewrite E1 in G7.
    assert (G8 : 6 * C / os_kap * os_kap = 6 * C) by (field; lra).
    assert (G9 : (6 * C / os_kap) * os_kap < INR j * os_kap) by (apply Rmult_lt_compat_r; lra). lra.
Qed.

(** C92, refuted. *)
Theorem C92_etd4_order_four_refuted : ~ etd_uniform ETD4d 4.
Proof.
  apply (os_refutes ETD4d (fun h => kro h (osL h)) (fun h => 1 - exp (- (1/2 * h)) * exp (- (1/2 * h))) (fun h => - 4 * ((1 - exp (- (1/2 * h))) * (1 - exp (- (1/2 * h)))))).
  - intros h Hh. apply kro_form. exact Hh.
  - intros h Hh. apply kro_D. exact Hh.
  - intros h v Hh. apply (proj1 (C36_exact_krogstad unit (os_problem h) osN h v ltac:(cbn; lra) (fun i => os_mod h i Hh))).
Qed.
Theorem C92_etd5_order_four_refuted : ~ etd_uniform ETD5d 4.
Proof.
  apply (os_refutes ETD5d (fun h => etd5 h (osL h)) _ _ (fun h Hh => etd5_form h Hh)).
  - intros h Hh. apply etd5_D. exact Hh.
  - intros h v Hh. apply (proj1 (C37_exact_method unit (os_problem h) osN h v ltac:(cbn; lra) (fun i => os_mod h i Hh))).
Qed.
(** What holds (C90). *)
Theorem C92_order_three : etd_uniform ETD4d 3 /\ etd_uniform ETD5d 3.
Proof.
  split; intros K rho T0 HK Hrho HT; destruct (C90_uniform_convergence K rho T0 HK Hrho HT) as (C & h0 & r0 & H1 & H2 & H3 & H);
    exists C, h0, r0; (split; [exact H1|]; split; [exact H2|]; split; [exact H3|]); intros n L N t0 t1 u f f1 f2 J HS Ht W p Hp EL Hc;
    destruct (H n L N t0 t1 u f f1 f2 J HS Ht W p Hp EL Hc) as (G1 & G2 & _); assumption.
Qed.

Print Assumptions C92_etd4_order_four_refuted.
Print Assumptions C92_etd5_order_four_refuted.
Print Assumptions C92_order_three.
