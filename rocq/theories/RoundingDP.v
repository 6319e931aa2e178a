(** * IF45DP with binary64 scalars

    IF45DP is the one strategy that keeps scalars computed in two operations: [11 * h / 84.0], [22 * h / 525.0] and [-h / 40.0]
    (rkstiff/if45dp.py:183-238). Over binary64 scalars they are rounded twice, and they differ from those of the strategy with exact
    scalars. The second rounding is one of the roundings of the product by an array; the first one is bounded here by the accuracy
    of the products themselves. *)

From Coq Require Import ZArith List Bool Reals Lra Lia FunctionalExtensionality.
From Coquelicot Require Import Complex.
From Flocq Require Import Core BinarySingleNaN.
From Verif Require Import Scalars Control ControlCS ControlCSReal ControlSim ControlSound Arrays SchemeBase SchemeIF SchemeETD4 SchemeETD5 Solvers SchemeFacts
     SchemeSound SchemeFamily SchemePartial SchemeForm CInst SpecRK SpecERK Asym Solution Estimate Converge Rounding RoundingB64 PropsRounding B64 B64Step RoundingRuns.
Import ListNotations.
Local Open Scope R_scope.

(** ** Cached coefficients
    [_update_coeffs] of IF45DP keeps the scalars of a step size that compares equal: for zeros of different sign they may differ in
    sign. It is enough that such coefficients give the same steps. *)
Section Cache.
  Variable F : tops.
  Variable A : aops F.
  Variable W : Type.
  Variable p : problem A W.
  Variable N : vec A -> vec A.
  Hypothesis HN : forall v w y w', p_nl p v w = (inr y, w') -> y = N v.
  Notation ucd := (dp_coeffs F A (p_vec p)).
  Notation kd := (kof F ucd (as_k0 A IF45DPd)).
  Hypothesis HE : forall a b, teqb F a b = true -> forall u, dp_form N (kd a) u (N u) = dp_form N (kd b) u (N u).

  Lemma dp_update (s : sst (T F) (dp_coefs (vec A) (T F)) (mem2 (vec A))) h (w : W) : inv_coefs F ucd (as_k0 A IF45DPd) s -> exists h',
    s_update_coeffs F W _ _ ucd h s w = (inr tt, mk_sst (Some h') (n1_init s) (kd h') (mem s), w) /\
    forall u, dp_form N (kd h') u (N u) = dp_form N (kd h) u (N u).
  Proof.
    intros H. unfold s_update_coeffs. destruct (same_h F h (h_coeff s)) eqn:E.
    - unfold same_h in E. destruct (h_coeff s) as [h'|] eqn:Eh; [|discriminate]. exists h'. specialize (H h' Eh). split.
      + destruct s; cbn in *. congruence.
      + intros u. symmetry. apply HE. exact E.
    - exists h. split; reflexivity.
  Qed.

  Ltac nl_step := match goal with |- context [p_nl p ?v ?w] =>
    let E := fresh "E" in destruct (p_nl p v w) as [[?|?] ?] eqn:E; [exact I|apply HN in E; subst];
    cbn [h_coeff n1_init coefs mem fst snd m2_NL1 m2_NLn] end.
  Theorem dp_sound1 : as_sound1 (as_model p IF45DPd) (as_Phi p N IF45DPd) (as_good p IF45DPd) (inv2 N ucd (as_k0 A IF45DPd)).
  Proof.
    split.
    - intros s u. cbn. unfold inv2, inv_coefs. cbn. repeat split; intros; try discriminate; reflexivity.
    - intros acc s u h w Hi. assert (Hc := proj1 Hi). destruct (dp_update s h w Hc) as (h' & Eu & Eh).
      assert (EP := as_Phi_form p N IF45DPd h (c := kd h) u eq_refl). cbn [as_form] in EP.
      cbn [as_model if45dp as_upd as_st] in *. unfold dp_update_stages, bind. rewrite Eu. clear Eu.
      assert (EF : forall u, dp_form N (kd h') u (N u) = as_Phi p N IF45DPd h u).
      { intros v. rewrite Eh. symmetry. exact (as_Phi_form p N IF45DPd h (c := kd h) v eq_refl). }
      clear Eh EP. set (K := kd h') in *. destruct Hi as (_ & Hb & Hm). unfold inv2, inv_coefs in *.
      destruct s as [hc b c0 m]. cbn [h_coeff n1_init coefs mem] in *.
      unfold get, upd, ret, call, set_init, set_mem, bind. cbn [h_coeff n1_init coefs mem].
      assert (Good : as_good p IF45DPd h) by reflexivity.
      destruct b, acc; cbn [h_coeff n1_init coefs mem fst snd m2_NL1 m2_NLn]; try (discriminate (Hb eq_refl)); try specialize (Hm eq_refl);
        [rewrite Hm|rewrite Hm|]; repeat nl_step; cbn [h_coeff n1_init coefs mem fst snd m2_NL1 m2_NLn];
        (split; [exact Good|]; split; [exact (EF u)|]; split; (split; [intros x Hx; injection Hx as <-; reflexivity|]);
         (split; [discriminate|]); intros _; cbn [h_coeff n1_init coefs mem fst snd m2_NL1 m2_NLn]; (assumption || reflexivity)).
  Qed.
End Cache.

(** ** Coefficients and stages *)
(** The coefficients with exact scalars, except for those that are kept: they are rounded twice. *)
Definition dpc64 (a : arith) (x : R) (L : cvec) : dp_coefs cvec R :=
  let c := dpc (Fops a) x L in
  mk_dp_coefs (dp_EL15 c) (dp_EL310 c) (dp_EL45 c) (dp_EL89 c) (dp_EL c) (dp_a21 c) (dp_a31 c) (dp_a32 c) (dp_a41 c) (dp_a42 c) (dp_a43 c)
    (dp_a51 c) (dp_a52 c) (dp_a53 c) (dp_a54 c) (dp_a61 c) (dp_a62 c) (dp_a63 c) (dp_a64 c) (dp_a65 c) (dp_a71 c) (dp_a73 c) (dp_a74 c) (dp_a75 c)
    (rnd (rnd (11 * x) / 84)) (dp_r1 c) (dp_r3 c) (dp_r4 c) (dp_r5 c) (rnd (rnd (22 * x) / 525)) (rnd (rnd (-1 * x) / 40)).

Section Coefficients.
  Variable a : arith.
  Hypothesis Ha : scalars64 a.
  Variable h : b64.
  Hypothesis Hh : h_ok h.
  Notation G := (Gops a).
  Notation A := (Fops a).

  Lemma kept64 x y : (Z.abs x <= 131072)%Z -> (1 <= y < 2 ^ 53)%Z ->
    B2R (tdiv Bops (tmul Bops (tofZ Bops x) h) (tofZ Bops y)) = rnd (rnd (IZR x * B2R h) / IZR y).
  Proof.
    intros Hx Hy. destruct Hh as [Fh Bh]. destruct (B2R_ofZ x ltac:(lia)) as [F1 E1]. destruct (B2R_ofZ y ltac:(lia)) as [F2 E2].
    assert (Bx : Rabs (IZR x * B2R h) <= bpow radix2 17).
    { rewrite Rabs_mult. change (bpow radix2 17) with 131072. replace 131072 with (131072 * 1) by ring. apply Rmult_le_compat; try apply Rabs_pos; [|exact Bh].
      rewrite <- abs_IZR. apply (IZR_le _ 131072). exact Hx. }
    assert (Fm : fmt (bpow radix2 17)) by (apply generic_format_bpow; cbn; unfold SpecFloat.emin; lia).
    assert (B1 : Rabs (rnd (IZR x * B2R h)) <= bpow radix2 17) by (apply abs_round_le_generic; [exact fexp_ok|apply valid_rnd_round_mode|exact Fm|exact Bx]).
    assert (P17 : bpow radix2 17 < bpow radix2 1024) by (apply bpow_lt; lia).
    assert (M : is_finite (b64_mult (b64_ofZ x) h) = true /\ B2R (b64_mult (b64_ofZ x) h) = rnd (IZR x * B2R h)).
    { destruct (mult_cases (b64_ofZ x) h F1 Fh) as [(_ & Y & E)|(X & _)]; [rewrite E, E1; auto|rewrite E1 in X; lra]. }
    destruct M as [M1 M2]. change (tdiv Bops (tmul Bops (tofZ Bops x) h) (tofZ Bops y)) with (b64_div (b64_mult (b64_ofZ x) h) (b64_ofZ y)).
    assert (Y1 : 1 <= IZR y) by (apply (IZR_le 1); lia).
    assert (D := Bdiv_correct 53 1024 _ _ mode_NE (b64_mult (b64_ofZ x) h) (b64_ofZ y) ltac:(rewrite E2; lra)). rewrite M2, E2 in D.
    rewrite Rlt_bool_true in D; [exact (proj1 D)|]. apply Rle_lt_trans with (bpow radix2 17); [|exact P17].
    apply abs_round_le_generic; [exact fexp_ok|apply valid_rnd_round_mode|exact Fm|].
    unfold Rdiv. rewrite Rabs_mult, (Rabs_inv (IZR y)), (Rabs_pos_eq (IZR y)) by lra. apply Rle_trans with (bpow radix2 17 * 1); [|lra].
    apply Rmult_le_compat; [apply Rabs_pos|left; apply Rinv_0_lt_compat; lra|exact B1|]. rewrite <- Rinv_1. apply Rinv_le_contravar; lra.
  Qed.

  Lemma dp_form_ext N (c : dp_coefs cvec b64) (d : dp_coefs cvec R) (u NL1 : cvec) :
    dp_EL15 c = dp_EL15 d -> dp_EL310 c = dp_EL310 d -> dp_EL45 c = dp_EL45 d -> dp_EL89 c = dp_EL89 d -> dp_EL c = dp_EL d ->
    dp_a21 c = dp_a21 d -> dp_a31 c = dp_a31 d -> dp_a32 c = dp_a32 d -> dp_a41 c = dp_a41 d -> dp_a42 c = dp_a42 d -> dp_a43 c = dp_a43 d ->
    dp_a51 c = dp_a51 d -> dp_a52 c = dp_a52 d -> dp_a53 c = dp_a53 d -> dp_a54 c = dp_a54 d ->
    dp_a61 c = dp_a61 d -> dp_a62 c = dp_a62 d -> dp_a63 c = dp_a63 d -> dp_a64 c = dp_a64 d -> dp_a65 c = dp_a65 d ->
    dp_a71 c = dp_a71 d -> dp_a73 c = dp_a73 d -> dp_a74 c = dp_a74 d -> dp_a75 c = dp_a75 d -> B2R (dp_a76 c) = dp_a76 d ->
    dp_r1 c = dp_r1 d -> dp_r3 c = dp_r3 d -> dp_r4 c = dp_r4 d -> dp_r5 c = dp_r5 d -> B2R (dp_r6 c) = dp_r6 d -> B2R (dp_r7 c) = dp_r7 d ->
    dp_form (A := G) N c u NL1 = dp_form (A := A) N d u NL1.
  Proof.
    destruct c as [x0 x1 x2 x3 x4 x5 x6 x7 x8 x9 x10 x11 x12 x13 x14 x15 x16 x17 x18 x19 x20 x21 x22 x23 x24 x25 x26 x27 x28 x29 x30],
      d as [y0 y1 y2 y3 y4 y5 y6 y7 y8 y9 y10 y11 y12 y13 y14 y15 y16 y17 y18 y19 y20 y21 y22 y23 y24 y25 y26 y27 y28 y29 y30]. cbn [dp_EL15 dp_EL310 dp_EL45 dp_EL89 dp_EL dp_a21 dp_a31 dp_a32 dp_a41 dp_a42 dp_a43 dp_a51 dp_a52 dp_a53 dp_a54
      dp_a61 dp_a62 dp_a63 dp_a64 dp_a65 dp_a71 dp_a73 dp_a74 dp_a75 dp_a76 dp_r1 dp_r3 dp_r4 dp_r5 dp_r6 dp_r7]. intros. subst. reflexivity.
  Qed.

  Ltac low := unfold vscalz, vdivz, vscal, vdivs, lit;
    repeat match goal with
    | |- context [emul G (eofT G (tmul Bops h (tofZ Bops ?x)))] => rewrite (proj1 (mulhz Ha Hh x ltac:(cbn; lia)))
    | |- context [emul G (eofT G (tmul Bops (tofZ Bops ?x) h))] => rewrite (proj2 (mulhz Ha Hh x ltac:(cbn; lia)))
    end;
    repeat match goal with |- context [eofT G (tofZ Bops ?z)] => rewrite (lit64 a z) by (cbn; lia) end; reflexivity.
  Theorem dp_form_64 N (L : cvec) k (u NL1 : cvec) :
    dp_form (A := G) N (snd (dp_coeffs Bops G L h k)) u NL1 = dp_form (A := A) N (dpc64 a (B2R h) L) u NL1.
  Proof.
    apply dp_form_ext; unfold dpc64, dpc, dp_coeffs; cbv zeta; cbn [snd dp_EL15 dp_EL310 dp_EL45 dp_EL89 dp_EL dp_a21 dp_a31 dp_a32 dp_a41 dp_a42 dp_a43 dp_a51 dp_a52 dp_a53 dp_a54
      dp_a61 dp_a62 dp_a63 dp_a64 dp_a65 dp_a71 dp_a73 dp_a74 dp_a75 dp_a76 dp_r1 dp_r3 dp_r4 dp_r5 dp_r6 dp_r7]; try low; apply kept64; lia.
  Qed.
End Coefficients.

Section Steps64.
  Variable a : arith.
  Hypothesis Ha : scalars64 a.
  Variable W : Type.
  Variable p : problem (Gops a) W.
  Variable Nf : cvec -> cvec.
  Hypothesis HN : forall v w y w', p_nl p v w = (inr y, w') -> y = Nf v.

  Theorem dp_Phi_64 h : h_ok h -> forall v, as_Phi p Nf IF45DPd h v = dp_form (A := Fops a) Nf (dpc64 a (B2R h) (p_vec p)) v (Nf v).
  Proof.
    intros Hh v. rewrite <- (dp_form_64 a Ha h Hh Nf (p_vec p) (as_k0 (Gops a) IF45DPd) v (Nf v)).
    exact (as_Phi_form p Nf IF45DPd h (c := snd (dp_coeffs Bops (Gops a) (p_vec p) h (as_k0 (Gops a) IF45DPd))) v eq_refl).
  Qed.
  Theorem dp_sound64 : exists Inv, as_sound1 (as_model p IF45DPd) (as_Phi p Nf IF45DPd) (as_good p IF45DPd) Inv.
  Proof.
    eexists. apply dp_sound1; [exact HN|]. intros x y E v. destruct (Beqb_cases x y E) as [->|(Hx & Hy & Exy)]; [reflexivity|].
    unfold kof. rewrite (dp_form_64 a Ha x Hx), (dp_form_64 a Ha y Hy), Exy. reflexivity.
  Qed.
End Steps64.

(** ** A product by a scalar rounded twice *)
Lemma twice_near a eps Om (q : R) x B A f g : rounds a eps Om -> scalars64 a -> 1 <= q -> 0 <= eps <= 1 -> 0 <= B -> 0 <= A -> near B A eps f g ->
  (2 * Rabs x + 1) * (B + A + 1) + Rabs x + 1 + B + A <= Om ->
  near (Rabs x * B) (3 + 3 * ((2 * Rabs x + 1) * (B + A)) + Rabs x * A) eps (RtoC (x / q) * f)%C (fl_mul a (RtoC (rnd (rnd x / q))) g).
Proof.
  intros HR Ha Hq He HB HA Hn HO. assert (Gg := near_le _ _ _ _ _ HA He Hn). destruct Hn as [H1 H2].
  assert (Pq : 0 < / q <= 1). { split; [apply Rinv_0_lt_compat; lra|]. rewrite <- Rinv_1. apply Rinv_le_contravar; lra. }
  rewrite <- (sc_mul Ha (rnd x / q) g). set (x' := rnd x) in *.
  assert (Hx' : Rabs x' <= 2 * Rabs x + 1).
  { assert (E : Rabs (fmt_round (-1074) 53 x - x) <= bpow radix2 (-53) * Rabs x + bpow radix2 (-1075)) by (apply (fmt_round_err (-1074) 53); lia). assert (U1 : bpow radix2 (-53) <= 1) by (change 1 with (bpow radix2 0); apply bpow_le; lia).
    assert (U2 : bpow radix2 (-1075) <= 1) by (change 1 with (bpow radix2 0); apply bpow_le; lia).
    replace x' with ((x' - x) + x) by ring. eapply Rle_trans; [apply Rabs_triang|]. unfold x'. 
    assert (bpow radix2 (-53) * Rabs x <= 1 * Rabs x) by (apply Rmult_le_compat_r; [apply Rabs_pos|exact U1]).
    change (rnd x) with (fmt_round (-1074) 53 x). lra. }
  assert (Px := Rabs_pos x). assert (Px' := Rabs_pos x'). assert (Pg := Cmod_ge_0 g). assert (Pf := Cmod_ge_0 f).
  set (Y := 2 * Rabs x + 1) in *. assert (PY : 1 <= Y) by (unfold Y; lra).
  assert (PYg : 0 <= Y * (B + A)) by (apply Rmult_le_pos; lra).
  assert (Eq : forall z, Cmod (RtoC (z / q)) = Rabs z * / q) by (intros z; rewrite Cmod_R; unfold Rdiv; rewrite Rabs_mult, (Rabs_pos_eq (/ q)) by lra; reflexivity).
  assert (Sm : forall z, 0 <= z -> z * / q <= z) by (intros z Hz; rewrite <- (Rmult_1_r z) at 2; apply Rmult_le_compat_l; lra).
  split.
  - rewrite Cmod_mult, Eq. apply Rmult_le_compat; [apply Rmult_le_pos; lra|exact Pf|apply Sm; exact Px|exact H1].
  - set (w := (RtoC (/ q) * g)%C). assert (Hw : Cmod w <= B + A).
    { unfold w. rewrite Cmod_mult, Cmod_R, Rabs_pos_eq by lra. rewrite Rmult_comm. eapply Rle_trans; [apply Sm; exact Pg|exact Gg]. }
    assert (Pw := Cmod_ge_0 w).
    assert (X1 : Cmod (RtoC x * w)%C <= Y * (B + A)) by (rewrite Cmod_mult, Cmod_R; apply Rmult_le_compat; try apply Rabs_pos; try lra; unfold Y; lra).
    assert (X2 : Cmod (RtoC x' * w)%C <= Y * (B + A)) by (rewrite Cmod_mult, Cmod_R; apply Rmult_le_compat; try apply Rabs_pos; lra).
    assert (E1 : (RtoC (x' / q) * g = RtoC x' * w)%C) by (unfold w, Rdiv; rewrite RtoC_mult; ring).
    assert (E2 : (RtoC (x / q) * g = RtoC x * w)%C) by (unfold w, Rdiv; rewrite RtoC_mult; ring).
    assert (R1 : Cmod (fl_mul a (RtoC (x' / q)) g - RtoC x' * w)%C <= eps * (1 + Y * (B + A))).
    { rewrite <- E1. eapply Rle_trans; [apply (ro_mul _ _ _ HR)|].
      - rewrite Eq. eapply Rle_trans; [apply Sm; exact Px'|]. lra.
      - lra.
      - rewrite E1. lra.
      - rewrite E1. apply Rmult_le_compat_l; lra. }
    assert (R2 : Cmod (fl_mul a (RtoC x) w - RtoC x * w)%C <= eps * (1 + Y * (B + A))).
    { eapply Rle_trans; [apply (ro_mul _ _ _ HR); [rewrite Cmod_R; lra|lra|lra]|]. apply Rmult_le_compat_l; lra. }
    assert (R3 : Cmod (fl_mul a (RtoC x) w - RtoC x' * w)%C <= eps * (1 + Y * (B + A))).
    { rewrite (sc_mul Ha x w). eapply Rle_trans; [apply (ro_mul _ _ _ HR); [rewrite Cmod_R; fold x'; lra|lra|fold x'; lra]|]. fold x'. apply Rmult_le_compat_l; lra. }
    assert (R4 : Cmod (RtoC (x / q) * g - RtoC (x / q) * f)%C <= Rabs x * (A * eps)).
    { replace (RtoC (x / q) * g - RtoC (x / q) * f)%C with (RtoC (x / q) * (g - f))%C by ring. rewrite Cmod_mult, Eq.
      apply Rmult_le_compat; [apply Rmult_le_pos; lra|apply Cmod_ge_0|apply Sm; exact Px|exact H2]. }
    rewrite E2 in R4.
    replace (fl_mul a (RtoC (x' / q)) g - RtoC (x / q) * f)%C with
      ((fl_mul a (RtoC (x' / q)) g - RtoC x' * w) + ((- (fl_mul a (RtoC x) w - RtoC x' * w) + (fl_mul a (RtoC x) w - RtoC x * w)) + (RtoC x * w - RtoC (x / q) * f)))%C by ring.
    eapply Rle_trans; [apply Cmod_triangle|]. assert (Z := Cmod_triangle (- (fl_mul a (RtoC x) w - RtoC x' * w) + (fl_mul a (RtoC x) w - RtoC x * w))%C (RtoC x * w - RtoC (x / q) * f)%C).
    assert (Z2 := Cmod_triangle (- (fl_mul a (RtoC x) w - RtoC x' * w))%C (fl_mul a (RtoC x) w - RtoC x * w)%C). rewrite Cmod_opp in Z2.
    apply Rle_trans with (3 * (eps * (1 + Y * (B + A))) + Rabs x * (A * eps)); [lra|]. right. ring.
Qed.

(** ** Errors of one step *)
(** The candidate without its last term. *)
Definition dp_p (A : aops Rops) (h : R) (L u NL1 NL3 NL4 NL5 : vec A) : vec A :=
  let c := dpc A h L in
  vadd (vadd (vadd (vadd (vmul (dp_EL c) u) (vmul (dp_a71 c) NL1)) (vmul (dp_a73 c) NL3)) (vmul (dp_a74 c) NL4)) (vmul (dp_a75 c) NL5).
Section StepError.
  Variables n q : nat.
  Variable L : nat -> nat -> C.
  Variable lam : cvec.
  Variable N : cvec -> cvec.
  Variables t0 t1 rho K : R.
  Variable u : R -> cvec.
  Variable fd : nat -> R -> cvec.
  Variable J : R -> cvec -> cvec.
  Hypothesis HS : smooth n q L N t0 t1 rho K u fd J.
  Variable kap : R.
  Hypothesis Hkap : 0 <= kap.
  Definition PX64 (i : inst cvec) : Prop := Ldiag n lam kap i /\ scalars64 (i_a i).
  Notation ok := (ok n PX64 N t0 t1 rho u kap).
  Lemma ok_L64 : ok (fun _ => lam) i_L.
  Proof.
    destruct (vle_exists n lam) as (x & Hx & H). exists x, kap. split; [exact Hx|]. split; [exact Hkap|]. apply (ev_all n). intros i Hi j Hj.
    split; [apply H; exact Hj|]. apply (proj1 (va_L _ _ _ _ _ _ _ _ _ _ Hi)). exact Hj.
  Qed.
  Lemma oh_hL64 : oh n PX64 N t0 t1 rho u kap (fun i => vscal (A := Cops) (i_h i) lam).
  Proof. apply oh_scal; [apply soh_h|]. eapply ok_bnd; apply ok_L64. Qed.
  Lemma ok_twice f g : ok f g -> ok (fun i => vscal (A := Cops) (tdiv Rops (tmul Rops (tofZ Rops 11) (i_h i)) (tofZ Rops 84)) (f i))
                                    (fun i => vscal (A := Fops (i_a i)) (rnd (rnd (11 * i_h i) / 84)) (g i)).
  Proof.
    intros (B & A & HB & HA & H). assert (HT := so_time _ _ _ _ _ _ _ _ _ _ _ HS). set (X := 11 * (t1 - t0)). assert (PX0 : 0 <= X) by (unfold X; lra).
    exists (X * B), (3 + 3 * ((2 * X + 1) * (B + A)) + X * A). 
    assert (P1 : 0 <= (2 * X + 1) * (B + A)) by (apply Rmult_le_pos; lra). assert (P2 : 0 <= X * A) by (apply Rmult_le_pos; lra).
    split; [apply Rmult_le_pos; assumption|]. split; [lra|].
    generalize (ev_and n _ _ _ _ _ _ _ _ _ _ H (ev_and n _ _ _ _ _ _ _ _ _ _ (ev_e n _ PX64 N t0 t1 rho u kap 1 Rlt_0_1) (ev_O n _ PX64 N t0 t1 rho u kap ((2 * X + 1) * (B + A + 1) + X + 1 + B + A)))).
    apply ev_mono. intros i Hi (G & E & O) j Hj. destruct (va_h _ _ _ _ _ _ _ _ _ _ Hi) as [Hh1 Hh2].
    assert (Hx : Rabs (11 * i_h i) <= X) by (rewrite Rabs_pos_eq; unfold X; lra).
    assert (Px := Rabs_pos (11 * i_h i)).
    assert (Q := twice_near (i_a i) (i_eps i) (i_Om i) 84 (11 * i_h i) B A (f i j) (g i j) (va_a _ _ _ _ _ _ _ _ _ _ Hi) (proj2 (va_L _ _ _ _ _ _ _ _ _ _ Hi))
       ltac:(lra) (conj (va_e _ _ _ _ _ _ _ _ _ _ Hi) E) HB HA (G j Hj)).
    assert (M1 : (2 * Rabs (11 * i_h i) + 1) * (B + A + 1) <= (2 * X + 1) * (B + A + 1)) by (apply Rmult_le_compat_r; lra).
    assert (M2 : (2 * Rabs (11 * i_h i) + 1) * (B + A) <= (2 * X + 1) * (B + A)) by (apply Rmult_le_compat_r; lra).
    assert (M3 : Rabs (11 * i_h i) * A <= X * A) by (apply Rmult_le_compat_r; lra).
    assert (M4 : Rabs (11 * i_h i) * B <= X * B) by (apply Rmult_le_compat_r; lra).
    specialize (Q ltac:(lra)). destruct Q as [Q1 Q2]. split; [eapply Rle_trans; [exact Q1|exact M4]|].
    eapply Rle_trans; [exact Q2|]. apply Rmult_le_compat_r; [exact (va_e _ _ _ _ _ _ _ _ _ _ Hi)|]. lra.
  Qed.

  Ltac ok_step := first
    [ eassumption
    | lazymatch goal with
      | |- Rounding.ok _ _ _ _ _ _ _ _ (fun i => vadd (@?x i) (@?y i)) _ => apply ok_add
      | |- Rounding.ok _ _ _ _ _ _ _ _ (fun i => vsub (@?x i) (@?y i)) _ => apply ok_sub
      | |- Rounding.ok _ _ _ _ _ _ _ _ (fun i => vmul (@?x i) (@?y i)) _ => apply ok_mul
      | |- Rounding.ok _ _ _ _ _ _ _ _ (fun i => vscal (@?x i) (@?y i)) _ => apply ok_scal
      | |- Rounding.ok _ _ _ _ _ _ _ _ (fun i => vscalz (@?x i) (@?y i)) _ => apply ok_scal
      | |- Rounding.ok _ _ _ _ _ _ _ _ (fun i => vdivz (@?x i) _) _ => apply ok_divz
      | |- Rounding.ok _ _ _ _ _ _ _ _ (fun i => vexp (@?x i)) _ => apply ok_exp
      end
    | apply (ok_v n q L _ (PX64) N t0 t1 rho K u fd J HS) | apply ok_L64
    | apply sbnd_Z | apply (soh_bnd n q L _ (PX64) N t0 t1 rho K u fd J HS) | apply soh_h | apply soh_mul | apply soh_mul' | apply soh_div ].
  Ltac ok_tac := repeat ok_step.
  Ltac bnd_tac := match goal with |- Rounding.bnd _ _ _ _ _ _ _ _ _ => eapply ok_bnd end; ok_tac.

  Ltac dp_open := unfold dp_s2, dp_s3, dp_s4, dp_s5, dp_s6, dp_k, dp_err, dpc, dp_coeffs; cbv zeta;
    cbn [snd dp_EL15 dp_EL310 dp_EL45 dp_EL89 dp_EL dp_a21 dp_a31 dp_a32 dp_a41 dp_a42 dp_a43 dp_a51 dp_a52 dp_a53 dp_a54
      dp_a61 dp_a62 dp_a63 dp_a64 dp_a65 dp_a71 dp_a73 dp_a74 dp_a75 dp_a76 dp_r1 dp_r3 dp_r4 dp_r5 dp_r6 dp_r7].
  Ltac oh_step := lazymatch goal with
      | |- Rounding.tube _ _ _ _ _ _ _ _ (fun i => vadd (@?x i) (@?y i)) => apply tube_add
      | |- Rounding.tube _ _ _ _ _ _ _ _ (fun i => vmul (@?x i) (@?y i)) => apply (tube_exp n q L _ (PX64) N t0 t1 rho K u fd J HS); [|assumption|assumption]
      | |- Rounding.oh _ _ _ _ _ _ _ _ (fun i => vmul (@?x i) (@?y i)) => apply oh_mul_l
      | |- Rounding.oh _ _ _ _ _ _ _ _ (fun i => vdivz (@?x i) _) => apply oh_divz
      | |- Rounding.oh _ _ _ _ _ _ _ _ (fun i => vscalz _ (@?x i)) => apply oh_scalz
      | |- Rounding.oh _ _ _ _ _ _ _ _ (fun i => vscal (@?x i) (@?y i)) => first [exact oh_hL64 | apply oh_scal]
      | |- Rounding.soh _ _ _ _ _ _ _ _ _ => first [apply soh_h | apply soh_mul | apply soh_mul' | apply soh_div]
      | |- Rounding.bnd _ _ _ _ _ _ _ _ _ => eapply ok_bnd; ok_tac
      end.
  Ltac oh_tac := repeat oh_step.


  (** The candidate. *)
  Lemma dp_ok64 :
    ok (fun i => fst (dp_form (A := Cops) N (dpc Cops (i_h i) lam) (i_v i) (N (i_v i))))
       (fun i => fst (dp_form (A := Fops (i_a i)) (i_N i) (dpc64 (i_a i) (i_h i) (i_L i)) (i_v i) (i_N i (i_v i)))).
  Proof.
    assert (T0 := tube_v n _ (PX64) N t0 t1 rho u kap). assert (Kv := ok_v n q L _ (PX64) N t0 t1 rho K u fd J HS kap).
    assert (Bv := ok_bnd n _ (PX64) N t0 t1 rho u kap _ _ Kv).
    set (X1 := fun i : inst cvec => N (i_v i)). set (Y1 := fun i : inst cvec => i_N i (i_v i)).
    assert (K1 : ok X1 Y1) by (apply (ok_N n q L _ (PX64) N t0 t1 rho K u fd J HS kap Hkap); assumption).
    set (X2 := fun i : inst cvec => N (dp_s2 Cops (i_h i) lam (i_v i) (X1 i))). set (Y2 := fun i : inst cvec => i_N i (dp_s2 (Fops (i_a i)) (i_h i) (i_L i) (i_v i) (Y1 i))).
    assert (K2 : ok X2 Y2) by (apply (ok_N n q L _ (PX64) N t0 t1 rho K u fd J HS kap Hkap); dp_open; [ok_tac|oh_tac]).
    set (X3 := fun i : inst cvec => N (dp_s3 Cops (i_h i) lam (i_v i) (X1 i) (X2 i))). set (Y3 := fun i : inst cvec => i_N i (dp_s3 (Fops (i_a i)) (i_h i) (i_L i) (i_v i) (Y1 i) (Y2 i))).
    assert (K3 : ok X3 Y3) by (apply (ok_N n q L _ (PX64) N t0 t1 rho K u fd J HS kap Hkap); dp_open; [ok_tac|oh_tac]).
    set (X4 := fun i : inst cvec => N (dp_s4 Cops (i_h i) lam (i_v i) (X1 i) (X2 i) (X3 i))). set (Y4 := fun i : inst cvec => i_N i (dp_s4 (Fops (i_a i)) (i_h i) (i_L i) (i_v i) (Y1 i) (Y2 i) (Y3 i))).
    assert (K4 : ok X4 Y4) by (apply (ok_N n q L _ (PX64) N t0 t1 rho K u fd J HS kap Hkap); dp_open; [ok_tac|oh_tac]).
    set (X5 := fun i : inst cvec => N (dp_s5 Cops (i_h i) lam (i_v i) (X1 i) (X2 i) (X3 i) (X4 i))). set (Y5 := fun i : inst cvec => i_N i (dp_s5 (Fops (i_a i)) (i_h i) (i_L i) (i_v i) (Y1 i) (Y2 i) (Y3 i) (Y4 i))).
    assert (K5 : ok X5 Y5) by (apply (ok_N n q L _ (PX64) N t0 t1 rho K u fd J HS kap Hkap); dp_open; [ok_tac|oh_tac]).
    set (X6 := fun i : inst cvec => N (dp_s6 Cops (i_h i) lam (i_v i) (X1 i) (X2 i) (X3 i) (X4 i) (X5 i))). set (Y6 := fun i : inst cvec => i_N i (dp_s6 (Fops (i_a i)) (i_h i) (i_L i) (i_v i) (Y1 i) (Y2 i) (Y3 i) (Y4 i) (Y5 i))).
    assert (K6 : ok X6 Y6) by (apply (ok_N n q L _ (PX64) N t0 t1 rho K u fd J HS kap Hkap); dp_open; [ok_tac|oh_tac]).
    set (Xp := fun i : inst cvec => dp_p Cops (i_h i) lam (i_v i) (X1 i) (X3 i) (X4 i) (X5 i)).
    set (Yp := fun i : inst cvec => dp_p (Fops (i_a i)) (i_h i) (i_L i) (i_v i) (Y1 i) (Y3 i) (Y4 i) (Y5 i)).
    assert (Kp : ok Xp Yp) by (unfold Xp, Yp, dp_p; dp_open; ok_tac).
    exact (ok_add n _ PX64 N t0 t1 rho u kap Xp Yp _ _ Kp (ok_twice X6 Y6 K6)).
  Qed.
End StepError.
