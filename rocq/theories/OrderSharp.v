(** * Lower bounds for the accumulated error

    Spec file: if the local errors of a method along a solution all point in one direction, with size at least
    [kappa h^q], then the errors after many steps of size [h] are not [O(h^q)]. *)

From Coq Require Import ZArith List Bool Reals Lra Lia QArith Qreals FunctionalExtensionality Setoid Morphisms.
From Coquelicot Require Import Complex.
From Verif Require Import CInst SpecRK SpecERK SchemeIFReal ContourReal ContourMatrix Asym Solution Stable Converge.
Import ListNotations.
Local Open Scope R_scope.

Section Sharp.
  Variables n p : nat.
  Variable L : nat -> nat -> C.
  Variable N : cvec -> cvec.
  Variables t0 tf rho K : R.
  Variable u : R -> cvec.
  Variable f : nat -> R -> cvec.
  Variable J : R -> cvec -> cvec.
  Hypothesis HS : smooth n p L N t0 tf rho K u f J.
  Variable m : erk.
  Variables A h : R.
  Variable S : nat.
  Hypothesis HA : 0 <= A.
  Hypothesis Hh : 0 < h.
  Hypothesis Hhm : h <= hmax A K rho S.
  Hypothesis Hcl : erk_close n A S h 0 m m.
  Notation step := (erk_step m N h).
  Notation D := (Cst A K rho S).

  (** The increments of two steps differ by little. *)
  Lemma erk_incr t a x : t0 <= t <= tf -> 0 <= x <= rho / 2 -> vle n (csub a (u t)) x ->
    vle n (csub (csub (step a) (step (u t))) (csub a (u t))) (D * h * x).
  Proof.
    intros Ht Hx Ha. set (b := u t) in *. destruct Hcl as [H1 H2 _ _ H5 H6 H7 H8 H9].
    assert (HK := so_K _ _ _ _ _ _ _ _ _ _ _ HS). assert (Hr := so_rho _ _ _ _ _ _ _ _ _ _ _ HS).
    assert (HN : vle n (N b) K).
    { apply (vle_ext n (f 0%nat t)); [apply (so_f0 _ _ _ _ _ _ _ _ _ _ _ HS); exact Ht|].
      apply (so_bnd _ _ _ _ _ _ _ _ _ _ _ HS); [lia|exact Ht]. }
    assert (Hlip := fun v w x => fun Hx Hv Hw => so_lip _ _ _ _ _ _ _ _ _ _ _ HS t v w x Ht Hx Hv Hw).
    assert (Hself : vle n (csub b b) (rho / 2)) by (apply (vle_mono n _ 0); [apply vle_eq_0; reflexivity|lra]).
    assert (Ha2 : vle n (csub a b) (rho / 2)) by (apply (vle_mono n _ x); [exact Ha|lra]).
    assert (He : 0 <= 0 <= 1) by lra.
    assert (G := stages_diff n N A K rho S HA HK Hr b (so_u _ _ _ _ _ _ _ _ _ _ _ HS t Ht) HN Hlip h 0 Hh Hhm He a b x Ha2 Hself (proj1 Hx) Ha
                   (er_E m) (er_a m) (er_a m) [] [] 0 H1 H5 H8 (Forall_nil _) (Forall2_nil _)).
    cbn [Nat.add] in G. rewrite Rplus_0_r in G. set (k := length (er_a m)) in *.
    assert (DP := Dn_pos A K rho S HA HK Hr k). assert (DK := Dn_mono A K rho S HA HK Hr k S H7).
    assert (P : 0 <= Dn A K rho S k * x) by (apply Rmult_le_pos; lra).
    assert (KP := Kn_pos K rho HK Hr).
    assert (Q := ocomb_diff n A 0 (Kn K rho) _ HA (Rle_refl 0) KP P (er_b m) (er_b m) _ _ H6 G).
    destruct H2 as (E1 & E2).
    apply (vle_ext n (cadd (csub (er_E1 m (csub a b)) (csub a b))
             (rscal h (csub (ocomb (er_b m) (erk_stages N h a (er_E m) (er_a m) [])) (ocomb (er_b m) (erk_stages N h b (er_E m) (er_a m) [])))))).
    { intros i Hi. unfold erk_step, erk_value, cadd. unfold csub at 1. rewrite (rl_sub n (er_E1 m) a b E1 i Hi). unfold csub, cscal. ring. }
    eapply vle_mono; [apply vle_add; [exact (E2 _ x (proj1 Hx) Ha)|apply vle_rscal; exact Q]|].
    rewrite (Rabs_pos_eq h) by lra. rewrite Rmult_0_l, Rplus_0_r. unfold Cst.
    assert (I := le_INR _ _ H9). assert (IS := pos_INR S).
    assert (M1 : A * (Dn A K rho S k * x) <= A * (Dn A K rho S S * x)) by (apply Rmult_le_compat_l; [exact HA|]; apply Rmult_le_compat_r; lra).
    assert (M0 : 0 <= A * (Dn A K rho S k * x)) by (apply Rmult_le_pos; assumption).
    assert (M2 : INR (length (er_b m)) * (A * (Dn A K rho S k * x)) <= INR S * (A * (Dn A K rho S S * x))) by (apply Rmult_le_compat; try lra; apply pos_INR).
    assert (M3 : h * (INR (length (er_b m)) * (A * (Dn A K rho S k * x))) <= h * (INR S * (A * (Dn A K rho S S * x)))) by (apply Rmult_le_compat_l; lra).
    assert (M4 : 0 <= h * (INR S * Kn K rho * x)) by (apply Rmult_le_pos; [lra|]; apply Rmult_le_pos; [apply Rmult_le_pos; lra|lra]).
    lra.
  Qed.

  (** The errors grow by the local errors. *)
  Variable i : nat.
  Hypothesis Hi : (i < n)%nat.
  Variables lam B : R.
  Hypothesis Hloc : forall t, t0 <= t -> t + h <= tf -> lam <= fst (csub (step (u t)) (u (t + h)) i).
  Hypothesis HB : 0 <= B <= rho / 2.
  Notation err j := (csub (Nat.iter j step (u t0)) (u (t0 + INR j * h))).
  Lemma errors_grow k : t0 + INR k * h <= tf -> (forall j, (j <= k)%nat -> vle n (err j) B) -> INR k * (lam - D * h * B) <= fst (err k i).
  Proof.
    induction k as [|k IH]; intros Hk Hall.
    - cbn [Nat.iter]. change (INR 0) with 0. rewrite !Rmult_0_l, Rplus_0_r. unfold csub. cbn. lra.
    - assert (IK : 0 <= INR k) by apply pos_INR. rewrite S_INR in Hk.
      assert (Pk : 0 <= INR k * h) by (apply Rmult_le_pos; lra).
      assert (G := IH ltac:(lra) (fun j Hj => Hall j ltac:(lia))).
      assert (X := erk_incr (t0 + INR k * h) (Nat.iter k step (u t0)) B ltac:(lra) HB (Hall k ltac:(lia)) i Hi).
      assert (Y := Hloc (t0 + INR k * h) ltac:(lra) ltac:(lra)). cbn beta in X.
      assert (Z := Rle_trans _ _ _ (proj1 (parts_Cmod _)) X).
      change (Nat.iter (Datatypes.S k) step (u t0)) with (step (Nat.iter k step (u t0))). rewrite S_INR. replace (t0 + (INR k + 1) * h) with (t0 + INR k * h + h) by ring.
      unfold csub in *. cbn [fst snd Cminus Cplus Copp] in *. revert Z. unfold Rabs. destruct (Rcase_abs _); intros Z; lra.
  Qed.
End Sharp.

(** Errors of size [C h^q] at all times contradict local errors of size [kappa h^q] in one direction. *)
Theorem order_sharp n p L N t0 tf rho K u f J (HS : smooth n p L N t0 tf rho K u f J) (m : R -> erk) A S q i kappa h1 C hb T :
  0 <= A -> (0 < q)%nat -> (forall h, 0 < h <= tf - t0 -> erk_close n A S h 0 (m h) (m h)) ->
  (i < n)%nat -> 0 < kappa -> 0 < h1 ->
  (forall t h, t0 <= t -> 0 < h <= h1 -> t + h <= tf -> kappa * h ^ q <= fst (csub (erk_step (m h) N h (u t)) (u (t + h)) i)) ->
  0 <= C -> 0 < hb -> 0 < T -> t0 + T <= tf ->
  ~ (forall k h, (0 < k)%nat -> 0 < h <= hb -> INR k * h = T -> forall j, (j <= k)%nat ->
       vle n (csub (Nat.iter j (erk_step (m h) N h) (u t0)) (u (t0 + INR j * h))) (C * h ^ q)).
Proof.
  intros HA Hq Hcl Hi Hk Hh1 Hloc HC Hhb HT HTf Hall.
  assert (HK := so_K _ _ _ _ _ _ _ _ _ _ _ HS). assert (Hr := so_rho _ _ _ _ _ _ _ _ _ _ _ HS).
  set (D := Cst A K rho S). assert (HD : 0 <= D) by (apply Cst_pos; assumption).
  set (hm := hmax A K rho S). assert (Hhm : 0 < hm) by (apply hmax_pos; assumption).
  assert (DC : 0 <= D * C) by (apply Rmult_le_pos; assumption). assert (TDC : 0 <= T * (D * C)) by (apply Rmult_le_pos; lra).
  set (h3 := T * kappa / (2 * (C + T * (D * C) + 1))).
  assert (TK : 0 < T * kappa) by (apply Rmult_lt_0_compat; lra).
  assert (H3 : 0 < h3) by (apply Rdiv_lt_0_compat; lra).
  set (h4 := rho / 2 / (C + 1)). assert (H4 : 0 < h4) by (apply Rdiv_lt_0_compat; lra).
  set (hh := Rmin (Rmin (Rmin hb h1) (Rmin hm 1)) (Rmin h3 h4)).
  assert (Hhh : 0 < hh) by (unfold hh; clearbody hm h3 h4; repeat apply Rmin_glb_lt; lra).
  destruct (archimed (T / hh)) as [Ar _]. assert (TH : 0 < T / hh) by (apply Rdiv_lt_0_compat; lra).
  set (k := Z.to_nat (up (T / hh))).
  assert (Uz : (0 < up (T / hh))%Z) by (apply lt_IZR; apply Rlt_trans with (T / hh); assumption).
  assert (Ik : INR k = IZR (up (T / hh))) by (unfold k; rewrite INR_IZR_INZ, Z2Nat.id by lia; reflexivity).
  assert (Ik0 : 0 < INR k) by (rewrite Ik; apply Rlt_trans with (T / hh); assumption).
  assert (k0 : (0 < k)%nat) by (apply INR_lt; exact Ik0).
  set (h := T / INR k). assert (Hh : 0 < h) by (apply Rdiv_lt_0_compat; lra).
  assert (Ekh : INR k * h = T) by (unfold h; field; lra).
  assert (Hle : h <= hh).
  { unfold h. apply Rmult_le_reg_r with (INR k); [exact Ik0|]. replace (T / INR k * INR k) with (T / hh * hh) by (field; lra).
    rewrite (Rmult_comm hh). apply Rmult_le_compat_r; lra. }
  assert (A1 := Rmin_l (Rmin (Rmin hb h1) (Rmin hm 1)) (Rmin h3 h4)). assert (A2 := Rmin_r (Rmin (Rmin hb h1) (Rmin hm 1)) (Rmin h3 h4)).
  assert (A3 := Rmin_l (Rmin hb h1) (Rmin hm 1)). assert (A4 := Rmin_r (Rmin hb h1) (Rmin hm 1)).
  assert (A5 := Rmin_l hb h1). assert (A6 := Rmin_r hb h1). assert (A7 := Rmin_l hm 1). assert (A8 := Rmin_r hm 1).
  assert (A9 := Rmin_l h3 h4). assert (A10 := Rmin_r h3 h4). fold hh in A1, A2.
  assert (IK1 : 1 <= INR k) by (change 1 with (INR 1); apply le_INR; lia).
  assert (hT : h <= T) by (rewrite <- Ekh; apply Rle_trans with (1 * h); [lra|]; apply Rmult_le_compat_r; lra).
  assert (Pq : 0 < h ^ q) by (apply pow_lt; exact Hh).
  assert (Pq1 : h ^ q <= h).
  { destruct q as [|q']; [lia|]. cbn [pow]. apply Rle_trans with (h * 1); [|lra]. apply Rmult_le_compat_l; [lra|]. rewrite <- (pow1 q'). apply pow_incr. lra. }
  assert (HB : 0 <= C * h ^ q <= rho / 2).
  { split; [apply Rmult_le_pos; lra|]. apply Rle_trans with (C * h4); [apply Rmult_le_compat_l; lra|].
    unfold h4. apply Rle_trans with ((C + 1) * (rho / 2 / (C + 1))); [apply Rmult_le_compat_r; [fold h4; lra|lra]|right; field; lra]. }
  assert (G := errors_grow n p L N t0 tf rho K u f J HS (m h) A h S HA Hh ltac:(fold hm; lra) (Hcl h ltac:(lra)) i Hi (kappa * h ^ q) (C * h ^ q)
                 (fun t Ht1 Ht2 => Hloc t h Ht1 ltac:(lra) Ht2) HB k ltac:(lra) (Hall k h k0 ltac:(lra) Ekh)).
  assert (E := Hall k h k0 ltac:(lra) Ekh k (Nat.le_refl k) i Hi). cbn beta in E.
  assert (E' := Rle_trans _ _ _ (proj1 (parts_Cmod _)) E).
  assert (E2 : fst (csub (Nat.iter k (erk_step (m h) N h) (u t0)) (u (t0 + INR k * h)) i) <= C * h ^ q).
  { revert E'. unfold Rabs. destruct (Rcase_abs _); intros; lra. }
  fold D in G.
  assert (F : (INR k * (kappa - D * h * C)) * h ^ q <= C * h ^ q) by (eapply Rle_trans; [|exact (Rle_trans _ _ _ G E2)]; right; ring).
  apply Rmult_le_reg_r in F; [|exact Pq].
  assert (F2 : INR k * (kappa - D * h * C) * h <= C * h) by (apply Rmult_le_compat_r; lra).
  assert (F3 : INR k * (kappa - D * h * C) * h = T * kappa - T * (D * C) * h) by (rewrite <- Ekh; ring).
  assert (F4 : T * kappa <= (C + T * (D * C)) * h) by lra.
  assert (F5 : (C + T * (D * C)) * h <= (C + T * (D * C) + 1) * h3) by (apply Rmult_le_compat; lra).
  assert (F6 : (C + T * (D * C) + 1) * h3 = T * kappa / 2) by (unfold h3; field; lra). lra.
Qed.
