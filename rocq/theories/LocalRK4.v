(** * Local error of the integrating-factor method with Kutta's tableau

    Spec file: one step of the Lawson method with the classical fourth-order tableau, started on a
    smooth solution, misses the solution by [O(h^5)]. *)

From Coq Require Import ZArith List Bool Reals Lra Lia QArith Qreals FunctionalExtensionality Setoid Morphisms.
From Coquelicot Require Import Hierarchy Derive Complex Continuity.
From Verif Require Import CInst SpecRK SchemeIFReal SpecPhi Asym Solution.
Import ListNotations.
Local Open Scope R_scope.

(** Equal entry by entry, by field arithmetic on the real and imaginary parts. *)
Ltac gen_entries :=
  repeat match goal with
  | |- context [?v ?i] =>
      match type of v with nat -> C => idtac | cvec => idtac end;
      match type of i with nat => idtac end;
      let x := fresh "x" in set (x := v i) in *; clearbody x
  end.
Ltac split_C := repeat match goal with x : C |- _ => destruct x end.
Ltac c_field := split_C; apply C_eq; cbn; field.
Ltac v_unfold := unfold cadd, csub, cscal, vtay, czero; cbn [csum fact Nat.mul Nat.add INR pow ychain].
Ltac v_field := v_unfold; gen_entries; c_field.

Section RK4Local.
  Variables n p : nat.
  Variable L : nat -> nat -> C.
  Variable Ex : R -> nat -> nat -> C.
  Variable N : cvec -> cvec.
  Variables t0 tf rho K : R.
  Variable u : R -> cvec.
  Variable f : nat -> R -> cvec.
  Variable J : R -> cvec -> cvec.
  Hypothesis HF : matflow n L Ex.
  Hypothesis HS : smooth n p L N t0 tf rho K u f J.
  Notation E := (mflow n Ex).
  Notation adm := (adm t0 tf).
  Notation O := (bigO n R adm).
  Notation OO := (opO n R adm).
  Notation kd := (kd n L Ex f).
  Notation yd := (yd n Ex u).
  Notation gfun := (gfun n Ex N).
  Notation Gop := (Gop n Ex J).
  Notation Srem := (Srem n Ex N u J).
  Let ap := adm_pos t0 tf.

  (** The stages, as functions of the time and the step. *)
  Definition K1 (t h : R) : cvec := gfun 0 (u t).
  Definition Y2 t h := cadd (u t) (rscal (h / 2) (K1 t h)).
  Definition K2 t h := gfun (1/2 * h) (Y2 t h).
  Definition Y3 t h := cadd (u t) (rscal (h / 2) (K2 t h)).
  Definition K3 t h := gfun (1/2 * h) (Y3 t h).
  Definition Y4 t h := cadd (u t) (rscal h (K3 t h)).
  Definition K4 t h := gfun (1 * h) (Y4 t h).
  Definition Y5 t h := cadd (u t) (rscal (h / 6) (cadd (K1 t h) (cadd (rscal 2 (K2 t h)) (cadd (rscal 2 (K3 t h)) (K4 t h))))).

  Lemma rk4_stages t h : rk_step RK4 (fun t w => E (- t) (N (E t w))) 0 h (u t) = Y5 t h.
  Proof.
    unfold rk_step, RK4. cbn [tb_a tb_b tb_c rk_stages app lincomb].
    assert (E0 : Q2R 0 = 0) by (unfold Q2R; cbn; lra). assert (E1 : Q2R 1 = 1) by (unfold Q2R; cbn; lra).
    assert (E2 : Q2R (1#2) = 1/2) by (unfold Q2R; cbn; lra). assert (E6 : Q2R (1#6) = 1/6) by (unfold Q2R; cbn; lra).
    assert (E3 : Q2R (1#3) = 1/3) by (unfold Q2R; cbn; lra). rewrite E0, E1, E2, E3, E6.
    rewrite !Rplus_0_l, Rmult_0_l.
    assert (X1 : (fun i => u t i + RtoC h * 0)%C = u t) by (apply functional_extensionality; intros i; ring).
    assert (S1 : E (- 0) (N (E 0 (fun i : nat => (u t i + RtoC h * 0)%C))) = K1 t h) by (rewrite X1; reflexivity).
    rewrite S1.
    assert (S2 : E (- (1 / 2 * h)) (N (E (1 / 2 * h) (fun i : nat => (u t i + RtoC h * (RtoC (1 / 2) * K1 t h i + 0))%C))) = K2 t h).
    { unfold K2, Y2. unfold Solution.gfun. do 3 f_equal. apply functional_extensionality; intros i. v_field. }
    rewrite S2.
    assert (S3 : E (- (1 / 2 * h)) (N (E (1 / 2 * h) (fun i : nat => (u t i + RtoC h * (RtoC 0 * K1 t h i + (RtoC (1 / 2) * K2 t h i + 0)))%C))) = K3 t h).
    { unfold K3, Y3. unfold Solution.gfun. do 3 f_equal. apply functional_extensionality; intros i. v_field. }
    rewrite S3.
    assert (S4 : E (- (1 * h)) (N (E (1 * h) (fun i : nat => (u t i + RtoC h * (RtoC 0 * K1 t h i + (RtoC 0 * K2 t h i + (RtoC 1 * K3 t h i + 0))))%C))) = K4 t h).
    { unfold K4, Y4. unfold Solution.gfun. do 3 f_equal. apply functional_extensionality; intros i. v_field. }
    rewrite S4. unfold Y5. apply functional_extensionality; intros i. v_field.
  Qed.

  Lemma K1_kd t h : t0 <= t <= tf -> veq (below n) (K1 t h) (kd 0 t 0).
  Proof.
    intros Ht. unfold K1, Solution.gfun, Solution.kd. cbn [Fd]. rewrite Rplus_0_r.
    apply (lin_ext _ _ (flow_lin _ _ (mf_flow n L Ex HF) (- 0))).
    transitivity (N (u t)); [|symmetry; apply (so_f0 _ _ _ _ _ _ _ _ _ _ _ HS); exact Ht].
    apply (so_N _ _ _ _ _ _ _ _ _ _ _ HS). apply (flow_0 _ _ (mf_flow n L Ex HF)).
  Qed.

  (** Stage errors in the transformed variable. *)
  Definition e2 t h := csub (Y2 t h) (yd t (1/2 * h)).
  Definition e3 t h := csub (Y3 t h) (yd t (1/2 * h)).
  Definition e4 t h := csub (Y4 t h) (yd t (1 * h)).
  Definition s2 t h := Srem (1/2) t h (e2 t h).
  Definition s3 t h := Srem (1/2) t h (e3 t h).
  Definition s4 t h := Srem 1 t h (e4 t h).
  Definition km t h := kd 0 t (1/2 * h).
  Definition k1 t h := kd 0 t (1 * h).
  Let half : 0 <= 1/2 <= 1. Proof. lra. Qed.
  Let one : 0 <= 1 <= 1. Proof. lra. Qed.

  Lemma K2_eq t h : adm t h -> veq (below n) (K2 t h) (cadd (km t h) (cadd (Gop (1/2) t h (e2 t h)) (s2 t h))).
  Proof. intros Ha. apply (stage_expand n p L Ex N t0 tf rho K u f J HF HS (1/2) t h (Y2 t h) half Ha). Qed.
  Lemma K3_eq t h : adm t h -> veq (below n) (K3 t h) (cadd (km t h) (cadd (Gop (1/2) t h (e3 t h)) (s3 t h))).
  Proof. intros Ha. apply (stage_expand n p L Ex N t0 tf rho K u f J HF HS (1/2) t h (Y3 t h) half Ha). Qed.
  Lemma K4_eq t h : adm t h -> veq (below n) (K4 t h) (cadd (k1 t h) (cadd (Gop 1 t h (e4 t h)) (s4 t h))).
  Proof. intros Ha. apply (stage_expand n p L Ex N t0 tf rho K u f J HF HS 1 t h (Y4 t h) one Ha). Qed.

  (** Remainders of the Taylor expansions. *)
  Definition rk (th : R) m t h := csub (kd 0 t (th * h)) (vtay (fun k => kd k t 0) m (th * h)).
  Definition ry (th : R) m t h := csub (yd t (th * h)) (vtay (ychain n L Ex u f t) m (th * h)).
  Lemma rk_O th m : (m <= p)%nat -> 0 <= th <= 1 -> O m (rk th m).
  Proof. intros Hm Hth. apply (kd_taylor n p L Ex N t0 tf rho K u f J HF HS 0 m th); [lia|exact Hth]. Qed.
  Lemma ry_O th m : (0 < m)%nat -> (m <= S p)%nat -> 0 <= th <= 1 -> O m (ry th m).
  Proof. intros H1 H2 Hth. apply (yd_taylor n p L Ex N t0 tf rho K u f J HF HS); assumption. Qed.

  Lemma adm_t t h : adm t h -> t0 <= t <= tf.
  Proof. intros (H1 & H2 & H3). lra. Qed.

  Lemma e2_eq t h i : adm t h -> (i < n)%nat -> e2 t h i = (u t i + RtoC (h / 2) * kd 0 t 0 i - yd t (1/2 * h) i)%C.
  Proof. intros Ha Hi. unfold e2, Y2. v_unfold. rewrite (K1_kd t h (adm_t t h Ha) i Hi). reflexivity. Qed.
  Lemma e3_eq t h i : adm t h -> (i < n)%nat ->
    e3 t h i = (u t i + RtoC (h / 2) * (km t h i + (Gop (1/2) t h (e2 t h) i + s2 t h i)) - yd t (1/2 * h) i)%C.
  Proof. intros Ha Hi. unfold e3, Y3. v_unfold. rewrite (K2_eq t h Ha i Hi). reflexivity. Qed.
  Lemma e4_eq t h i : adm t h -> (i < n)%nat ->
    e4 t h i = (u t i + RtoC h * (km t h i + (Gop (1/2) t h (e3 t h) i + s3 t h i)) - yd t (1 * h) i)%C.
  Proof. intros Ha Hi. unfold e4, Y4. v_unfold. rewrite (K3_eq t h Ha i Hi). reflexivity. Qed.

  Lemma e2_O : (1 <= p)%nat -> O 2 e2.
  Proof.
    intros Hp.
    eapply O_ext; [|apply (O_const n R adm ap (-1) 2 _ (ry_O (1/2) 2 ltac:(lia) ltac:(lia) half))].
    intros t h Ha i Hi. unfold e2, ry, Y2. v_unfold. rewrite (K1_kd t h (adm_t t h Ha) i Hi). v_field.
  Qed.
  Lemma s2_O : (1 <= p)%nat -> O 4 s2.
  Proof.
    intros Hp. apply (O_quad n R adm ap 2 (Srem (1/2)) e2 ltac:(lia)); [|apply e2_O; exact Hp].
    apply (Srem_quad n p L Ex N t0 tf rho K u f J HF HS (1/2) half).
  Qed.
  Lemma Gm_O : OO 0 (Gop (1/2)).
  Proof. apply (Gop_opO n p L Ex N t0 tf rho K u f J HF HS (1/2) half). Qed.
  Lemma G_add th t h a b : 0 <= th <= 1 -> adm t h -> veq (below n) (Gop th t h (cadd a b)) (cadd (Gop th t h a) (Gop th t h b)).
  Proof. intros Hth Ha. apply (rl_add _ _ (Gop_rlinear n p L Ex N t0 tf rho K u f J HF HS th t h Hth Ha)). Qed.
  Lemma G_scal th t h (c : R) a : 0 <= th <= 1 -> adm t h -> veq (below n) (Gop th t h (rscal c a)) (rscal c (Gop th t h a)).
  Proof. intros Hth Ha. apply (rl_scal _ _ (Gop_rlinear n p L Ex N t0 tf rho K u f J HF HS th t h Hth Ha)). Qed.

  Lemma e23_O : (2 <= p)%nat -> O 3 (fun t h => cadd (e2 t h) (e3 t h)).
  Proof.
    intros Hp.
    assert (A1 := O_mul n R adm ap (1/2) 1 2 _ (rk_O (1/2) 2 ltac:(lia) half)).
    assert (A2 := O_const n R adm ap (-2) 3 _ (ry_O (1/2) 3 ltac:(lia) ltac:(lia) half)).
    assert (A3 := O_mul n R adm ap (1/2) 1 2 _ (O_op n R adm ap 0 2 _ _ Gm_O (e2_O ltac:(lia)))).
    assert (A4 := O_mul n R adm ap (1/2) 1 2 _ (O_weak n R adm ap 2 4 _ ltac:(lia) (s2_O ltac:(lia)))).
    eapply O_ext; [|exact (O_add n R adm 3 _ _ (O_add n R adm 3 _ _ A1 A2) (O_add n R adm 3 _ _ A3 A4))].
    intros t h Ha i Hi. unfold rk, ry. v_unfold. rewrite (e3_eq t h i Ha Hi), (e2_eq t h i Ha Hi). unfold km. v_field.
  Qed.
  Lemma e3_O : (2 <= p)%nat -> O 2 e3.
  Proof.
    intros Hp. eapply O_ext; [|exact (O_sub n R adm 2 _ _ (O_weak n R adm ap 2 3 _ ltac:(lia) (e23_O Hp)) (e2_O ltac:(lia)))].
    intros t h Ha i Hi. cbn beta. v_unfold. ring.
  Qed.
  Lemma s3_O : (2 <= p)%nat -> O 4 s3.
  Proof.
    intros Hp. apply (O_quad n R adm ap 2 (Srem (1/2)) e3 ltac:(lia)); [|apply e3_O; exact Hp].
    apply (Srem_quad n p L Ex N t0 tf rho K u f J HF HS (1/2) half).
  Qed.
  Lemma e4_O : (2 <= p)%nat -> O 3 e4.
  Proof.
    intros Hp.
    assert (A1 := O_mul n R adm ap 1 1 2 _ (rk_O (1/2) 2 ltac:(lia) half)).
    assert (A2 := O_const n R adm ap (-1) 3 _ (ry_O 1 3 ltac:(lia) ltac:(lia) one)).
    assert (A3 := O_mul n R adm ap 1 1 2 _ (O_op n R adm ap 0 2 _ _ Gm_O (e3_O ltac:(lia)))).
    assert (A4 := O_mul n R adm ap 1 1 2 _ (O_weak n R adm ap 2 4 _ ltac:(lia) (s3_O ltac:(lia)))).
    eapply O_ext; [|exact (O_add n R adm 3 _ _ (O_add n R adm 3 _ _ A1 A2) (O_add n R adm 3 _ _ A3 A4))].
    intros t h Ha i Hi. unfold rk, ry. unfold e4, Y4. v_unfold. rewrite (K3_eq t h Ha i Hi). unfold km. v_field.
  Qed.
  Lemma s4_O : (2 <= p)%nat -> O 6 s4.
  Proof.
    intros Hp. apply (O_quad n R adm ap 3 (Srem 1) e4 ltac:(lia)); [|apply e4_O; exact Hp].
    apply (Srem_quad n p L Ex N t0 tf rho K u f J HF HS 1 one).
  Qed.
  (** The errors of the stages cancel to the next order. *)
  Lemma e234_O : (3 <= p)%nat -> O 4 (fun t h => cadd (rscal 2 (cadd (e2 t h) (e3 t h))) (e4 t h)).
  Proof.
    intros Hp.
    assert (A1 := O_mul n R adm ap 2 1 3 _ (rk_O (1/2) 3 ltac:(lia) half)).
    assert (A2 := O_const n R adm ap (-4) 4 _ (ry_O (1/2) 4 ltac:(lia) ltac:(lia) half)).
    assert (A3 := O_const n R adm ap (-1) 4 _ (ry_O 1 4 ltac:(lia) ltac:(lia) one)).
    assert (A4 := O_mul n R adm ap 1 1 3 _ (O_op n R adm ap 0 3 _ _ Gm_O (e23_O ltac:(lia)))).
    assert (A5 := O_mul n R adm ap 1 1 3 _ (O_weak n R adm ap 3 4 _ ltac:(lia) (s2_O ltac:(lia)))).
    assert (A6 := O_mul n R adm ap 1 1 3 _ (O_weak n R adm ap 3 4 _ ltac:(lia) (s3_O ltac:(lia)))).
    eapply O_ext; [|exact (O_add n R adm 4 _ _ (O_add n R adm 4 _ _ A1 (O_add n R adm 4 _ _ A2 A3)) (O_add n R adm 4 _ _ A4 (O_add n R adm 4 _ _ A5 A6)))].
    intros t h Ha i Hi. unfold rk, ry. cbn beta.
    assert (X := G_add (1/2) t h (e2 t h) (e3 t h) half Ha i Hi). unfold cadd at 2 in X.
    set (g23 := Gop (1/2) t h (cadd (e2 t h) (e3 t h))) in *.
    v_unfold. rewrite X, (e4_eq t h i Ha Hi), (e3_eq t h i Ha Hi), (e2_eq t h i Ha Hi). unfold km. v_field.
  Qed.
  (** One step, in the transformed variable. *)
  Lemma Y5_O : (4 <= p)%nat -> O 5 (fun t h => csub (Y5 t h) (yd t (1 * h))).
  Proof.
    intros Hp.
    assert (A1 := O_mul n R adm ap (4/6) 1 4 _ (rk_O (1/2) 4 ltac:(lia) half)).
    assert (A2 := O_mul n R adm ap (1/6) 1 4 _ (rk_O 1 4 ltac:(lia) one)).
    assert (A3 := O_const n R adm ap (-1) 5 _ (ry_O 1 5 ltac:(lia) ltac:(lia) one)).
    assert (A4 := O_mul n R adm ap (1/6) 1 4 _ (O_op n R adm ap 0 4 _ _ Gm_O (e234_O ltac:(lia)))).
    assert (A5 := O_mul n R adm ap (1/6) 1 4 _ (O_op n R adm ap 1 3 _ _ (Gop_diff n p L Ex N t0 tf rho K u f J HF HS 1 (1/2) one half) (e4_O ltac:(lia)))).
    assert (A6 := O_mul n R adm ap (1/3) 1 4 _ (s2_O ltac:(lia))).
    assert (A7 := O_mul n R adm ap (1/3) 1 4 _ (s3_O ltac:(lia))).
    assert (A8 := O_mul n R adm ap (1/6) 1 4 _ (O_weak n R adm ap 4 6 _ ltac:(lia) (s4_O ltac:(lia)))).
    eapply O_ext; [|exact (O_add n R adm 5 _ _ (O_add n R adm 5 _ _ A1 (O_add n R adm 5 _ _ A2 A3))
       (O_add n R adm 5 _ _ (O_add n R adm 5 _ _ A4 A5) (O_add n R adm 5 _ _ A6 (O_add n R adm 5 _ _ A7 A8))))].
    intros t h Ha i Hi. unfold rk, ry. cbn beta.
    assert (X : Gop (1/2) t h (cadd (rscal 2 (cadd (e2 t h) (e3 t h))) (e4 t h)) i
                = (2 * (Gop (1/2) t h (e2 t h) i + Gop (1/2) t h (e3 t h) i) + Gop (1/2) t h (e4 t h) i)%C).
    { rewrite (G_add (1/2) t h _ _ half Ha i Hi). unfold cadd at 1. rewrite (G_scal (1/2) t h 2 _ half Ha i Hi). unfold cscal.
      rewrite (G_add (1/2) t h _ _ half Ha i Hi). reflexivity. }
    unfold Y5. set (g := Gop (1/2) t h (cadd (rscal 2 (cadd (e2 t h) (e3 t h))) (e4 t h))) in *.
    v_unfold. rewrite X, (K1_kd t h (adm_t t h Ha) i Hi), (K2_eq t h Ha i Hi), (K3_eq t h Ha i Hi), (K4_eq t h Ha i Hi). unfold km, k1. v_field.
  Qed.
  (** The local error. *)
  Theorem rk4_local : (4 <= p)%nat -> O 5 (fun t h => csub (lawson RK4 E N h (u t)) (u (t + h))).
  Proof.
    intros Hp. destruct (E_opO n L Ex t0 tf HF 1 one) as [HE _].
    eapply O_ext; [|exact (O_op n R adm ap 0 5 _ _ HE (Y5_O Hp))].
    intros t h Ha. cbn beta. etransitivity; [apply rl_sub, (E_rlinear n L Ex HF)|].
    apply csub_proper.
    - unfold lawson. rewrite rk4_stages, Rmult_1_l. reflexivity.
    - rewrite Rmult_1_l. apply (yd_back n L Ex u HF).
  Qed.
End RK4Local.
