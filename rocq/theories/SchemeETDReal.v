(** * ETD schemes over exact complex arithmetic

    The stage formulas of the code as exponential Runge-Kutta methods, and the cached coefficient
    arrays as functions of the psi values used. *)

From Coq Require Import ZArith List Bool Reals Lra Lia FunctionalExtensionality QArith Qreals Setoid Morphisms.
From Coquelicot Require Import Complex.
From Verif Require Import Scalars Control ControlSound Arrays SchemeBase SchemeIF SchemeETD4 SchemeETD5 Solvers
     SchemeFacts SchemeSound SchemeFamily SchemeForm CInst SpecRK SchemeIFReal SpecPhi SpecERK ContourReal.
Import ListNotations.
Local Open Scope R_scope.

(** The fifth-order scheme of the code, in terms of phi functions: [f1q] is [phi_1(hL/4)], [f1h] is
    [phi_1(hL/2)], [f1t] is [phi_1(3hL/4)], [f1] is [phi_1(hL)], and so on. *)
Definition etd5_method (E14 E12 E34 E1 f1q f2q f1h f2h f1t f2t f1 f2 f3 : op) : erk :=
  mk_erk [(fun v => v); E14; E14; E12; E34; E1]
    [[];
     [oscal (1/4) f1q];
     [oscal (1/4) (osub f1q f2q); oscal (1/4) f2q];
     [osub (oscal (1/2) f1h) f2h; ozero; f2h];
     [osub (oscal (3/4) f1t) (oscal (9/8) f2t); oscal (-3/8) f1t; oscal (3/8) f1t; oscal (9/8) f2t];
     [oadd (oscal (-11/6) f1) (oscal (59/21) f2); oscal (8/7) f1;
      osub (oscal (111/28) f1) (oscal (87/14) f2); oscal (-12/7) f1;
      oadd (oscal (-47/84) f1) (oscal (143/42) f2)]]
    E1
    [oadd (osub (oscal (1799/2700) f1) (oscal (3479/1350) f2)) (oscal (21/5) f3);
     ozero;
     osub (osub (oscal (1097/1350) f1) (oscal (467/675) f2)) (oscal (2/3) f3);
     osub (oadd (oscal (-98/225) f1) (oscal (796/225) f2)) (oscal (36/5) f3);
     osub (oadd (oscal (-313/1350) f1) (oscal (883/675) f2)) (oscal (2/5) f3);
     oadd (osub (oscal (509/2700) f1) (oscal (2129/1350) f2)) (oscal (61/15) f3)].

(** Actions of coefficient arrays on vectors. *)
Record lin_act {X} (act : X -> cvec -> cvec) : Prop := {
  la_add : forall c a b, act c (cadd a b) = cadd (act c a) (act c b);
  la_scal : forall c k a, act c (cscal k a) = cscal k (act c a) }.

Lemma vmul_act : lin_act (fun c v : vec Cops => vmul (A := Cops) c v).
Proof.
  split; intros; apply functional_extensionality; intros i; unfold cadd, cscal; csimp; ring.
Qed.
Lemma mdot_act n : lin_act (fun (c : nat -> nat -> C) v => mdot n c v).
Proof.
  split; intros; apply functional_extensionality; intros i; unfold mdot, cadd, cscal.
  - rewrite <- csum_plus. apply csum_ext; intros; ring.
  - rewrite <- csum_scal. apply csum_ext; intros; ring.
Qed.

Lemma vadd_cadd (a b : vec Cops) : vadd (A := Cops) a b = cadd a b.
Proof. reflexivity. Qed.
Lemma vsub_cadd (a b : vec Cops) : vsub (A := Cops) a b = cadd a (cscal (RtoC (-1)) b).
Proof. apply functional_extensionality; intros i. unfold cadd, cscal. csimp. ceq.
  set (x := a i). set (y := b i). clearbody x y. cfield. Qed.
Lemma vneg_cscal (a : vec Cops) : vneg (A := Cops) a = cscal (RtoC (-1)) a.
Proof. apply functional_extensionality; intros i. unfold cadd, cscal. csimp. ceq.
  set (x := a i). clearbody x. cfield. Qed.
Lemma vscalz_cscal z (a : vec Cops) : vscalz (A := Cops) z a = cscal (RtoC (IZR z)) a.
Proof. reflexivity. Qed.
Lemma vdivz_cscal (a : vec Cops) z : z <> 0%Z -> vdivz (A := Cops) a z = cscal (RtoC (/ IZR z)) a.
Proof.
  intros Hz. apply functional_extensionality; intros i. unfold cscal. csimp. ceq.
  rewrite RtoC_inv by (apply not_0_IZR; exact Hz). unfold Cdiv. ring.
Qed.

Lemma erk_value_id h u : erk_value h u (fun v => v) [] [] = u.
Proof. apply functional_extensionality; intros i. unfold erk_value, cadd, cscal. cbn. ring. Qed.

Section ETD4.
  Variable X : Type.
  Variable act : X -> cvec -> cvec.
  Hypothesis HA : lin_act act.
  Variable N : cvec -> cvec.
  Variable c : etd4_coefs X.
  Variable h : R.
  Variables E12 E1 f1h f2h f1 f2 f3 : op.
  Notation K := (krogstad E12 E1 f1h f2h f1 f2 f3).
  Notation a i j := (nth j (nth i (er_a K) []) ozero).
  Notation b j := (nth j (er_b K) ozero).
  Record etd4_ok : Prop := {
    o4_EL2 : forall v, act (e4_EL2 c) v = E12 v;
    o4_EL  : forall v, act (e4_EL c) v = E1 v;
    o4_21 : forall v, act (e4_a21 c) v = cscal (RtoC h) (a 1 0 v);
    o4_31 : forall v, act (e4_a31 c) v = cscal (RtoC h) (a 2 0 v);
    o4_32 : forall v, act (e4_a32 c) v = cscal (RtoC h) (a 2 1 v);
    o4_41 : forall v, act (e4_a41 c) v = cscal (RtoC h) (a 3 0 v);
    o4_43 : forall v, act (e4_a43 c) v = cscal (RtoC h) (a 3 2 v);
    o4_b1 : forall v, act (e4_b1 c) v = cscal (RtoC h) (b 0 v);
    o4_b2 : forall v, act (e4_b2 c) v = cscal (RtoC h) (b 1 v);
    o4_b4 : forall v, act (e4_b4 c) v = cscal (RtoC h) (b 3 v) }.

  Ltac pw := apply functional_extensionality; intros ?i; unfold cadd, cscal, ozero; cbn [nth]; cbv beta.

  Lemma etd4_form_erk : etd4_ok -> forall u,
    @etd4_form Rops Cops X act N c u (N u)
    = (erk_step K N h u,
       cadd (erk_step K N h u)
            (cscal (RtoC (-1)) (erk_step (krogstad_embedded E12 E1 f1h f2h f1 f2 f3) N h u))).
  Proof.
    intros H u. destruct H as [HE2 HE H21 H31 H32 H41 H43 Hb1 Hb2 Hb4].
    unfold etd4_form, erk_step. cbv zeta. change (@vadd Rops Cops) with cadd.
    cbn [krogstad krogstad_embedded er_E er_a er_E1 er_b app firstn nth erk_stages] in *.
    rewrite erk_value_id.
    set (N1 := N u).
    match goal with |- context [cadd (act (e4_EL2 c) u) (act (e4_a21 c) N1)] =>
      set (V2 := cadd (act (e4_EL2 c) u) (act (e4_a21 c) N1)) end.
    match goal with |- context [erk_value h u E12 ?r [N1]] => replace (erk_value h u E12 r [N1]) with V2 end.
    2: { unfold V2, erk_value. rewrite HE2, H21. pw. cbn [ocomb]. unfold cadd. ring. }
    set (N2 := N V2).
    set (V3 := cadd (cadd (act (e4_EL2 c) u) (act (e4_a31 c) N1)) (act (e4_a32 c) N2)).
    match goal with |- context [erk_value h u E12 ?r [N1; N2]] => replace (erk_value h u E12 r [N1; N2]) with V3 end.
    2: { unfold V3, erk_value. rewrite HE2, H31, H32. pw. cbn [ocomb]. unfold cadd. ring. }
    set (N3 := N V3).
    set (V4 := cadd (cadd (act (e4_EL c) u) (act (e4_a41 c) N1)) (act (e4_a43 c) N3)).
    match goal with |- context [erk_value h u E1 ?r [N1; N2; N3]] => replace (erk_value h u E1 r [N1; N2; N3]) with V4 end.
    2: { unfold V4, erk_value. rewrite HE, H41, H43. pw. cbn [ocomb]. unfold cadd, ozero. ring. }
    set (N4 := N V4). cbn [app].
    rewrite (la_add _ HA).
    set (k := cadd (cadd (cadd (act (e4_EL c) u) (act (e4_b1 c) N1)) _) _).
    match goal with |- context [erk_value h u E1 ?r [N1; N2; N3; N4]] =>
      replace (erk_value h u E1 r [N1; N2; N3; N4]) with k end.
    2: { unfold k, erk_value. rewrite HE, Hb1, Hb4, !Hb2. pw. cbn [ocomb]. unfold cadd, ozero. ring. }
    set (N5 := N k). f_equal. cbn [app].
    rewrite vsub_cadd, (la_add _ HA), (la_scal _ HA), !Hb4. unfold k, erk_value. rewrite HE, Hb1, Hb4, !Hb2.
    pw. cbn [ocomb]. unfold cadd, ozero.
    replace (RtoC (-1)) with (- RtoC 1)%C by (rewrite <- RtoC_opp; reflexivity). ring.
  Qed.
End ETD4.

(** The third-order method embedded in ETD35: fourth differences times the fifth weight are
    subtracted from the weights. *)
Definition etd5_embedded (E14 E12 E34 E1 f1q f2q f1h f2h f1t f2t f1 f2 f3 : op) : erk :=
  let m := etd5_method E14 E12 E34 E1 f1q f2q f1h f2h f1t f2t f1 f2 f3 in
  let b j := nth j (er_b m) ozero in
  mk_erk (er_E m) (er_a m) E1
    [oadd (b 0%nat) (b 4%nat); ozero; osub (b 2%nat) (oscal 4 (b 4%nat)); oadd (b 3%nat) (oscal 6 (b 4%nat));
     oscal (-3) (b 4%nat); oadd (b 5%nat) (b 4%nat)].

Section ETD5.
  Variable X : Type.
  Variable act : X -> cvec -> cvec.
  Hypothesis HA : lin_act act.
  Variable N : cvec -> cvec.
  Variable c : etd5_coefs X.
  Variable h : R.
  Variables E14 E12 E34 E1 f1q f2q f1h f2h f1t f2t f1 f2 f3 : op.
  Notation K := (etd5_method E14 E12 E34 E1 f1q f2q f1h f2h f1t f2t f1 f2 f3).
  Notation a i j := (nth j (nth i (er_a K) []) ozero).
  Notation b j := (nth j (er_b K) ozero).
  Record etd5_ok : Prop := {
    o5_E14 : forall v, act (e5_EL14 c) v = E14 v;
    o5_E12 : forall v, act (e5_EL12 c) v = E12 v;
    o5_E34 : forall v, act (e5_EL34 c) v = E34 v;
    o5_EL  : forall v, act (e5_EL c) v = E1 v;
    o5_21 : forall v, act (e5_a21 c) v = cscal (RtoC h) (a 1 0 v);
    o5_31 : forall v, act (e5_a31 c) v = cscal (RtoC h) (a 2 0 v);
    o5_32 : forall v, act (e5_a32 c) v = cscal (RtoC h) (a 2 1 v);
    o5_41 : forall v, act (e5_a41 c) v = cscal (RtoC h) (a 3 0 v);
    o5_43 : forall v, act (e5_a43 c) v = cscal (RtoC h) (a 3 2 v);
    o5_51 : forall v, act (e5_a51 c) v = cscal (RtoC h) (a 4 0 v);
    o5_52 : forall v, act (e5_a52 c) v = cscal (RtoC h) (a 4 1 v);
    o5_54 : forall v, act (e5_a54 c) v = cscal (RtoC h) (a 4 3 v);
    o5_61 : forall v, act (e5_a61 c) v = cscal (RtoC h) (a 5 0 v);
    o5_62 : forall v, act (e5_a62 c) v = cscal (RtoC h) (a 5 1 v);
    o5_63 : forall v, act (e5_a63 c) v = cscal (RtoC h) (a 5 2 v);
    o5_65 : forall v, act (e5_a65 c) v = cscal (RtoC h) (a 5 4 v);
    o5_b1 : forall v, act (e5_b1 c) v = cscal (RtoC h) (b 0 v);
    o5_b3 : forall v, act (e5_b3 c) v = cscal (RtoC h) (b 2 v);
    o5_b4 : forall v, act (e5_b4 c) v = cscal (RtoC h) (b 3 v);
    o5_b5 : forall v, act (e5_b5 c) v = cscal (RtoC h) (b 4 v);
    o5_b6 : forall v, act (e5_b6 c) v = cscal (RtoC h) (b 5 v) }.

  (** Pointwise, as an identity between finitely many complex numbers. *)
  Ltac pw := apply functional_extensionality; intros ?i;
    unfold oadd, osub, oscal, ozero, cadd, cscal; cbn [nth ocomb]; unfold oadd, osub, oscal, ozero, cadd, cscal.
  Ltac atoms := repeat match goal with
    | |- context [?f ?n ?i] => lazymatch f with Cplus => fail | Cmult => fail | pair => fail | _ =>
        let x := fresh "x" in lazymatch type of (f n i) with C => set (x := f n i) in *; clearbody x end end
    end.

  Lemma etd5_form_erk : etd5_ok -> forall u,
    @etd5_form Rops Cops X act N c u (N u)
    = (erk_step K N h u,
       cadd (erk_step K N h u)
            (cscal (RtoC (-1)) (erk_step (etd5_embedded E14 E12 E34 E1 f1q f2q f1h f2h f1t f2t f1 f2 f3) N h u))).
  Proof.
    intros H u. destruct H as [HE14 HE12 HE34 HE H21 H31 H32 H41 H43 H51 H52 H54 H61 H62 H63 H65 Hb1 Hb3 Hb4 Hb5 Hb6].
    unfold etd5_form, erk_step. cbv zeta. change (@vadd Rops Cops) with cadd.
    unfold etd5_embedded. cbv zeta.
    cbn [etd5_method er_E er_a er_E1 er_b app firstn nth erk_stages] in *.
    rewrite erk_value_id.
    set (N1 := N u).
    set (V2 := cadd (act (e5_EL14 c) u) (act (e5_a21 c) N1)).
    match goal with |- context [erk_value h u E14 ?r [N1]] => replace (erk_value h u E14 r [N1]) with V2 end.
    2: { unfold V2, erk_value. rewrite HE14, H21. pw. ring. }
    set (N2 := N V2).
    set (V3 := cadd (cadd (act (e5_EL14 c) u) (act (e5_a31 c) N1)) (act (e5_a32 c) N2)).
    match goal with |- context [erk_value h u E14 ?r [N1; N2]] => replace (erk_value h u E14 r [N1; N2]) with V3 end.
    2: { unfold V3, erk_value. rewrite HE14, H31, H32. pw. ring. }
    set (N3 := N V3).
    set (V4 := cadd (cadd (act (e5_EL12 c) u) (act (e5_a41 c) N1)) (act (e5_a43 c) N3)).
    match goal with |- context [erk_value h u E12 ?r [N1; N2; N3]] => replace (erk_value h u E12 r [N1; N2; N3]) with V4 end.
    2: { unfold V4, erk_value. rewrite HE12, H41, H43. pw. ring. }
    set (N4 := N V4).
    rewrite !vsub_cadd, !vscalz_cscal, !vneg_cscal, (vdivz_cscal _ 2) by discriminate.
    match goal with |- context [N (cadd (cadd (cadd (act (e5_EL34 c) u) ?x) ?y) ?z)] =>
      set (V5 := cadd (cadd (cadd (act (e5_EL34 c) u) x) y) z) end.
    match goal with |- context [erk_value h u E34 ?r [N1; N2; N3; N4]] =>
      replace (erk_value h u E34 r [N1; N2; N3; N4]) with V5 end.
    2: { unfold V5, erk_value. rewrite (la_add _ HA), (la_scal _ HA), !HE34, !H51, !H52, !H54. pw. atoms. cfield. }
    set (N5 := N V5).
    match goal with |- context [N (cadd (cadd (cadd (cadd (act (e5_EL c) u) ?x) ?y) ?z) ?w)] =>
      set (V6 := cadd (cadd (cadd (cadd (act (e5_EL c) u) x) y) z) w) end.
    match goal with |- context [erk_value h u E1 ?r [N1; N2; N3; N4; N5]] =>
      replace (erk_value h u E1 r [N1; N2; N3; N4; N5]) with V6 end.
    2: { unfold V6, erk_value. rewrite (la_add _ HA), !(la_scal _ HA), !HE, !H61, !H62, !H63, !H65. pw. atoms. cfield. }
    set (N6 := N V6).
    match goal with |- (?k, _) = (?k', _) => assert (EK : k = k') end.
    { unfold erk_value. rewrite !HE, !Hb1, !Hb3, !Hb4, !Hb5, !Hb6. pw. atoms. cfield. }
    rewrite EK. f_equal. clear EK.
    repeat match goal with
    | H : (forall v, act (e5_b1 c) v = cscal (RtoC h) (?B v)) |- _ => set (B1 := B) in *; clear H
    | H : (forall v, act (e5_b3 c) v = cscal (RtoC h) (?B v)) |- _ => set (B3 := B) in *; clear H
    | H : (forall v, act (e5_b4 c) v = cscal (RtoC h) (?B v)) |- _ => set (B4 := B) in *; clear H
    | H : (forall v, act (e5_b6 c) v = cscal (RtoC h) (?B v)) |- _ => set (B6 := B) in *; clear H
    end.
    match type of Hb5 with (forall v, _ = cscal (RtoC h) (?B v)) => set (B5 := B) in * end.
    clearbody B1 B3 B4 B5 B6.
    rewrite !(la_add _ HA), !(la_scal _ HA), !Hb5. unfold erk_value. pw. atoms. cfield.
  Qed.
End ETD5.
