(** * Krogstad's method and the ETD5 method satisfy the stiff order conditions of StiffOrder, with bounds that do not
      depend on the operator *)

From Coq Require Import ZArith List Bool Reals Lra Lia FunctionalExtensionality QArith Qreals Setoid Morphisms.
From Coquelicot Require Import Hierarchy Derive RInt Complex.
From Verif Require Import Scalars Control ControlCS ControlCSReal ControlAS ControlASReal ControlSim ControlSound PropsControl Arrays SchemeBase
     SchemeIF SchemeETD4 SchemeETD5 Solvers SchemeFacts SchemeSound SchemeFamily SchemePartial SchemeForm CInst SpecRK
     SchemeIFReal PropsCache PropsIF SpecPhi SpecPoly ContourReal SpecERK SchemeETDReal SchemeETDCoefs PropsPsi PropsETD
     PropsLinear ContourMatrix MatrixFlow PropsMatrix Asym Solution LocalRK4 Stable Converge Voc LocalKro MatExp ConvRuns ConvMethods
     PropsConverge Stiff StiffOrder PropsStiff.
Import ListNotations.
Local Open Scope R_scope.

(** ** The methods satisfy the stiff order conditions *)
Section Diag.
  Variables (n : nat) (L : cvec) (h : R) (cfg : etdcfg Rops).
  Hypothesis HL : dissipative n L.
  Hypothesis Hh : 0 <= h.
  Hypothesis Hcfg : good_contour cfg.
  Notation e := (quad_error cfg).
  Lemma e_pos : 0 <= e.
  Proof. apply quad_error_pos. destruct Hcfg as ((H1 & H2) & _). lra. Qed.
  Definition dif (r : nat) (q : R) : op := dfun h L (fun z => ph cfg r q z - phi r (RtoC q * z))%C.
  Lemma dif_small r q : (1 <= r <= 3)%nat -> 0 < q <= 1 -> smallop n e (dif r q).
  Proof.
    intros Hr Hq v x Hx Hv i Hi. unfold dif, dfun. rewrite Cmod_mult.
    apply Rmult_le_compat; try apply Cmod_ge_0; [apply ph_near; assumption|apply Hv; exact Hi].
  Qed.
  Lemma small_dif (o : op) k r q : (1 <= r <= 3)%nat -> 0 < q <= 1 -> Rabs k <= 1 -> (forall v i, o v i = (RtoC k * dif r q v i)%C) -> smallop n e o.
  Proof.
    intros Hr Hq Hk HE v x Hx Hv i Hi. rewrite HE, Cmod_mult, Cmod_R.
    assert (D := dif_small r q Hr Hq v x Hx Hv i Hi).
    apply Rle_trans with (1 * Cmod (dif r q v i)); [|lra]. apply Rmult_le_compat_r; [apply Cmod_ge_0|exact Hk].
  Qed.
  Ltac entry :=
    let v := fresh "v" in let i := fresh "i" in
    intros v i; unfold dif, defect; cbn [map ocomb app]; unfold pop, dph, dE, osub; unfold oadd; unfold oscal; unfold ozero, csub, cadd, cscal, dfun; cbv beta;
    repeat match goal with |- context [ph cfg ?r ?q ?z] => generalize (ph cfg r q z); intros ? end;
    repeat match goal with |- context [phi ?r ?z] => generalize (phi r z); intros ? end;
    generalize (v i); intros ?; cfield.
  Lemma kro_three : stiff_three n h L 20 e [0; 1/2; 1/2; 1] (d_krogstad cfg h L).
  Proof.
    split.
    - repeat constructor; lra.
    - exists kro_rows, kro_bs. split; [|split; [repeat constructor; cbn; lra|cbn; lra]].
      unfold d_krogstad. apply kro_bounded; try (apply dE_bop; (assumption || lra));
      first [apply bop_f1; apply dph_bop; (assumption || lia || lra) | apply bop_f2; apply dph_bop; (assumption || lia || lra) | apply bop_f3; apply dph_bop; (assumption || lia || lra)].
    - unfold d_krogstad, krogstad. cbn [er_E]. repeat apply Forall2_cons; try apply Forall2_nil; intros v i _; unfold dE, dfun; try reflexivity.
      rewrite Cmult_0_l, Cexp_0. ring.
    - intros v i _. unfold d_krogstad, krogstad, dE, dfun. cbn [er_E1]. rewrite Cmult_1_l. reflexivity.
    - unfold d_krogstad, krogstad. cbn [er_a rows_ok app]. split; [|split; [|split; [|split; [|exact I]]]].
      + apply (small_dif _ 0 1 1); [lia|lra|rewrite Rabs_R0; lra|]. entry.
      + apply (small_dif _ (1/2) 1 (1/2)); [lia|lra|rewrite Rabs_pos_eq; lra|]. entry.
      + apply (small_dif _ (1/2) 1 (1/2)); [lia|lra|rewrite Rabs_pos_eq; lra|]. entry.
      + apply (small_dif _ 1 1 1); [lia|lra|rewrite Rabs_pos_eq; lra|]. entry.
    - unfold d_krogstad, krogstad. cbn [er_b]. apply (small_dif _ 1 1 1); [lia|lra|rewrite Rabs_pos_eq; lra|]. entry.
    - unfold d_krogstad, krogstad. cbn [er_b]. apply (small_dif _ 1 2 1); [lia|lra|rewrite Rabs_pos_eq; lra|]. entry.
    - unfold d_krogstad, krogstad. cbn [er_b]. apply (small_dif _ 1 3 1); [lia|lra|rewrite Rabs_pos_eq; lra|]. entry.
    - intros Jt k HJ HJk Hk v x Hx Hv. unfold d_krogstad, krogstad. cbn [er_b er_a defects app map ocomb].
      set (f1 := dph cfg h L 1 1). set (f2 := dph cfg h L 2 1). set (f3 := dph cfg h L 3 1).
      match goal with |- vle _ (cadd (?b1 (Jt ?w1)) (cadd (?b2 (Jt ?w2)) (cadd (?b3 (Jt ?w3)) (cadd (?b4 (Jt ?w4)) _)))) _ =>
        set (a1 := w1); set (a2 := w2); set (a3 := w3); set (a4 := w4); set (o1 := b1); set (o2 := b2); set (o4 := b4) end.
      assert (F1 : bop n (7/6) f1) by (apply bop_f1, dph_bop; (assumption || lia || lra)).
      assert (F2 : bop n (2/3) f2) by (apply bop_f2, dph_bop; (assumption || lia || lra)).
      assert (F3 : bop n (1/3) f3) by (apply bop_f3, dph_bop; (assumption || lia || lra)).
      assert (O1 : bop n (9/2) o1) by (unfold o1; bop_bound). assert (O2 : bop n (8/3) o2) by (unfold o2; bop_bound). assert (O4 : bop n 2 o4) by (unfold o4; bop_bound).
      assert (E0 := e_pos). assert (Hex : 0 <= e * x) by (apply Rmult_le_pos; assumption).
      assert (W1 : vle n (Jt a1) (k * (e * x))).
      { apply HJk; [exact Hex|]. apply (small_dif (fun v => defect h L [] 0 [] v) 0 1 1); try assumption; [lia|lra|rewrite Rabs_R0; lra|]. entry. }
      assert (W23 : vle n (Jt (cadd a2 a3)) (k * (e * x))).
      { apply HJk; [exact Hex|].
        apply (small_dif (fun v => cadd (defect h L [0] (1/2) [oscal (1/2) (dph cfg h L 1 (1/2))] v)
                 (defect h L [0; 1/2] (1/2) [osub (oscal (1/2) (dph cfg h L 1 (1/2))) (dph cfg h L 2 (1/2)); dph cfg h L 2 (1/2)] v)) (-1/2) 2 (1/2)); try assumption; [lia|lra|rewrite Rabs_left; lra|]. entry. }
      assert (W4 : vle n (Jt a4) (k * (e * x))).
      { apply HJk; [exact Hex|].
        apply (small_dif (fun v => defect h L [0; 1/2; 1/2] 1 [osub f1 (oscal 2 f2); ozero; oscal 2 f2] v) (-1) 2 1); try assumption; [lia|lra|rewrite Rabs_left; lra|]. unfold f1, f2. entry. }
      assert (Hkex : 0 <= k * (e * x)) by (apply Rmult_le_pos; assumption).
      apply (vle_ext n (cadd (cadd (o1 (Jt a1)) (o2 (Jt (cadd a2 a3)))) (o4 (Jt a4)))).
      + intros i Hi.
        assert (Q : veq (below n) (o2 (Jt (cadd a2 a3))) (cadd (o2 (Jt a2)) (o2 (Jt a3)))).
        { transitivity (o2 (cadd (Jt a2) (Jt a3))); [apply (rl_ext n o2 (8/3) _ _ (proj1 O2) (proj1 (proj2 O2))); apply (rl_add _ _ HJ)|apply (rl_add _ _ (proj1 O2))]. }
        unfold cadd at 1 2. rewrite (Q i Hi). unfold cadd. ring.
      + eapply vle_mono; [apply vle_add; [apply vle_add; [apply (proj1 (proj2 O1)); [exact Hkex|exact W1]|apply (proj1 (proj2 O2)); [exact Hkex|exact W23]]|apply (proj1 (proj2 O4)); [exact Hkex|exact W4]]|].
        lra.
  Qed.
  Lemma etd5_three : stiff_three n h L 20 e [0; 1/4; 1/4; 1/2; 3/4; 1] (d_etd5 cfg h L).
  Proof.
    split.
    - repeat constructor; lra.
    - exists etd5_rows, etd5_bs. split; [|split; [repeat constructor; cbn; lra|cbn; lra]].
      unfold d_etd5. apply etd5_bounded; try (apply dE_bop; (assumption || lra));
      first [apply bop_f1; apply dph_bop; (assumption || lia || lra) | apply bop_f2; apply dph_bop; (assumption || lia || lra) | apply bop_f3; apply dph_bop; (assumption || lia || lra)].
    - unfold d_etd5, etd5_method. cbn [er_E]. repeat apply Forall2_cons; try apply Forall2_nil; intros v i _; unfold dE, dfun; try reflexivity.
      rewrite Cmult_0_l, Cexp_0. ring.
    - intros v i _. unfold d_etd5, etd5_method, dE, dfun. cbn [er_E1]. rewrite Cmult_1_l. reflexivity.
    - unfold d_etd5, etd5_method. cbn [er_a rows_ok app]. split; [|split; [|split; [|split; [|split; [|split; [|exact I]]]]]].
      + apply (small_dif _ 0 1 1); [lia|lra|rewrite Rabs_R0; lra|]. entry.
      + apply (small_dif _ (1/4) 1 (1/4)); [lia|lra|rewrite Rabs_pos_eq; lra|]. entry.
      + apply (small_dif _ (1/4) 1 (1/4)); [lia|lra|rewrite Rabs_pos_eq; lra|]. entry.
      + apply (small_dif _ (1/2) 1 (1/2)); [lia|lra|rewrite Rabs_pos_eq; lra|]. entry.
      + apply (small_dif _ (3/4) 1 (3/4)); [lia|lra|rewrite Rabs_pos_eq; lra|]. entry.
      + apply (small_dif _ 1 1 1); [lia|lra|rewrite Rabs_pos_eq; lra|]. entry.
    - unfold d_etd5, etd5_method. cbn [er_b]. apply (small_dif _ 1 1 1); [lia|lra|rewrite Rabs_pos_eq; lra|]. entry.
    - unfold d_etd5, etd5_method. cbn [er_b]. apply (small_dif _ 1 2 1); [lia|lra|rewrite Rabs_pos_eq; lra|]. entry.
    - unfold d_etd5, etd5_method. cbn [er_b]. apply (small_dif _ 1 3 1); [lia|lra|rewrite Rabs_pos_eq; lra|]. entry.
    - intros Jt k HJ HJk Hk v x Hx Hv. unfold d_etd5, etd5_method. cbn [er_b er_a defects app map ocomb].
      assert (E0 := e_pos). assert (Hex : 0 <= e * x) by (apply Rmult_le_pos; assumption).
      assert (Hkex : 0 <= k * (e * x)) by (apply Rmult_le_pos; assumption).
      assert (B : Forall2 (bop n) etd5_bs (er_b (d_etd5 cfg h L))).
      { assert (X : bounded n etd5_rows etd5_bs (d_etd5 cfg h L)).
        { unfold d_etd5. apply etd5_bounded; try (apply dE_bop; (assumption || lra));
          first [apply bop_f1; apply dph_bop; (assumption || lia || lra) | apply bop_f2; apply dph_bop; (assumption || lia || lra) | apply bop_f3; apply dph_bop; (assumption || lia || lra)]. }
        apply (bd_b _ _ _ _ X). }
      unfold etd5_bs, d_etd5, etd5_method in B. cbn [er_b] in B.
      inversion B as [|? ? ? ? B1 B']; subst. inversion B' as [|? ? ? ? B2 B'']; subst. inversion B'' as [|? ? ? ? B3 B3']; subst.
      inversion B3' as [|? ? ? ? B4 B4']; subst. inversion B4' as [|? ? ? ? B5 B5']; subst. inversion B5' as [|? ? ? ? B6 B6']; subst. clear B B' B'' B3' B4' B5' B6'.
      match goal with |- vle _ (cadd (?b1 (Jt ?w1)) (cadd _ (cadd (?b3 (Jt ?w3)) (cadd (?b4 (Jt ?w4)) (cadd (?b5 (Jt ?w5)) (cadd (?b6 (Jt ?w6)) _)))))) _ =>
        assert (W1 : vle n (Jt w1) (k * (e * x)));
        [apply HJk; [exact Hex|]; match w1 with ?g v => apply (small_dif g 0 1 1); try assumption; [lia|lra|rewrite Rabs_R0; lra|entry] end|];
        assert (W3 : vle n (Jt w3) (k * (e * x)));
        [apply HJk; [exact Hex|]; match w3 with ?g v => apply (small_dif g (-1/16) 2 (1/4)); try assumption; [lia|lra|rewrite Rabs_left; lra|entry] end|];
        assert (W4 : vle n (Jt w4) (k * (e * x)));
        [apply HJk; [exact Hex|]; match w4 with ?g v => apply (small_dif g (-1/4) 2 (1/2)); try assumption; [lia|lra|rewrite Rabs_left; lra|entry] end|];
        assert (W5 : vle n (Jt w5) (k * (e * x)));
        [apply HJk; [exact Hex|]; match w5 with ?g v => apply (small_dif g (-9/16) 2 (3/4)); try assumption; [lia|lra|rewrite Rabs_left; lra|entry] end|];
        assert (W6 : vle n (Jt w6) (k * (e * x)));
        [apply HJk; [exact Hex|]; match w6 with ?g v => apply (small_dif g (-1) 2 1); try assumption; [lia|lra|rewrite Rabs_left; lra|entry] end|]
      end.
      eapply vle_mono; [apply vle_add; [apply (proj1 (proj2 B1)); [exact Hkex|exact W1]|apply vle_add; [apply (vle_mono n _ 0); [intros i Hi; unfold ozero; rewrite Cmod_0; lra|exact (Rle_refl 0)]|
        apply vle_add; [apply (proj1 (proj2 B3)); [exact Hkex|exact W3]|apply vle_add; [apply (proj1 (proj2 B4)); [exact Hkex|exact W4]|apply vle_add; [apply (proj1 (proj2 B5)); [exact Hkex|exact W5]|
        apply vle_add; [apply (proj1 (proj2 B6)); [exact Hkex|exact W6]|apply (vle_zero n 0); lra]]]]]]|]. lra.
  Qed.
End Diag.
