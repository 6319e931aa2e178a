(** * Local error of Krogstad's exponential Runge-Kutta method

    Spec file: one step of the method with exact phi functions, started on a smooth solution,
    misses the solution by [O(h^5)]. *)

From Coq Require Import ZArith List Bool Reals Lra Lia QArith Qreals FunctionalExtensionality Setoid Morphisms.
From Coquelicot Require Import Hierarchy Derive Complex Continuity.
From Verif Require Import CInst SpecRK SpecERK SchemeIFReal SpecPhi Asym Solution LocalRK4 Voc.
Import ListNotations.
Local Open Scope R_scope.

Section KroLocal.
  Variables n p : nat.
  Variable L : nat -> nat -> C.
  Variable Ex : R -> nat -> nat -> C.
  Variable N : cvec -> cvec.
  Variables t0 tf rho K : R.
  Variable u : R -> cvec.
  Variable f : nat -> R -> cvec.
  Variable J : R -> cvec -> cvec.
  Variable PHI : nat -> R -> cvec -> cvec.
  Hypothesis HF : matflow n L Ex.
  Hypothesis HS : smooth n p L N t0 tf rho K u f J.
  Hypothesis HP : phi_ops n L (tf - t0) PHI.
  Notation E := (mflow n Ex).
  Notation adm := (adm t0 tf).
  Notation O := (bigO n R adm).
  Notation OO := (opO n R adm).
  Notation Jop := (Jop J).
  Notation Pop := (Pop PHI).
  Notation Nrem := (Nrem N u J).
  Notation vocsum := (vocsum f PHI).
  Let ap := adm_pos t0 tf.
  Let half : 0 <= 1/2 <= 1. Proof. lra. Qed.
  Let one : 0 <= 1 <= 1. Proof. lra. Qed.

  Definition gkro (h : R) : erk :=
    krogstad (E (1/2 * h)) (E (1 * h)) (PHI 1%nat (1/2 * h)) (PHI 2%nat (1/2 * h)) (PHI 1%nat (1 * h)) (PHI 2%nat (1 * h)) (PHI 3%nat (1 * h)).

  (** Stage values. *)
  Definition N1 (t h : R) : cvec := N (u t).
  Definition V2 t h := cadd (E (1/2 * h) (u t)) (rscal h (rscal (1/2) (PHI 1%nat (1/2 * h) (N1 t h)))).
  Definition N2 t h := N (V2 t h).
  Definition V3 t h := cadd (E (1/2 * h) (u t)) (rscal h (cadd (csub (rscal (1/2) (PHI 1%nat (1/2 * h) (N1 t h))) (PHI 2%nat (1/2 * h) (N1 t h))) (PHI 2%nat (1/2 * h) (N2 t h)))).
  Definition N3 t h := N (V3 t h).
  Definition V4 t h := cadd (E (1 * h) (u t)) (rscal h (cadd (csub (PHI 1%nat (1 * h) (N1 t h)) (rscal 2 (PHI 2%nat (1 * h) (N1 t h)))) (rscal 2 (PHI 2%nat (1 * h) (N3 t h))))).
  Definition N4 t h := N (V4 t h).
  Definition B1 h v := cadd (csub (PHI 1%nat (1 * h) v) (rscal 3 (PHI 2%nat (1 * h) v))) (rscal 4 (PHI 3%nat (1 * h) v)).
  Definition B2 h v := csub (rscal 2 (PHI 2%nat (1 * h) v)) (rscal 4 (PHI 3%nat (1 * h) v)).
  Definition B4 h v := csub (rscal 4 (PHI 3%nat (1 * h) v)) (PHI 2%nat (1 * h) v).
  Definition V5 t h := cadd (E (1 * h) (u t)) (rscal h (cadd (B1 h (N1 t h)) (cadd (B2 h (N2 t h)) (cadd (B2 h (N3 t h)) (B4 h (N4 t h)))))).

  Lemma kro_stages t h : erk_step (gkro h) N h (u t) = V5 t h.
  Proof.
    unfold erk_step, gkro, krogstad. cbn [er_E er_a er_E1 er_b erk_stages app]. unfold erk_value. cbn [ocomb].
    assert (S1 : N (cadd (u t) (cscal (RtoC h) (fun _ => RtoC 0))) = N1 t h).
    { unfold N1. f_equal. apply functional_extensionality. intros i. unfold cadd, cscal. ring. }
    rewrite S1.
    assert (S2 : N (cadd (E (1/2 * h) (u t)) (cscal (RtoC h) (cadd (oscal (1/2) (PHI 1%nat (1/2 * h)) (N1 t h)) (fun _ => RtoC 0)))) = N2 t h).
    { unfold N2, V2. f_equal. apply functional_extensionality. intros i. unfold oscal. v_unfold. ring. }
    rewrite S2.
    assert (S3 : N (cadd (E (1/2 * h) (u t)) (cscal (RtoC h) (cadd (osub (oscal (1/2) (PHI 1%nat (1/2 * h))) (PHI 2%nat (1/2 * h)) (N1 t h))
        (cadd (PHI 2%nat (1/2 * h) (N2 t h)) (fun _ => RtoC 0))))) = N3 t h).
    { unfold N3, V3. f_equal. apply functional_extensionality. intros i. unfold osub, oadd, oscal. v_unfold. rewrite RtoC_m1. ring. }
    rewrite S3.
    assert (S4 : N (cadd (E (1 * h) (u t)) (cscal (RtoC h) (cadd (osub (PHI 1%nat (1 * h)) (oscal 2 (PHI 2%nat (1 * h))) (N1 t h))
        (cadd (ozero (N2 t h)) (cadd (oscal 2 (PHI 2%nat (1 * h)) (N3 t h)) (fun _ => RtoC 0)))))) = N4 t h).
    { unfold N4, V4. f_equal. apply functional_extensionality. intros i. unfold osub, oadd, oscal, ozero. v_unfold. rewrite RtoC_m1. ring. }
    rewrite S4. unfold V5, B1, B2, B4. apply functional_extensionality. intros i. unfold osub, oadd, oscal. v_unfold. rewrite RtoC_m1. ring.
  Qed.

  (** Linearity, entry by entry. *)
  Lemma P_add k s a b i : (i < n)%nat -> PHI k s (cadd a b) i = (PHI k s a i + PHI k s b i)%C.
  Proof. intros Hi. apply (rl_add _ _ (po_lin _ _ _ _ HP k s) a b i Hi). Qed.
  Lemma P_scal k s (c : R) a i : (i < n)%nat -> PHI k s (rscal c a) i = (RtoC c * PHI k s a i)%C.
  Proof. intros Hi. apply (rl_scal _ _ (po_lin _ _ _ _ HP k s) c a i Hi). Qed.
  Lemma P_sub k s a b i : (i < n)%nat -> PHI k s (csub a b) i = (PHI k s a i - PHI k s b i)%C.
  Proof. intros Hi. apply (rl_sub n _ a b (po_lin _ _ _ _ HP k s) i Hi). Qed.
  Lemma P_ext k th t h a b i : (1 <= k)%nat -> 0 <= th <= 1 -> adm t h -> veq (below n) a b -> (i < n)%nat -> PHI k (th * h) a i = PHI k (th * h) b i.
  Proof.
    intros Hk Hth (H1 & H2 & H3) Hab Hi. destruct (po_near _ _ _ _ HP k Hk) as (B & HB & H).
    assert (A : 0 <= th * h <= tf - t0) by (split; [apply Rmult_le_pos; lra|nra]). specialize (H _ A).
    assert (G := opn_add n _ _ _ _ H (opn_rscal n (/ INR (fact k)) _ _ (opn_id n))).
    refine (rl_ext n (PHI k (th * h)) _ a b (po_lin _ _ _ _ HP k (th * h)) _ Hab i Hi).
    intros v x Hx Hv. eapply vle_ext; [|apply (G v x Hx Hv)]. intros j _. unfold cadd, csub. ring.
  Qed.
  Lemma J_add th t h a b i : 0 <= th <= 1 -> adm t h -> (i < n)%nat -> Jop th t h (cadd a b) i = (Jop th t h a i + Jop th t h b i)%C.
  Proof. intros Hth Ha Hi. apply (rl_add _ _ (Jop_rlinear n p L N t0 tf rho K u f J HS th t h Hth Ha) a b i Hi). Qed.
  Lemma J_scal th t h (c : R) a i : 0 <= th <= 1 -> adm t h -> (i < n)%nat -> Jop th t h (rscal c a) i = (RtoC c * Jop th t h a i)%C.
  Proof. intros Hth Ha Hi. apply (rl_scal _ _ (Jop_rlinear n p L N t0 tf rho K u f J HS th t h Hth Ha) c a i Hi). Qed.

  (** Remainders. *)
  Definition rv m th t h := csub (u (t + th * h)) (cadd (E (th * h) (u t)) (vocsum m t (th * h))).
  Definition rf m th t h := csub (f 0%nat (t + th * h)) (vtay (fun k => f k t) m (th * h)).
  Lemma rv_O m th : (m <= p)%nat -> 0 <= th <= 1 -> O (S m) (rv m th).
  Proof. intros. apply (voc n p L Ex N t0 tf rho K u f J PHI HF HS HP m th); assumption. Qed.
  Lemma rf_O m th : (m <= p)%nat -> 0 <= th <= 1 -> O m (rf m th).
  Proof. intros. apply (f_taylor n p L N t0 tf rho K u f J HS m th); assumption. Qed.
  Definition d2 t h := csub (V2 t h) (u (t + 1/2 * h)).
  Definition d3 t h := csub (V3 t h) (u (t + 1/2 * h)).
  Definition d4 t h := csub (V4 t h) (u (t + 1 * h)).
  Definition q2 t h := Nrem (1/2) t h (d2 t h).
  Definition q3 t h := Nrem (1/2) t h (d3 t h).
  Definition q4 t h := Nrem 1 t h (d4 t h).
  Definition f2t (th : R) t h := cadd (f 0%nat t) (cadd (rscal (th * h) (f 1%nat t)) (rf 2 th t h)).
  Definition f3t (th : R) t h := cadd (f 0%nat t) (cadd (rscal (th * h) (f 1%nat t)) (cadd (rscal ((th * h) ^ 2 / 2) (f 2%nat t)) (rf 3 th t h))).
  Definition f4t (th : R) t h := cadd (f 0%nat t) (cadd (rscal (th * h) (f 1%nat t)) (cadd (rscal ((th * h) ^ 2 / 2) (f 2%nat t)) (cadd (rscal ((th * h) ^ 3 / 6) (f 3%nat t)) (rf 4 th t h)))).
  Lemma f2t_eq th t h i : f 0%nat (t + th * h) i = f2t th t h i.
  Proof. unfold f2t, rf. v_field. Qed.
  Lemma f3t_eq th t h i : f 0%nat (t + th * h) i = f3t th t h i.
  Proof. unfold f3t, rf. v_field. Qed.
  Lemma f4t_eq th t h i : f 0%nat (t + th * h) i = f4t th t h i.
  Proof. unfold f4t, rf. v_field. Qed.

  Lemma N1_eq t h : adm t h -> veq (below n) (N1 t h) (f 0%nat t).
  Proof. intros (H1 & H2 & H3) i Hi. unfold N1. symmetry. apply (so_f0 _ _ _ _ _ _ _ _ _ _ _ HS); [lra|exact Hi]. Qed.
  Lemma N2_eq t h : adm t h -> veq (below n) (N2 t h) (cadd (f 0%nat (t + 1/2 * h)) (cadd (Jop (1/2) t h (d2 t h)) (q2 t h))).
  Proof. intros Ha. apply (N_expand n p L N t0 tf rho K u f J HS (1/2) t h (V2 t h) half Ha). Qed.
  Lemma N3_eq t h : adm t h -> veq (below n) (N3 t h) (cadd (f 0%nat (t + 1/2 * h)) (cadd (Jop (1/2) t h (d3 t h)) (q3 t h))).
  Proof. intros Ha. apply (N_expand n p L N t0 tf rho K u f J HS (1/2) t h (V3 t h) half Ha). Qed.
  Lemma N4_eq t h : adm t h -> veq (below n) (N4 t h) (cadd (f 0%nat (t + 1 * h)) (cadd (Jop 1 t h (d4 t h)) (q4 t h))).
  Proof. intros Ha. apply (N_expand n p L N t0 tf rho K u f J HS 1 t h (V4 t h) one Ha). Qed.

  Ltac lin Hi Ha := repeat first [ rewrite P_add by exact Hi | rewrite P_sub by exact Hi | rewrite P_scal by exact Hi
                                 | rewrite (J_add _ _ _ _ _ _ half Ha Hi) | rewrite (J_scal _ _ _ _ _ _ half Ha Hi) ].
  Ltac voc_unfold := unfold rv, Voc.vocsum, vsum; cbn [csum].

  Lemma d2_eq m t h i : adm t h -> (i < n)%nat ->
    d2 t h i = (RtoC (1/2 * h) * PHI 1%nat (1/2 * h) (f 0%nat t) i - vocsum m t (1/2 * h) i - rv m (1/2) t h i)%C.
  Proof.
    intros Ha Hi. unfold d2, V2, rv. v_unfold. rewrite (P_ext 1 (1/2) t h _ _ i ltac:(lia) half Ha (N1_eq t h Ha) Hi).
    rewrite RtoC_mult. ring.
  Qed.
  Lemma d2_O : (1 <= p)%nat -> O 2 d2.
  Proof.
    intros Hp. eapply O_ext; [|exact (O_const n R adm ap (-1) 2 _ (rv_O 1 (1/2) ltac:(lia) half))].
    intros t h Ha i Hi. rewrite (d2_eq 1 t h i Ha Hi). unfold cscal. set (r := rv 1 (1/2) t h). clearbody r. unfold Voc.vocsum, vsum. cbn [csum pow]. v_field.
  Qed.
  Lemma q2_O : (1 <= p)%nat -> O 4 q2.
  Proof.
    intros Hp. apply (O_quad n R adm ap 2 (Nrem (1/2)) d2 ltac:(lia)); [|apply d2_O; exact Hp].
    apply (Nrem_quad n p L N t0 tf rho K u f J HS (1/2) half).
  Qed.
  (** The two middle stages together. *)
  Definition PJ2 th t h v := PHI 2%nat (th * h) (Jop (1/2) t h v).
  Lemma PJ2_O th : 0 <= th <= 1 -> OO 0 (PJ2 th).
  Proof.
    intros Hth. exact (opO_comp n R adm ap 0 0 _ _ (Pop_O n L t0 tf PHI HP 2 th ltac:(lia) Hth) (Jop_O n p L N t0 tf rho K u f J HS (1/2) half)).
  Qed.
  Lemma d3_eq m t h i : adm t h -> (i < n)%nat ->
    d3 t h i = (RtoC (1/2 * h) * PHI 1%nat (1/2 * h) (f 0%nat t) i - vocsum m t (1/2 * h) i - rv m (1/2) t h i
       + RtoC h * (PHI 2%nat (1/2 * h) (f 0%nat (t + 1/2 * h)) i - PHI 2%nat (1/2 * h) (f 0%nat t) i + PJ2 (1/2) t h (d2 t h) i + PHI 2%nat (1/2 * h) (q2 t h) i))%C.
  Proof.
    intros Ha Hi. unfold d3, V3, rv, PJ2. v_unfold. rewrite (P_ext 1 (1/2) t h _ _ i ltac:(lia) half Ha (N1_eq t h Ha) Hi), (P_ext 2 (1/2) t h _ _ i ltac:(lia) half Ha (N1_eq t h Ha) Hi).
    rewrite (P_ext 2 (1/2) t h _ _ i ltac:(lia) half Ha (N2_eq t h Ha) Hi). lin Hi Ha. rewrite RtoC_mult. ring.
  Qed.
  Lemma d4_eq m t h i : adm t h -> (i < n)%nat ->
    d4 t h i = (RtoC h * PHI 1%nat (1 * h) (f 0%nat t) i - vocsum m t (1 * h) i - rv m 1 t h i
       + RtoC (2 * h) * (PHI 2%nat (1 * h) (f 0%nat (t + 1/2 * h)) i - PHI 2%nat (1 * h) (f 0%nat t) i + PJ2 1 t h (d3 t h) i + PHI 2%nat (1 * h) (q3 t h) i))%C.
  Proof.
    intros Ha Hi. unfold d4, V4, rv, PJ2. v_unfold. rewrite (P_ext 1 1 t h _ _ i ltac:(lia) one Ha (N1_eq t h Ha) Hi), (P_ext 2 1 t h _ _ i ltac:(lia) one Ha (N1_eq t h Ha) Hi).
    rewrite (P_ext 2 1 t h _ _ i ltac:(lia) one Ha (N3_eq t h Ha) Hi). lin Hi Ha. rewrite RtoC_mult. ring.
  Qed.
  Lemma fP m th th' t h i : 0 <= th <= 1 -> 0 <= th' <= 1 -> adm t h -> (i < n)%nat -> (1 <= m)%nat ->
    (PHI m (th * h) (f 0%nat (t + th' * h)) i = PHI m (th * h) (f2t th' t h) i /\
     PHI m (th * h) (f 0%nat (t + th' * h)) i = PHI m (th * h) (f3t th' t h) i /\
     PHI m (th * h) (f 0%nat (t + th' * h)) i = PHI m (th * h) (f4t th' t h) i)%C.
  Proof.
    intros Hth Hth' Ha Hi Hm. repeat split; apply (P_ext m th t h _ _ i Hm Hth Ha); try exact Hi; intros j _; [apply f2t_eq|apply f3t_eq|apply f4t_eq].
  Qed.
  Lemma P_O k th m F : (1 <= k)%nat -> 0 <= th <= 1 -> O m F -> O m (fun t h => PHI k (th * h) (F t h)).
  Proof. intros Hk Hth HFm. exact (O_op n R adm ap 0 m _ _ (Pop_O n L t0 tf PHI HP k th Hk Hth) HFm). Qed.
  (** [PHI k] is [1/k!] up to [O(h)]. *)
  Lemma P_near k th m F : (1 <= k)%nat -> 0 <= th <= 1 -> O m F -> O (S m) (fun t h => csub (PHI k (th * h) (F t h)) (rscal (/ INR (fact k)) (F t h))).
  Proof. intros Hk Hth HFm. exact (O_op n R adm ap 1 m _ _ (Pop_near n L t0 tf PHI HP k th Hk Hth) HFm). Qed.
  Lemma fO k : (k <= p)%nat -> O 0 (fun t h => f k t).
  Proof. apply (f_O n p L N t0 tf rho K u f J HS). Qed.

  Lemma d23_O : (2 <= p)%nat -> O 3 (fun t h => cadd (d2 t h) (d3 t h)).
  Proof.
    intros Hp.
    assert (A1 := O_const n R adm ap (-2) 3 _ (rv_O 2 (1/2) ltac:(lia) half)).
    assert (A2 := O_mul n R adm ap 1 1 2 _ (P_O 2 (1/2) 2 _ ltac:(lia) half (rf_O 2 (1/2) ltac:(lia) half))).
    assert (A3 := O_mul n R adm ap 1 1 2 _ (O_op n R adm ap 0 2 _ _ (PJ2_O (1/2) half) (d2_O ltac:(lia)))).
    assert (A4 := O_mul n R adm ap 1 1 2 _ (P_O 2 (1/2) 2 _ ltac:(lia) half (O_weak n R adm ap 2 4 _ ltac:(lia) (q2_O ltac:(lia))))).
    eapply O_ext; [|exact (O_add n R adm 3 _ _ (O_add n R adm 3 _ _ A1 A2) (O_add n R adm 3 _ _ A3 A4))].
    intros t h Ha i Hi. cbn beta. unfold cadd at 4. rewrite (d3_eq 2 t h i Ha Hi), (d2_eq 2 t h i Ha Hi).
    rewrite (proj1 (fP 2 (1/2) (1/2) t h i half half Ha Hi ltac:(lia))). unfold f2t. lin Hi Ha.
    set (r := rv 2 (1/2) t h). clearbody r. set (r' := rf 2 (1/2) t h). clearbody r'. set (x := d2 t h). clearbody x.
    unfold Voc.vocsum, vsum. cbn [csum]. v_field.
  Qed.
  Lemma d3_O : (2 <= p)%nat -> O 2 d3.
  Proof.
    intros Hp. eapply O_ext; [|exact (O_sub n R adm 2 _ _ (O_weak n R adm ap 2 3 _ ltac:(lia) (d23_O Hp)) (d2_O ltac:(lia)))].
    intros t h Ha i Hi. cbn beta. v_unfold. ring.
  Qed.
  Lemma q3_O : (2 <= p)%nat -> O 4 q3.
  Proof.
    intros Hp. apply (O_quad n R adm ap 2 (Nrem (1/2)) d3 ltac:(lia)); [|apply d3_O; exact Hp].
    apply (Nrem_quad n p L N t0 tf rho K u f J HS (1/2) half).
  Qed.
  Lemma d4_O : (2 <= p)%nat -> O 3 d4.
  Proof.
    intros Hp.
    assert (A1 := O_const n R adm ap (-1) 3 _ (rv_O 2 1 ltac:(lia) one)).
    assert (A2 := O_mul n R adm ap 2 1 2 _ (P_O 2 1 2 _ ltac:(lia) one (rf_O 2 (1/2) ltac:(lia) half))).
    assert (A3 := O_mul n R adm ap 2 1 2 _ (O_op n R adm ap 0 2 _ _ (PJ2_O 1 one) (d3_O ltac:(lia)))).
    assert (A4 := O_mul n R adm ap 2 1 2 _ (P_O 2 1 2 _ ltac:(lia) one (O_weak n R adm ap 2 4 _ ltac:(lia) (q3_O ltac:(lia))))).
    eapply O_ext; [|exact (O_add n R adm 3 _ _ (O_add n R adm 3 _ _ A1 A2) (O_add n R adm 3 _ _ A3 A4))].
    intros t h Ha i Hi. cbn beta. rewrite (d4_eq 2 t h i Ha Hi).
    rewrite (proj1 (fP 2 1 (1/2) t h i one half Ha Hi ltac:(lia))). unfold f2t. lin Hi Ha.
    set (r := rv 2 1 t h). clearbody r. set (r' := rf 2 (1/2) t h). clearbody r'. set (x := d3 t h). clearbody x.
    unfold Voc.vocsum, vsum. cbn [csum]. v_field.
  Qed.
  Lemma q4_O : (2 <= p)%nat -> O 6 q4.
  Proof.
    intros Hp. apply (O_quad n R adm ap 3 (Nrem 1) d4 ltac:(lia)); [|apply d4_O; exact Hp].
    apply (Nrem_quad n p L N t0 tf rho K u f J HS 1 one).
  Qed.
  (** The errors of the stages cancel to the next order. *)
  Lemma d234_O : (3 <= p)%nat -> O 4 (fun t h => cadd (rscal 2 (cadd (d2 t h) (d3 t h))) (d4 t h)).
  Proof.
    intros Hp.
    assert (A1 := O_const n R adm ap (-4) 4 _ (rv_O 3 (1/2) ltac:(lia) half)).
    assert (A2 := O_const n R adm ap (-1) 4 _ (rv_O 3 1 ltac:(lia) one)).
    assert (A3 := O_mul n R adm ap 2 1 3 _ (P_O 2 (1/2) 3 _ ltac:(lia) half (rf_O 3 (1/2) ltac:(lia) half))).
    assert (A4 := O_mul n R adm ap 2 1 3 _ (P_O 2 1 3 _ ltac:(lia) one (rf_O 3 (1/2) ltac:(lia) half))).
    assert (A5 := O_mul n R adm ap 2 1 3 _ (P_O 2 (1/2) 3 _ ltac:(lia) half (O_weak n R adm ap 3 4 _ ltac:(lia) (q2_O ltac:(lia))))).
    assert (A6 := O_mul n R adm ap 2 1 3 _ (P_O 2 1 3 _ ltac:(lia) one (O_weak n R adm ap 3 4 _ ltac:(lia) (q3_O ltac:(lia))))).
    (* h^3 f2 terms *)
    assert (F2 := fO 2 ltac:(lia)).
    assert (A7 := O_mul n R adm ap (1/4) 3 1 _ (P_near 2 (1/2) 0 _ ltac:(lia) half F2)).
    assert (A8 := O_mul n R adm ap (-1/2) 3 1 _ (P_near 3 (1/2) 0 _ ltac:(lia) half F2)).
    assert (A9 := O_mul n R adm ap (1/4) 3 1 _ (P_near 2 1 0 _ ltac:(lia) one F2)).
    assert (A10 := O_mul n R adm ap (-1) 3 1 _ (P_near 3 1 0 _ ltac:(lia) one F2)).
    (* J terms *)
    assert (Jm := Jop_O n p L N t0 tf rho K u f J HS (1/2) half).
    assert (A11 := O_mul n R adm ap 2 1 3 _ (P_near 2 (1/2) 2 _ ltac:(lia) half (O_op n R adm ap 0 2 _ _ Jm (d2_O ltac:(lia))))).
    assert (A12 := O_mul n R adm ap 2 1 3 _ (P_near 2 1 2 _ ltac:(lia) one (O_op n R adm ap 0 2 _ _ Jm (d3_O ltac:(lia))))).
    assert (A13 := O_mul n R adm ap 1 1 3 _ (O_op n R adm ap 0 3 _ _ Jm (d23_O ltac:(lia)))).
    eapply O_ext; [|exact (O_add n R adm 4 _ _ (O_add n R adm 4 _ _ (O_add n R adm 4 _ _ A1 A2) (O_add n R adm 4 _ _ A3 A4))
       (O_add n R adm 4 _ _ (O_add n R adm 4 _ _ A5 A6) (O_add n R adm 4 _ _ (O_add n R adm 4 _ _ (O_add n R adm 4 _ _ A7 A8) (O_add n R adm 4 _ _ A9 A10))
         (O_add n R adm 4 _ _ A11 (O_add n R adm 4 _ _ A12 A13)))))].
    intros t h Ha i Hi. cbn beta.
    match goal with |- ?a = ?b => set (lhs := a) end.
    v_unfold. rewrite (d4_eq 3 t h i Ha Hi), (d3_eq 3 t h i Ha Hi), (d2_eq 3 t h i Ha Hi).
    rewrite (proj1 (proj2 (fP 2 1 (1/2) t h i one half Ha Hi ltac:(lia)))), (proj1 (proj2 (fP 2 (1/2) (1/2) t h i half half Ha Hi ltac:(lia)))).
    unfold f3t. lin Hi Ha. unfold lhs, PJ2. clear lhs.
    set (r := rv 3 1 t h). clearbody r. set (r1 := rv 3 (1/2) t h). clearbody r1. set (r' := rf 3 (1/2) t h). clearbody r'.
    set (x := d3 t h). clearbody x. set (y := d2 t h). clearbody y. set (z := q3 t h). clearbody z. set (w := q2 t h). clearbody w.
    unfold Voc.vocsum, vsum. cbn [csum]. unfold cadd, csub, cscal.
    fold (cadd y x). lin Hi Ha. v_unfold. gen_entries. c_field.
  Qed.
  (** One step. *)
  Theorem kro_local : (4 <= p)%nat -> O 5 (fun t h => csub (erk_step (gkro h) N h (u t)) (u (t + h))).
  Proof.
    intros Hp.
    assert (Jm := Jop_O n p L N t0 tf rho K u f J HS (1/2) half). assert (Je := Jop_O n p L N t0 tf rho K u f J HS 1 one).
    assert (A0 := O_const n R adm ap (-1) 5 _ (rv_O 4 1 ltac:(lia) one)).
    assert (A1 := O_mul n R adm ap (4) 1 4 _ (P_O 2 1 4 _ ltac:(lia) one (rf_O 4 (1/2) ltac:(lia) half))).
    assert (A2 := O_mul n R adm ap (-8) 1 4 _ (P_O 3 1 4 _ ltac:(lia) one (rf_O 4 (1/2) ltac:(lia) half))).
    assert (A3 := O_mul n R adm ap (-1) 1 4 _ (P_O 2 1 4 _ ltac:(lia) one (rf_O 4 1 ltac:(lia) one))).
    assert (A4 := O_mul n R adm ap (4) 1 4 _ (P_O 3 1 4 _ ltac:(lia) one (rf_O 4 1 ltac:(lia) one))).
    assert (A5 := O_mul n R adm ap (2) 1 4 _ (P_O 2 1 4 _ ltac:(lia) one (q2_O ltac:(lia)))).
    assert (A6 := O_mul n R adm ap (-4) 1 4 _ (P_O 3 1 4 _ ltac:(lia) one (q2_O ltac:(lia)))).
    assert (A7 := O_mul n R adm ap (2) 1 4 _ (P_O 2 1 4 _ ltac:(lia) one (q3_O ltac:(lia)))).
    assert (A8 := O_mul n R adm ap (-4) 1 4 _ (P_O 3 1 4 _ ltac:(lia) one (q3_O ltac:(lia)))).
    assert (A9 := O_mul n R adm ap (-1) 1 4 _ (P_O 2 1 4 _ ltac:(lia) one (O_weak n R adm ap 4 6 _ ltac:(lia) (q4_O ltac:(lia))))).
    assert (A10 := O_mul n R adm ap (4) 1 4 _ (P_O 3 1 4 _ ltac:(lia) one (O_weak n R adm ap 4 6 _ ltac:(lia) (q4_O ltac:(lia))))).
    assert (A11 := O_mul n R adm ap (-1/12) 4 1 _ (P_near 2 1 0 _ ltac:(lia) one (fO 3 ltac:(lia)))).
    assert (A12 := O_mul n R adm ap (1/2) 4 1 _ (P_near 3 1 0 _ ltac:(lia) one (fO 3 ltac:(lia)))).
    assert (A13 := O_mul n R adm ap (-1) 4 1 _ (P_near 4 1 0 _ ltac:(lia) one (fO 3 ltac:(lia)))).
    assert (A14 := O_mul n R adm ap (2) 1 4 _ (P_near 2 1 3 _ ltac:(lia) one (O_op n R adm ap 0 3 _ _ Jm (d23_O ltac:(lia))))).
    assert (A15 := O_mul n R adm ap (-4) 1 4 _ (P_near 3 1 3 _ ltac:(lia) one (O_op n R adm ap 0 3 _ _ Jm (d23_O ltac:(lia))))).
    assert (A16 := O_mul n R adm ap (-1) 1 4 _ (P_near 2 1 3 _ ltac:(lia) one (O_op n R adm ap 0 3 _ _ Je (d4_O ltac:(lia))))).
    assert (A17 := O_mul n R adm ap (4) 1 4 _ (P_near 3 1 3 _ ltac:(lia) one (O_op n R adm ap 0 3 _ _ Je (d4_O ltac:(lia))))).
    assert (A18 := O_mul n R adm ap (1/6) 1 4 _ (O_op n R adm ap 0 4 _ _ Jm (d234_O ltac:(lia)))).
    assert (A19 := O_mul n R adm ap (1/6) 1 4 _ (O_op n R adm ap 1 3 _ _ (Jop_diff n p L N t0 tf rho K u f J HS 1 (1/2) one half) (d4_O ltac:(lia)))).
    eapply O_ext; [|exact (O_add n R adm 5 _ _ A0 (O_add n R adm 5 _ _ A1 (O_add n R adm 5 _ _ A2 (O_add n R adm 5 _ _ A3 (O_add n R adm 5 _ _ A4 (O_add n R adm 5 _ _ A5 (O_add n R adm 5 _ _ A6 (O_add n R adm 5 _ _ A7 (O_add n R adm 5 _ _ A8 (O_add n R adm 5 _ _ A9 (O_add n R adm 5 _ _ A10 (O_add n R adm 5 _ _ A11 (O_add n R adm 5 _ _ A12 (O_add n R adm 5 _ _ A13 (O_add n R adm 5 _ _ A14 (O_add n R adm 5 _ _ A15 (O_add n R adm 5 _ _ A16 (O_add n R adm 5 _ _ A17 (O_add n R adm 5 _ _ A18 A19)))))))))))))))))))].
    intros t h Ha i Hi. cbn beta. rewrite kro_stages.
    match goal with |- ?a = ?b => set (lhs := a) end.
    unfold V5, B1, B2, B4. v_unfold.
    rewrite (P_ext 1 1 t h _ _ i ltac:(lia) one Ha (N1_eq t h Ha) Hi), (P_ext 2 1 t h _ _ i ltac:(lia) one Ha (N1_eq t h Ha) Hi), (P_ext 3 1 t h _ _ i ltac:(lia) one Ha (N1_eq t h Ha) Hi).
    rewrite (P_ext 2 1 t h _ _ i ltac:(lia) one Ha (N2_eq t h Ha) Hi), (P_ext 3 1 t h _ _ i ltac:(lia) one Ha (N2_eq t h Ha) Hi).
    rewrite (P_ext 2 1 t h _ _ i ltac:(lia) one Ha (N3_eq t h Ha) Hi), (P_ext 3 1 t h _ _ i ltac:(lia) one Ha (N3_eq t h Ha) Hi).
    rewrite (P_ext 2 1 t h _ _ i ltac:(lia) one Ha (N4_eq t h Ha) Hi), (P_ext 3 1 t h _ _ i ltac:(lia) one Ha (N4_eq t h Ha) Hi).
    rewrite !P_add by exact Hi.
    rewrite (proj2 (proj2 (fP 2 1 (1/2) t h i one half Ha Hi ltac:(lia)))), (proj2 (proj2 (fP 3 1 (1/2) t h i one half Ha Hi ltac:(lia)))).
    rewrite (proj2 (proj2 (fP 2 1 1 t h i one one Ha Hi ltac:(lia)))), (proj2 (proj2 (fP 3 1 1 t h i one one Ha Hi ltac:(lia)))).
    unfold f4t. lin Hi Ha.
    assert (U : u (t + h) i = (E (1 * h) (u t) i + vocsum 4 t (1 * h) i + rv 4 1 t h i)%C) by (unfold rv; v_unfold; rewrite !Rmult_1_l; ring).
    rewrite U. unfold lhs. clear lhs U.
    set (r := rv 4 1 t h). clearbody r. set (r1 := rf 4 (1/2) t h). clearbody r1. set (r2 := rf 4 1 t h). clearbody r2.
    set (x2 := d2 t h). clearbody x2. set (x3 := d3 t h). clearbody x3. set (x4 := d4 t h). clearbody x4.
    set (y2 := q2 t h). clearbody y2. set (y3 := q3 t h). clearbody y3. set (y4 := q4 t h). clearbody y4.
    assert (PJ : forall k, (1 <= k)%nat -> PHI k (1 * h) (Jop (1/2) t h (cadd x2 x3)) i = (PHI k (1 * h) (Jop (1/2) t h x2) i + PHI k (1 * h) (Jop (1/2) t h x3) i)%C).
    { intros k Hk. rewrite <- P_add by exact Hi. apply (P_ext k 1 t h _ _ i Hk one Ha); [|exact Hi]. intros j Hj. apply (J_add (1/2) t h x2 x3 j half Ha Hj). }
    assert (P2 := PJ 2%nat ltac:(lia)). assert (P3 := PJ 3%nat ltac:(lia)). clear PJ.
    assert (J1 := J_add (1/2) t h x2 x3 i half Ha Hi).
    assert (J2 : Jop (1/2) t h (cadd (rscal 2 (cadd x2 x3)) x4) i = (2 * (Jop (1/2) t h x2 i + Jop (1/2) t h x3 i) + Jop (1/2) t h x4 i)%C).
    { rewrite (J_add (1/2) t h _ _ i half Ha Hi), (J_scal (1/2) t h _ _ i half Ha Hi), J1. reflexivity. }
    set (a2 := PHI 2%nat (1 * h) (Jop (1/2) t h (cadd x2 x3))) in *. set (a3 := PHI 3%nat (1 * h) (Jop (1/2) t h (cadd x2 x3))) in *.
    set (j2 := Jop (1/2) t h (cadd (rscal 2 (cadd x2 x3)) x4)) in *. set (j1 := Jop (1/2) t h (cadd x2 x3)) in *.
    clearbody a2 a3 j2 j1. v_unfold. unfold Voc.vocsum, vsum. cbn [csum]. v_unfold. rewrite P2, P3, J2, J1. clear P2 P3 J2 J1.
    gen_entries. c_field.
  Qed.
End KroLocal.
