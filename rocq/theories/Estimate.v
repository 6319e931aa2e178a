(** * Differences of two methods near a smooth solution

    Spec file: the error estimate of an embedded pair is the difference of the steps of two methods. If both have local
    errors [O(h^(p+1))], the estimate is [O(h (h^p + d + e))] for starting values within [d] of the solution and
    coefficients within [e] of those of the two methods. *)

From Coq Require Import ZArith List Bool Arith Reals Lra Lia QArith Qreals FunctionalExtensionality Setoid Morphisms.
From Coquelicot Require Import Complex.
From Verif Require Import CInst SpecRK SpecERK SchemeIFReal SpecPhi ContourReal SchemeETDReal ContourMatrix MatrixFlow Asym Solution Stable Converge Voc
     LocalKro MatExp ConvMethods OrderWords OrderLocal OrderMethods OrderSharp PropsIF PropsETD PropsOrder5.
Import ListNotations.
Local Open Scope R_scope.

(** ** Two methods with the same exponential *)
Lemma coef_self n A e P Q : coef n A e P Q -> coef n A 0 P P.
Proof.
  intros (H1 & H2 & _). split; [exact H1|]. split; [exact H2|]. intros v x Hx Hv. rewrite Rmult_0_l. apply vle_eq_0. reflexivity.
Qed.
Lemma close_self n A S h e m m' : erk_close n A S h e m m' -> erk_close n A S h 0 m m.
Proof.
  assert (G : forall l l', Forall2 (coef n A e) l l' -> Forall2 (coef n A 0) l l).
  { intros l l'. induction 1 as [|P Q l l' H _ IH]; constructor; [apply (coef_self n A e P Q H)|exact IH]. }
  intros [H1 H2 H3 H4 H5 H6 H7 H8 H9]. split; try assumption; try reflexivity.
  - clear - G H5. induction H5 as [|r r' l l' H _ IH]; constructor; [apply (G r r' H)|exact IH].
  - apply (G _ _ H6).
Qed.

Section Pair.
  Variables n q : nat.
  Variable L : nat -> nat -> C.
  Variable N : cvec -> cvec.
  Variables t0 tf rho K : R.
  Variable u : R -> cvec.
  Variable f : nat -> R -> cvec.
  Variable J : R -> cvec -> cvec.
  Hypothesis HS : smooth n q L N t0 tf rho K u f J.

  (** One step of a method whose coefficients are within [e] of those of [m], from a value within [d] of the solution. *)
  Lemma near_step A S : 0 <= A -> exists C h0, 0 <= C /\ 0 < h0 /\
    forall m m' t h v d e, erk_close n A S h e m m' -> t0 <= t <= tf -> 0 < h <= h0 -> 0 <= d <= rho / 2 -> 0 <= e <= 1 ->
      vle n (csub v (u t)) d ->
      vle n (csub (csub (erk_step m' N h v) (erk_step m N h (u t))) (csub v (u t))) (C * h * (d + e)).
  Proof.
    intros HA. assert (HK := so_K _ _ _ _ _ _ _ _ _ _ _ HS). assert (Hrho := so_rho _ _ _ _ _ _ _ _ _ _ _ HS).
    exists (Cst A K rho S), (hmax A K rho S). assert (HC := Cst_pos A K rho S HA HK Hrho).
    split; [exact HC|]. split; [apply hmax_pos; assumption|]. intros m m' t h v d e Hcl Ht Hh Hd He Hv.
    assert (G1 := erk_incr n q L N t0 tf rho K u f J HS m A h S HA (proj1 Hh) (proj2 Hh) (close_self n A S h e m m' Hcl) t v d Ht Hd Hv).
    assert (HN : vle n (N (u t)) K).
    { apply (vle_ext n (f 0%nat t)); [apply (so_f0 _ _ _ _ _ _ _ _ _ _ _ HS); exact Ht|].
      apply (so_bnd _ _ _ _ _ _ _ _ _ _ _ HS); [lia|exact Ht]. }
    assert (Hv2 : vle n (csub v (u t)) (rho / 2)) by (apply (vle_mono n _ d); [exact Hv|lra]).
    assert (G2 := erk_pert n N A K rho S HA HK Hrho (u t) (so_u _ _ _ _ _ _ _ _ _ _ _ HS t Ht) HN
             (fun v w x => fun Hx Hv Hw => so_lip _ _ _ _ _ _ _ _ _ _ _ HS t v w x Ht Hx Hv Hw) h e (proj1 Hh) (proj2 Hh) He v v 0 Hv2 Hv2 (Rle_refl 0)
             (vle_eq_0 n _ _ (fun _ _ => eq_refl)) m m' Hcl).
    apply vle_sym in G2.
    eapply vle_mono; [eapply vle_ext; [|exact (vle_add n _ _ _ _ G2 G1)]|].
    - intros i _. unfold cadd, csub. ring.
    - rewrite Rmult_0_r. lra.
  Qed.

  (** Two methods with local errors [O(h^(p+1))]. *)
  Variable p : nat.
  Variables m1 m2 : R -> erk.
  Hypothesis Hloc1 : bigO n R (adm t0 tf) (S p) (fun t h => csub (erk_step (m1 h) N h (u t)) (u (t + h))).
  Hypothesis Hloc2 : bigO n R (adm t0 tf) (S p) (fun t h => csub (erk_step (m2 h) N h (u t)) (u (t + h))).
  Theorem pair_estimate A1 S1 A2 S2 : 0 <= A1 -> 0 <= A2 -> exists C h0 r0, 0 <= C /\ 0 < h0 /\ 0 < r0 /\
    forall m1' m2' t h v d e, erk_close n A1 S1 h e (m1 h) m1' -> erk_close n A2 S2 h e (m2 h) m2' ->
      t0 <= t -> 0 < h <= h0 -> t + h <= tf -> 0 <= d -> 0 <= e -> d + e <= r0 -> vle n (csub v (u t)) d ->
      vle n (csub (erk_step m1' N h v) (erk_step m2' N h v)) (C * h * (h ^ p + d + e)).
  Proof.
    intros HA1 HA2. destruct Hloc1 as (C1 & h1 & HC1 & Hh1 & G1). destruct Hloc2 as (C2 & h2 & HC2 & Hh2 & G2).
    destruct (near_step A1 S1 HA1) as (D1 & k1 & HD1 & Hk1 & P1). destruct (near_step A2 S2 HA2) as (D2 & k2 & HD2 & Hk2 & P2).
    assert (Hrho := so_rho _ _ _ _ _ _ _ _ _ _ _ HS).
    exists (C1 + C2 + D1 + D2), (Rmin (Rmin h1 h2) (Rmin k1 k2)), (Rmin 1 (rho / 2)).
    split; [lra|]. split; [repeat apply Rmin_glb_lt; assumption|]. split; [apply Rmin_glb_lt; lra|].
    intros m1' m2' t h v d e Hc1 Hc2 Ht Hh Hth Hd He Hde Hv.
    assert (M1 := Rmin_l (Rmin h1 h2) (Rmin k1 k2)). assert (M2 := Rmin_r (Rmin h1 h2) (Rmin k1 k2)).
    assert (M3 := Rmin_l h1 h2). assert (M4 := Rmin_r h1 h2). assert (M5 := Rmin_l k1 k2). assert (M6 := Rmin_r k1 k2).
    assert (M7 := Rmin_l 1 (rho / 2)). assert (M8 := Rmin_r 1 (rho / 2)).
    assert (Q1 := P1 _ _ t h v d e Hc1 ltac:(lra) ltac:(lra) ltac:(lra) ltac:(lra) Hv).
    assert (Q2 := P2 _ _ t h v d e Hc2 ltac:(lra) ltac:(lra) ltac:(lra) ltac:(lra) Hv).
    assert (R1 := G1 t h (conj Ht (conj (proj1 Hh) Hth)) ltac:(lra)). assert (R2 := G2 t h (conj Ht (conj (proj1 Hh) Hth)) ltac:(lra)).
    cbn beta in R1, R2. cbn [pow] in R1, R2.
    eapply vle_mono; [eapply vle_ext; [|exact (vle_add n _ _ _ _ (vle_add n _ _ _ _ Q1 R1) (vle_rscal n (-1) _ _ (vle_add n _ _ _ _ Q2 R2)))]|].
    - intros i _. unfold cadd, csub, cscal. rewrite RtoC_m1. ring.
    - rewrite (Rabs_left (-1)) by lra. assert (P : 0 <= h ^ p) by (apply pow_le; lra).
      assert (X1 : 0 <= (D1 + D2) * h * h ^ p) by (apply Rmult_le_pos; [apply Rmult_le_pos; lra|exact P]).
      assert (X2 : 0 <= (C1 + C2) * h * (d + e)) by (apply Rmult_le_pos; [apply Rmult_le_pos; lra|lra]).
      lra.
  Qed.
End Pair.

(** ** The embedded methods as tables *)
Definition KRO_rows : list row :=
  let h := (1#2)%Q in
  [mk_row 0 []; mk_row h [[tp (1#2) 1 h]]; mk_row h [[tp (1#2) 1 h; tp (-1) 2 h]; [tp 1 2 h]];
   mk_row 1 [[tp 1 1 1; tp (-2) 2 1]; []; [tp 2 2 1]]].
Definition KRO_last : row :=
  mk_row 1 [[tp 1 1 1; tp (-3) 2 1; tp 4 3 1]; [tp 2 2 1; tp (-4) 3 1]; [tp 2 2 1; tp (-4) 3 1]; [tp (-1) 2 1; tp 4 3 1]].
(** Krogstad's method, and the method embedded in it. *)
Definition KRO_table : method := mk_method KRO_rows KRO_last.
Definition KROE_table : method := mk_method (KRO_rows ++ [KRO_last]) (mk_row 1 (firstn 3 (r_a KRO_last) ++ [[]; [tp (-1) 2 1; tp 4 3 1]])).
(** The method embedded in ETD35. *)
Definition ETD5E_table : method :=
  let times q := map (fun x : pterm => tp (Qred (q * fst (fst x))) (snd (fst x)) (snd x)) in
  let b := r_a (mt_last ETD5_table) in let b4 := nth 4 b [] in
  mk_method (mt_stages ETD5_table)
    (mk_row 1 [nth 0 b [] ++ b4; []; nth 2 b [] ++ times (-4)%Q b4; nth 3 b [] ++ times 6%Q b4; times (-3)%Q b4; nth 5 b [] ++ b4]).

(** The methods with the phi functions of [PH]. *)
Definition gkroe (n : nat) (Ex : R -> nat -> nat -> C) (PH : nat -> R -> cvec -> cvec) (h : R) : erk :=
  krogstad_embedded (mflow n Ex (1/2 * h)) (mflow n Ex (1 * h)) (PH 1%nat (1/2 * h)) (PH 2%nat (1/2 * h)) (PH 1%nat (1 * h)) (PH 2%nat (1 * h)) (PH 3%nat (1 * h)).
Definition getd5e (n : nat) (Ex : R -> nat -> nat -> C) (PH : nat -> R -> cvec -> cvec) (h : R) : erk :=
  let E q := mflow n Ex (q * h) in let P k q := PH k (q * h) in
  etd5_embedded (E (1/4)) (E (1/2)) (E (3/4)) (E 1) (P 1%nat (1/4)) (P 2%nat (1/4)) (P 1%nat (1/2)) (P 2%nat (1/2)) (P 1%nat (3/4)) (P 2%nat (3/4))
    (P 1%nat 1) (P 2%nat 1) (P 3%nat 1).

Section Tables.
  Variable n : nat.
  Variable L : nat -> nat -> C.
  Variable T : R.
  Variable Ex : R -> nat -> nat -> C.
  Variable PH : nat -> R -> cvec -> cvec.
  Hypothesis HF : matflow n L Ex.
  Hypothesis HP : phi_family n L T Ex PH.
  Ltac tables B :=
    repeat (apply Forall2_cons || apply Forall2_nil); try (apply (PH_0 n L T Ex PH HP));
    try (intros v w H i Hi; rewrite Rmult_0_l, (PH_0 n L T Ex PH HP 0 v w H i Hi); exact (flow_0 _ _ (mf_flow n L Ex HF) w i Hi));
    intros v w H i Hi; cbn [pop fold_right tp fst snd]; rewrite ?q14, ?q12, ?q34, ?Q2R_1; unfold osub; unfold oadd, oscal, ozero, cadd, cscal, czero;
        rewrite ?(PH_ext n L T Ex PH HP _ _ v w (B (1/4) ltac:(lra)) H i Hi), ?(PH_ext n L T Ex PH HP _ _ v w (B (1/2) ltac:(lra)) H i Hi),
                ?(PH_ext n L T Ex PH HP _ _ v w (B (3/4) ltac:(lra)) H i Hi), ?(PH_ext n L T Ex PH HP _ _ v w (B 1 ltac:(lra)) H i Hi);
        repeat match goal with |- context [PH ?k ?s w i] => let x := fresh "x" in set (x := PH k s w i); clearbody x; destruct x end;
        apply C_eq; cbn; unfold Q2R; cbn; lra.
  Lemma q_range h : 0 < h <= T -> forall q, 0 <= q <= 1 -> 0 <= q * h <= T.
  Proof. intros Hh q Hq. split; [apply Rmult_le_pos; lra|nra]. Qed.
  Lemma kro_table_eq h : 0 < h <= T -> erk_eq (below n) (table_erk PH KRO_table h) (gkro n Ex PH h).
  Proof.
    intros Hh. assert (B := q_range h Hh).
    split; unfold table_erk, gkro, krogstad, KRO_table, KRO_rows, KRO_last; cbn [er_E er_a er_E1 er_b map mt_stages mt_last];
      unfold row_E, row_ops; cbn [r_c r_a map]; rewrite ?q14, ?q12, ?q34, ?Q2R_1, ?Q2R_0; tables B.
  Qed.
  Lemma kroe_table_eq h : 0 < h <= T -> erk_eq (below n) (table_erk PH KROE_table h) (gkroe n Ex PH h).
  Proof.
    intros Hh. assert (B := q_range h Hh).
    split; unfold table_erk, gkroe, krogstad_embedded, krogstad, KROE_table, KRO_rows, KRO_last;
      cbn [er_E er_a er_E1 er_b map mt_stages mt_last app firstn r_a];
      unfold row_E, row_ops; cbn [r_c r_a map]; rewrite ?q14, ?q12, ?q34, ?Q2R_1, ?Q2R_0; tables B.
  Qed.
  Lemma etd5e_table_eq h : 0 < h <= T -> erk_eq (below n) (table_erk PH ETD5E_table h) (getd5e n Ex PH h).
  Proof.
    intros Hh. assert (B := q_range h Hh). destruct (etd5_table_eq n L T Ex PH HF HP h Hh) as [X1 X2 X3 X4].
    split; [exact X1|exact X2|exact X3|]. clear X1 X2 X3 X4.
    unfold table_erk, getd5e, etd5_embedded, etd5_method, ETD5E_table, ETD5_table;
      cbn [er_E er_a er_E1 er_b map mt_stages mt_last app nth r_a];
      unfold row_E, row_ops; cbn [r_c r_a map]; rewrite ?q14, ?q12, ?q34, ?Q2R_1, ?Q2R_0; tables B.
  Qed.
End Tables.

(** ** Local errors of order three and four *)
Section Errors.
  Variables n p : nat.
  Variable L : nat -> nat -> C.
  Variable Ex : R -> nat -> nat -> C.
  Variable N : cvec -> cvec.
  Variables t0 tf rho K : R.
  Variable u : R -> cvec.
  Variable f : nat -> R -> cvec.
  Variables J J1 : R -> cvec -> cvec.
  Variable PH : nat -> R -> cvec -> cvec.
  Hypothesis HF : matflow n L Ex.
  Hypothesis HS : smooth n p L N t0 tf rho K u f J.
  Hypothesis HJ : Jsmooth n t0 tf K J J1.
  Hypothesis HP : phi_family n L (tf - t0) Ex PH.
  Notation err m := (fun t h => csub (erk_step (m h) N h (u t)) (u (t + h))).
  Let HN := so_N _ _ _ _ _ _ _ _ _ _ _ HS.

  Lemma tab_local D tb (g : R -> erk) : (D <= p)%nat -> method_ok tb = true -> flocal D tb = ([], D) ->
    (forall h, 0 < h <= tf - t0 -> erk_eq (below n) (table_erk PH tb h) (g h)) -> bigO n R (adm t0 tf) (S D) (err g).
  Proof.
    intros HD Hok E Hg. assert (X := table_local n p L Ex N t0 tf rho K u f J J1 PH HF HS HJ HP D tb HD Hok). rewrite E in X. cbn [fst snd] in X.
    eapply O_ext; [|exact X]. intros t h (A1 & A2 & A3) i Hi. rewrite fval_nil. unfold csub, czero.
    rewrite (erk_step_ext (below n) N HN _ _ h (u t) (u t) (Hg h ltac:(lra)) (fun _ _ => eq_refl) i Hi). ring.
  Qed.
  Hypothesis H4 : (4 <= p)%nat.
  Lemma if34_locals : bigO n R (adm t0 tf) 5 (err (law_erk RK4_fsal (mflow n Ex))) /\
    bigO n R (adm t0 tf) 4 (err (law_erk (without_weights RK4_fsal RK4_fsal_hat) (mflow n Ex))).
  Proof.
    split; [apply (tab_local 4 (law_table RK4_fsal))|apply (tab_local 3 (law_table (without_weights RK4_fsal RK4_fsal_hat)))];
      try lia; try (vm_compute; reflexivity); intros h _; apply (law_table_eq n L (tf - t0) Ex PH HP); reflexivity.
  Qed.
  Lemma kro_locals : bigO n R (adm t0 tf) 5 (err (gkro n Ex PH)) /\ bigO n R (adm t0 tf) 4 (err (gkroe n Ex PH)).
  Proof.
    split; [apply (tab_local 4 KRO_table)|apply (tab_local 3 KROE_table)]; try lia; try (vm_compute; reflexivity); intros h Hh;
      [apply (kro_table_eq n L (tf - t0))|apply (kroe_table_eq n L (tf - t0))]; assumption.
  Qed.
  Lemma etd5_locals : bigO n R (adm t0 tf) 5 (err (getd5 n Ex PH)) /\ bigO n R (adm t0 tf) 4 (err (getd5e n Ex PH)).
  Proof.
    split; [apply (tab_local 4 ETD5_table)|apply (tab_local 3 ETD5E_table)]; try lia; try (vm_compute; reflexivity); intros h Hh;
      [apply (etd5_table_eq n L (tf - t0))|apply (etd5e_table_eq n L (tf - t0))]; assumption.
  Qed.
End Errors.

(** ** Approximate coefficients *)
Lemma close_weak n A A' S h e e' m m' : 0 <= h -> A <= A' -> e <= e' -> erk_close n A S h e m m' -> erk_close n A' S h e' m m'.
Proof.
  intros Hh HA He [H1 H2 H3 H4 H5 H6 H7 H8 H9].
  assert (W : forall E, near_id n A h E -> near_id n A' h E).
  { intros E [X1 X2]. split; [exact X1|]. apply (opn_mono n _ (A * h)); [exact X2|]. apply Rmult_le_compat_r; assumption. }
  split; try assumption.
  - clear - W H1. induction H1; constructor; auto.
  - apply W. exact H2.
  - eapply Forall2_weaken; [|exact H5]. intros r r'. apply Forall2_weaken. intros P Q. apply coef_weak; assumption.
  - eapply Forall2_weaken; [|exact H6]. intros P Q. apply coef_weak; assumption.
Qed.
Section Close.
  Variable n : nat.
  Ltac cf := match goal with
    | H : coef n _ _ ?P ?Q |- coef n _ _ ?P ?Q => exact H
    | |- coef n _ _ (osub _ _) _ => eapply coef_sub; cf
    | |- coef n _ _ (oadd _ _) _ => eapply coef_add; cf
    | |- coef n _ _ (oscal _ _) _ => eapply coef_scal; cf
    | |- coef n _ _ ozero _ => eapply coef_zero end.
  Ltac abs := repeat match goal with |- context [Rabs ?c] => first [rewrite (Rabs_pos_eq c) by lra | rewrite (Rabs_left c) by lra] end; lra.
  Ltac goco := eapply coef_weak; [| |cf]; abs.
  Ltac parts := repeat (apply Forall2_cons || apply Forall2_nil || apply Forall_cons || apply Forall_nil).
  Lemma near_weak A B h E : 0 <= h -> A <= B -> near_id n A h E -> near_id n B h E.
  Proof. intros Hh HA [X1 X2]. split; [exact X1|]. apply (opn_mono n _ (A * h)); [exact X2|]. apply Rmult_le_compat_r; assumption. Qed.
  Lemma near_self B h : 0 <= B * h -> near_id n B h (fun v => v).
  Proof.
    intros H. split; [split; intros; reflexivity|]. intros v x Hx Hv. apply vle_mono with 0; [apply vle_eq_0; reflexivity|]. apply Rmult_le_pos; assumption.
  Qed.
  Lemma kroe_close A h e E12 E1 f1h f2h f1 f2 f3 g1h g2h g1 g2 g3 : 0 <= A -> 0 <= e -> 0 <= h ->
    near_id n A h E12 -> near_id n A h E1 ->
    coef n A e f1h g1h -> coef n A e f2h g2h -> coef n A e f1 g1 -> coef n A e f2 g2 -> coef n A e f3 g3 ->
    erk_close n (8 * A) 5 h (8 * e) (krogstad_embedded E12 E1 f1h f2h f1 f2 f3) (krogstad_embedded E12 E1 g1h g2h g1 g2 g3).
  Proof.
    intros HA He Hh I1 I2 C1 C2 C3 C4 C5. assert (P : 0 <= 8 * A * h) by (apply Rmult_le_pos; lra).
    split; unfold krogstad_embedded, krogstad; cbn [er_E er_a er_E1 er_b app firstn]; try reflexivity; try (cbn [length]; lia); parts;
      try (apply near_self; exact P); try (apply (near_weak A); [lra|lra|assumption]); try (cbn [length]; lia); goco.
  Qed.
  Lemma etd5e_close A h e E14 E12 E34 E1 f1q f2q f1h f2h f1t f2t f1 f2 f3 g1q g2q g1h g2h g1t g2t g1 g2 g3 : 0 <= A -> 0 <= e -> 0 <= h ->
    near_id n A h E14 -> near_id n A h E12 -> near_id n A h E34 -> near_id n A h E1 ->
    coef n A e f1q g1q -> coef n A e f2q g2q -> coef n A e f1h g1h -> coef n A e f2h g2h -> coef n A e f1t g1t -> coef n A e f2t g2t ->
    coef n A e f1 g1 -> coef n A e f2 g2 -> coef n A e f3 g3 ->
    erk_close n (24 * A) 6 h (24 * e) (etd5_embedded E14 E12 E34 E1 f1q f2q f1h f2h f1t f2t f1 f2 f3) (etd5_embedded E14 E12 E34 E1 g1q g2q g1h g2h g1t g2t g1 g2 g3).
  Proof.
    intros HA He Hh I1 I2 I3 I4 C1 C2 C3 C4 C5 C6 C7 C8 C9. assert (P : 0 <= 24 * A * h) by (apply Rmult_le_pos; lra).
    split; unfold etd5_embedded, etd5_method; cbn [er_E er_a er_E1 er_b nth]; try reflexivity; try (cbn [length]; lia); parts;
      try (apply near_self; exact P); try (apply (near_weak A); [lra|lra|assumption]); try (cbn [length]; lia); goco.
  Qed.
End Close.
Lemma krogstad_embedded_eq dom E12 E1 f1h f2h f1 f2 f3 E12' E1' f1h' f2h' f1' f2' f3' :
  op_eq dom E12 E12' -> op_eq dom E1 E1' -> op_eq dom f1h f1h' -> op_eq dom f2h f2h' -> op_eq dom f1 f1' -> op_eq dom f2 f2' -> op_eq dom f3 f3' ->
  erk_eq dom (krogstad_embedded E12 E1 f1h f2h f1 f2 f3) (krogstad_embedded E12' E1' f1h' f2h' f1' f2' f3').
Proof.
  intros. split; unfold krogstad_embedded, krogstad; cbn [er_E er_a er_E1 er_b app firstn]; repeat (apply Forall2_cons || apply Forall2_nil); try assumption; try (intros v w X; exact X);
    repeat first [assumption | apply op_eq_osub | apply op_eq_oadd | apply op_eq_oscal | apply op_eq_zero].
Qed.
Lemma etd5_embedded_eq dom E14 E12 E34 E1 f1q f2q f1h f2h f1t f2t f1 f2 f3 E14' E12' E34' E1' f1q' f2q' f1h' f2h' f1t' f2t' f1' f2' f3' :
  op_eq dom E14 E14' -> op_eq dom E12 E12' -> op_eq dom E34 E34' -> op_eq dom E1 E1' -> op_eq dom f1q f1q' -> op_eq dom f2q f2q' ->
  op_eq dom f1h f1h' -> op_eq dom f2h f2h' -> op_eq dom f1t f1t' -> op_eq dom f2t f2t' -> op_eq dom f1 f1' -> op_eq dom f2 f2' -> op_eq dom f3 f3' ->
  erk_eq dom (etd5_embedded E14 E12 E34 E1 f1q f2q f1h f2h f1t f2t f1 f2 f3) (etd5_embedded E14' E12' E34' E1' f1q' f2q' f1h' f2h' f1t' f2t' f1' f2' f3').
Proof.
  intros. split; unfold etd5_embedded, etd5_method; cbn [er_E er_a er_E1 er_b nth]; repeat (apply Forall2_cons || apply Forall2_nil); try assumption; try (intros v w X; exact X);
    repeat first [assumption | apply op_eq_osub | apply op_eq_oadd | apply op_eq_oscal | apply op_eq_zero].
Qed.

(** Bounds on [0, T], with approximate phi functions [g]. *)
Section Bounds.
  Variable n : nat.
  Variable L : nat -> nat -> C.
  Variable Ex : R -> nat -> nat -> C.
  Variable PHI : nat -> R -> cvec -> cvec.
  Variable T : R.
  Hypothesis HF : matflow n L Ex.
  Hypothesis HP : phi_ops n L T PHI.
  Hypothesis HT : 0 <= T.
  Lemma coef_bounds : exists A, 0 <= A /\ (forall h c, 0 < h <= T -> 0 <= c <= 1 -> near_id n A h (mflow n Ex (c * h))) /\
    forall k q h e (g : op), (1 <= k <= 3)%nat -> 0 < q <= 1 -> 0 < h <= T -> opn n (fun v => csub (PHI k (q * h) v) (g v)) e -> coef n A e (PHI k (q * h)) g.
  Proof.
    destruct (phi_ops_bound n L T PHI 1 HP ltac:(lia) HT) as (B1 & HB1 & H1).
    destruct (phi_ops_bound n L T PHI 2 HP ltac:(lia) HT) as (B2 & HB2 & H2). destruct (phi_ops_bound n L T PHI 3 HP ltac:(lia) HT) as (B3 & HB3 & H3).
    destruct (flow_near n L Ex HF T) as (M & HM & HN).
    set (A := B1 + B2 + B3 + M). exists A. split; [unfold A; lra|]. split.
    - intros h c Hh Hc'. split; [apply (E_rlinear n L Ex HF)|].
      assert (A1 : 0 <= c * h <= h) by (split; [apply Rmult_le_pos; lra|nra]).
      apply (opn_mono n _ (M * Rabs (c * h))); [apply HN; rewrite (Rabs_pos_eq (c * h)), (Rabs_pos_eq T) by lra; lra|].
      rewrite Rabs_pos_eq by lra. apply Rle_trans with (M * h); [apply Rmult_le_compat_l; lra|]. apply Rmult_le_compat_r; unfold A; lra.
    - intros k q h e g Hk Hq Hh Hg. split; [apply (po_lin _ _ _ _ HP)|]. split; [|exact Hg].
      assert (A1 : 0 <= q * h <= T) by (split; [apply Rmult_le_pos; lra|nra]).
      assert (k = 1 \/ k = 2 \/ k = 3)%nat as [-> | [-> | ->]] by lia; [apply (opn_mono n _ B1)|apply (opn_mono n _ B2)|apply (opn_mono n _ B3)];
        try (unfold A; lra); [apply H1|apply H2|apply H3]; exact A1.
  Qed.
  Notation near k q h e g := (opn n (fun v => csub (PHI k%nat (q * h) v) (g v)) e).
  Lemma kro_pair_close : exists A, 0 <= A /\ forall h e (g1h g2h g1 g2 g3 : op), 0 < h <= T -> 0 <= e ->
    near 1 (1/2) h e g1h -> near 2 (1/2) h e g2h -> near 1 1 h e g1 -> near 2 1 h e g2 -> near 3 1 h e g3 ->
    let E q := mflow n Ex (q * h) in
    erk_close n A 4 h (8 * e) (gkro n Ex PHI h) (krogstad (E (1/2)) (E 1) g1h g2h g1 g2 g3) /\
    erk_close n A 5 h (8 * e) (gkroe n Ex PHI h) (krogstad_embedded (E (1/2)) (E 1) g1h g2h g1 g2 g3).
  Proof.
    destruct coef_bounds as (A & HA & H1 & H2). exists (8 * A). split; [lra|]. intros h e g1h g2h g1 g2 g3 Hh He B1 B2 B3 B4 B5 E.
    split; unfold gkro, gkroe, E; [apply kro_close|apply kroe_close]; try lra; try (apply H1; lra); apply H2; try lia; try lra; assumption.
  Qed.
  Lemma etd5_pair_close : exists A, 0 <= A /\ forall h e (g1q g2q g1h g2h g1t g2t g1 g2 g3 : op), 0 < h <= T -> 0 <= e ->
    near 1 (1/4) h e g1q -> near 2 (1/4) h e g2q -> near 1 (1/2) h e g1h -> near 2 (1/2) h e g2h -> near 1 (3/4) h e g1t -> near 2 (3/4) h e g2t ->
    near 1 1 h e g1 -> near 2 1 h e g2 -> near 3 1 h e g3 ->
    let E q := mflow n Ex (q * h) in
    erk_close n A 6 h (24 * e) (getd5 n Ex PHI h) (etd5_method (E (1/4)) (E (1/2)) (E (3/4)) (E 1) g1q g2q g1h g2h g1t g2t g1 g2 g3) /\
    erk_close n A 6 h (24 * e) (getd5e n Ex PHI h) (etd5_embedded (E (1/4)) (E (1/2)) (E (3/4)) (E 1) g1q g2q g1h g2h g1t g2t g1 g2 g3).
  Proof.
    destruct coef_bounds as (A & HA & H1 & H2). exists (24 * A). split; [lra|].
    intros h e g1q g2q g1h g2h g1t g2t g1 g2 g3 Hh He B1 B2 B3 B4 B5 B6 B7 B8 B9 E. split.
    - apply (close_weak n (12 * A) _ 6 h (12 * e)); try lra. unfold getd5, E. apply etd5_close; try lra; try (apply H1; lra); apply H2; try lia; try lra; assumption.
    - unfold getd5e, E. apply etd5e_close; try lra; try (apply H1; lra); apply H2; try lia; try lra; assumption.
  Qed.
End Bounds.
