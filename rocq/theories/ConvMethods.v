(** * Comparing steps of exponential Runge-Kutta methods

    Spec file: equal operators give equal steps; methods with approximate phi functions are close
    to Krogstad's method; accuracy of all values along a run. *)

From Coq Require Import ZArith List Bool Reals Lra Lia QArith Qreals FunctionalExtensionality Setoid Morphisms.
From Coquelicot Require Import Complex.
From Verif Require Import CInst SpecRK SpecERK SchemeIFReal SpecPhi Asym Solution LocalRK4 Stable Converge Voc LocalKro ConvRuns.
Import ListNotations.
Local Open Scope R_scope.

(** ** Equal on the first [n] entries *)
Section Ext.
  Variable dom : nat -> Prop.
  Variable N : op.
  Hypothesis HN : respects dom N.
  Definition op_eq (P Q : op) : Prop := forall v w, veq dom v w -> veq dom (P v) (Q w).
  Record erk_eq (m m' : erk) : Prop := {
    ee_E : Forall2 op_eq (er_E m) (er_E m'); ee_a : Forall2 (Forall2 op_eq) (er_a m) (er_a m');
    ee_E1 : op_eq (er_E1 m) (er_E1 m'); ee_b : Forall2 op_eq (er_b m) (er_b m') }.
  Lemma comb_ext r r' : Forall2 op_eq r r' -> forall ns ns', Forall2 (veq dom) ns ns' -> veq dom (ocomb r ns) (ocomb r' ns').
  Proof.
    induction 1 as [|P Q r r' HP H IH]; intros ns ns' Hn; [reflexivity|]. destruct Hn as [|a b ns ns' Hab Hn]; [reflexivity|].
    cbn [ocomb]. apply cadd_proper; [apply HP; exact Hab|apply IH; exact Hn].
  Qed.
  Lemma value_ext h u u' P Q r r' ns ns' : op_eq P Q -> veq dom u u' -> Forall2 op_eq r r' -> Forall2 (veq dom) ns ns' ->
    veq dom (erk_value h u P r ns) (erk_value h u' Q r' ns').
  Proof.
    intros HP Hu Hr Hn. unfold erk_value. apply cadd_proper; [apply HP; exact Hu|].
    intros i Hi. unfold cscal. rewrite (comb_ext r r' Hr ns ns' Hn i Hi). reflexivity.
  Qed.
  Lemma stages_ext h u u' : veq dom u u' -> forall Es Es' rows rows' ns ns', Forall2 op_eq Es Es' -> Forall2 (Forall2 op_eq) rows rows' ->
    Forall2 (veq dom) ns ns' -> Forall2 (veq dom) (erk_stages N h u Es rows ns) (erk_stages N h u' Es' rows' ns').
  Proof.
    intros Hu Es Es' rows rows' ns ns' HE. revert rows rows' ns ns'. induction HE as [|P Q Es Es' HP HE IH]; intros rows rows' ns ns' Hr Hn; [exact Hn|].
    destruct Hr as [|r r' rows rows' Hr0 Hr]; [exact Hn|]. cbn [erk_stages]. apply IH; [exact Hr|].
    apply Forall2_app; [exact Hn|]. constructor; [|constructor]. apply HN. apply value_ext; assumption.
  Qed.
  Theorem erk_step_ext m m' h u u' : erk_eq m m' -> veq dom u u' -> veq dom (erk_step m N h u) (erk_step m' N h u').
  Proof.
    intros [H1 H2 H3 H4] Hu. unfold erk_step. apply value_ext; [exact H3|exact Hu|exact H4|]. apply stages_ext; [exact Hu|exact H1|exact H2|constructor].
  Qed.
  Lemma op_eq_oscal c P Q : op_eq P Q -> op_eq (oscal c P) (oscal c Q).
  Proof. intros H v w Hvw i Hi. unfold oscal, cscal. rewrite (H v w Hvw i Hi). reflexivity. Qed.
  Lemma op_eq_oadd P Q P' Q' : op_eq P Q -> op_eq P' Q' -> op_eq (oadd P P') (oadd Q Q').
  Proof. intros H H' v w Hvw i Hi. unfold oadd, cadd. rewrite (H v w Hvw i Hi), (H' v w Hvw i Hi). reflexivity. Qed.
  Lemma op_eq_zero : op_eq ozero ozero.
  Proof. intros v w _. reflexivity. Qed.
  Lemma op_eq_osub P Q P' Q' : op_eq P Q -> op_eq P' Q' -> op_eq (osub P P') (osub Q Q').
  Proof. intros H H'. apply op_eq_oadd; [exact H|apply op_eq_oscal; exact H']. Qed.
  Lemma law_erk_eq tb Phi Phi' h : (forall t, op_eq (Phi t) (Phi' t)) -> erk_eq (law_erk tb Phi h) (law_erk tb Phi' h).
  Proof.
    intros H. assert (R : forall c qs cs, Forall2 op_eq (law_row Phi h c qs cs) (law_row Phi' h c qs cs)).
    { intros c qs cs. unfold law_row. induction (combine qs cs) as [|x l IH]; cbn [map]; constructor; [apply op_eq_oscal, H|exact IH]. }
    split; unfold law_erk; cbn [er_E er_a er_E1 er_b].
    - induction (tb_c tb) as [|x l IH]; cbn [map]; constructor; [apply H|exact IH].
    - induction (combine (tb_a tb) (tb_c tb)) as [|x l IH]; cbn [map]; constructor; [apply R|exact IH].
    - apply H.
    - apply R.
  Qed.
End Ext.
Lemma krogstad_eq dom E12 E1 f1h f2h f1 f2 f3 E12' E1' f1h' f2h' f1' f2' f3' :
  op_eq dom E12 E12' -> op_eq dom E1 E1' -> op_eq dom f1h f1h' -> op_eq dom f2h f2h' -> op_eq dom f1 f1' -> op_eq dom f2 f2' -> op_eq dom f3 f3' ->
  erk_eq dom (krogstad E12 E1 f1h f2h f1 f2 f3) (krogstad E12' E1' f1h' f2h' f1' f2' f3').
Proof.
  intros. split; unfold krogstad; cbn [er_E er_a er_E1 er_b]; repeat constructor; try assumption; try (intros v w X; exact X);
    repeat first [assumption | apply op_eq_oadd | apply op_eq_osub | apply op_eq_oscal | apply op_eq_zero].
Qed.

(** ** Coefficients *)
Section Coef.
  Variable n : nat.
  Lemma coef_weak A A' e e' P Q : A <= A' -> e <= e' -> coef n A e P Q -> coef n A' e' P Q.
  Proof.
    intros HA He (H1 & H2 & H3). split; [exact H1|]. split; [apply (opn_mono n _ A); assumption|]. apply (opn_mono n _ e); assumption.
  Qed.
  Lemma coef_scal A e c P Q : coef n A e P Q -> coef n (Rabs c * A) (Rabs c * e) (oscal c P) (oscal c Q).
  Proof.
    intros (H1 & H2 & H3). split; [|split].
    - split.
      + intros v w i Hi. unfold oscal, cscal. rewrite (rl_add _ _ H1 v w i Hi). unfold cadd. ring.
      + intros x v i Hi. unfold oscal. unfold cscal at 1 3. rewrite (rl_scal _ _ H1 x v i Hi). unfold cscal. ring.
    - unfold oscal. apply opn_rscal. exact H2.
    - intros v x Hx Hv. eapply vle_ext; [|apply (opn_rscal n c _ _ H3 v x Hx Hv)]. intros i _. unfold oscal, csub, cscal. ring.
  Qed.
  Lemma coef_add A e A' e' P Q P' Q' : coef n A e P Q -> coef n A' e' P' Q' -> coef n (A + A') (e + e') (oadd P P') (oadd Q Q').
  Proof.
    intros (H1 & H2 & H3) (G1 & G2 & G3). split; [|split].
    - split.
      + intros v w i Hi. change (P (cadd v w) i + P' (cadd v w) i = (P v i + P' v i) + (P w i + P' w i))%C.
        rewrite (rl_add _ _ H1 v w i Hi), (rl_add _ _ G1 v w i Hi). unfold cadd. ring.
      + intros x v i Hi. change (P (rscal x v) i + P' (rscal x v) i = RtoC x * (P v i + P' v i))%C. rewrite (rl_scal _ _ H1 x v i Hi), (rl_scal _ _ G1 x v i Hi). unfold cscal, cadd. ring.
    - unfold oadd. apply opn_add; assumption.
    - intros v x Hx Hv. eapply vle_ext; [|apply (opn_add n _ _ _ _ H3 G3 v x Hx Hv)]. intros i _. unfold oadd, csub, cadd. ring.
  Qed.
  Lemma coef_sub A e A' e' P Q P' Q' : coef n A e P Q -> coef n A' e' P' Q' -> coef n (A + A') (e + e') (osub P P') (osub Q Q').
  Proof.
    intros H G. unfold osub. assert (X := coef_add _ _ _ _ _ _ _ _ H (coef_scal _ _ (-1) _ _ G)).
    replace (Rabs (-1)) with 1 in X by (rewrite Rabs_left; lra). rewrite !Rmult_1_l in X. exact X.
  Qed.
  Lemma coef_zero : coef n 0 0 ozero ozero.
  Proof.
    split; [|split].
    - split; intros; intros i _; unfold ozero, cadd, cscal; ring.
    - intros v x Hx Hv i Hi. unfold ozero. rewrite Cmod_0. lra.
    - intros v x Hx Hv i Hi. unfold ozero, csub. replace (0 - 0)%C with (RtoC 0) by ring. rewrite Cmod_0. lra.
  Qed.
  (** Krogstad's coefficients from those of the phi functions. *)
  Lemma kro_close A h e E12 E1 f1h f2h f1 f2 f3 g1h g2h g1 g2 g3 : 0 <= A -> 0 <= e ->
    near_id n A h E12 -> near_id n A h E1 -> 0 <= h ->
    coef n A e f1h g1h -> coef n A e f2h g2h -> coef n A e f1 g1 -> coef n A e f2 g2 -> coef n A e f3 g3 ->
    erk_close n (8 * A) 4 h (8 * e) (krogstad E12 E1 f1h f2h f1 f2 f3) (krogstad E12 E1 g1h g2h g1 g2 g3).
  Proof.
    intros HA He [L12 HE12] [L1 HE1] Hh C1 C2 C3 C4 C5.
    assert (P : 0 <= A * h) by (apply Rmult_le_pos; assumption).
    assert (I12 : near_id n (8 * A) h E12) by (split; [exact L12|]; apply (opn_mono n _ (A * h)); [exact HE12|lra]).
    assert (I1 : near_id n (8 * A) h E1) by (split; [exact L1|]; apply (opn_mono n _ (A * h)); [exact HE1|lra]).
    assert (I0 : near_id n (8 * A) h (fun v => v)).
    { split; [split; intros; reflexivity|]. intros v x Hx Hv. apply vle_mono with 0; [apply vle_eq_0; reflexivity|]. apply Rmult_le_pos; lra. }
    assert (a2 : Rabs 2 = 2) by (apply Rabs_pos_eq; lra). assert (a3 : Rabs 3 = 3) by (apply Rabs_pos_eq; lra).
    assert (a4 : Rabs 4 = 4) by (apply Rabs_pos_eq; lra). assert (ah : Rabs (1/2) = 1/2) by (apply Rabs_pos_eq; lra).
    assert (D2 := coef_scal _ _ 2 _ _ C4). assert (D3 := coef_scal _ _ 3 _ _ C4). assert (D4 := coef_scal _ _ 4 _ _ C5). assert (Dh := coef_scal _ _ (1/2) _ _ C1).
    rewrite ?a2, ?a3, ?a4, ?ah in *. assert (D0 := coef_zero).
    split; unfold krogstad; cbn [er_E er_a er_E1 er_b]; try reflexivity; try exact I1;
      try (cbn [length]; lia); repeat (apply Forall2_cons || apply Forall2_nil || apply Forall_cons || apply Forall_nil); try assumption; try (cbn [length]; lia).
    - eapply coef_weak; [| |exact Dh]; lra.
    - eapply coef_weak; [| |exact (coef_sub _ _ _ _ _ _ _ _ Dh C2)]; lra.
    - eapply coef_weak; [| |exact C2]; lra.
    - eapply coef_weak; [| |exact (coef_sub _ _ _ _ _ _ _ _ C3 D2)]; lra.
    - eapply coef_weak; [| |exact D0]; lra.
    - eapply coef_weak; [| |exact D2]; lra.
    - eapply coef_weak; [| |exact (coef_add _ _ _ _ _ _ _ _ (coef_sub _ _ _ _ _ _ _ _ C3 D3) D4)]; lra.
    - eapply coef_weak; [| |exact (coef_sub _ _ _ _ _ _ _ _ D2 D4)]; lra.
    - eapply coef_weak; [| |exact (coef_sub _ _ _ _ _ _ _ _ D2 D4)]; lra.
    - eapply coef_weak; [| |exact (coef_sub _ _ _ _ _ _ _ _ D4 C4)]; lra.
  Qed.
End Coef.

(** Operators [PHI]: bounds on an interval. *)
Lemma phi_ops_bound n L T PHI k : phi_ops n L T PHI -> (1 <= k)%nat -> 0 <= T ->
  exists B, 0 <= B /\ forall s, 0 <= s <= T -> opn n (PHI k s) B.
Proof.
  intros HP Hk HT. destruct (po_near _ _ _ _ HP k Hk) as (B & HB & H). exists (B * T + Rabs (/ INR (fact k)) * 1).
  split; [assert (0 <= B * T) by (apply Rmult_le_pos; assumption); assert (Q := Rabs_pos (/ INR (fact k))); lra|].
  intros s Hs. assert (G := opn_add n _ _ _ _ (H s Hs) (opn_rscal n (/ INR (fact k)) _ _ (opn_id n))).
  intros v x Hx Hv. eapply vle_mono; [eapply vle_ext; [|apply (G v x Hx Hv)]; intros j _; unfold cadd, csub; ring|].
  apply Rmult_le_compat_r; [exact Hx|]. apply Rplus_le_compat_r. apply Rmult_le_compat_l; lra.
Qed.
(** Bounds for Krogstad's method on [0, T], with approximate phi functions [g]. *)
Lemma gkro_close n L Ex PHI T : matflow n L Ex -> phi_ops n L T PHI -> 0 <= T ->
  exists A, 0 <= A /\ forall h e (g1h g2h g1 g2 g3 : op), 0 < h <= T -> 0 <= e ->
    let near k q (g : op) := opn n (fun v => csub (PHI k (q * h) v) (g v)) e in
    near 1%nat (1/2) g1h -> near 2%nat (1/2) g2h -> near 1%nat 1 g1 -> near 2%nat 1 g2 -> near 3%nat 1 g3 ->
    erk_close n A 4 h (8 * e) (gkro n Ex PHI h) (krogstad (mflow n Ex (1/2 * h)) (mflow n Ex (1 * h)) g1h g2h g1 g2 g3).
Proof.
  intros HF HP HT. destruct (phi_ops_bound n L T PHI 1 HP ltac:(lia) HT) as (B1 & HB1 & H1).
  destruct (phi_ops_bound n L T PHI 2 HP ltac:(lia) HT) as (B2 & HB2 & H2). destruct (phi_ops_bound n L T PHI 3 HP ltac:(lia) HT) as (B3 & HB3 & H3).
  destruct (flow_near n L Ex HF T) as (M & HM & HN).
  set (A := B1 + B2 + B3 + M). exists (8 * A). split; [unfold A; lra|]. intros h e g1h g2h g1 g2 g3 Hh He nr G1 G2 G3 G4 G5.
  assert (near : forall c, 0 <= c <= 1 -> near_id n A h (mflow n Ex (c * h))).
  { intros c Hc'. split; [apply (E_rlinear n L Ex HF)|].
    assert (A1 : 0 <= c * h <= h) by (split; [apply Rmult_le_pos; lra|nra]).
    apply (opn_mono n _ (M * Rabs (c * h))); [apply HN; rewrite (Rabs_pos_eq (c * h)), (Rabs_pos_eq T) by lra; lra|].
    rewrite Rabs_pos_eq by lra. apply Rle_trans with (M * h); [apply Rmult_le_compat_l; lra|]. apply Rmult_le_compat_r; unfold A; lra. }
  assert (cf : forall k q g, nr k q g -> (1 <= k <= 3)%nat -> 0 < q <= 1 -> coef n A e (PHI k (q * h)) g).
  { intros k q g Hg Hk Hq. split; [apply (po_lin _ _ _ _ HP)|]. split; [|exact Hg].
    assert (A1 : 0 <= q * h <= T) by (split; [apply Rmult_le_pos; lra|nra]).
    assert (k = 1 \/ k = 2 \/ k = 3)%nat as [-> | [-> | ->]] by lia; [apply (opn_mono n _ B1)|apply (opn_mono n _ B2)|apply (opn_mono n _ B3)];
      try (unfold A; lra); [apply H1|apply H2|apply H3]; exact A1. }
  unfold gkro. apply kro_close; try (unfold A; lra); try exact He; try (apply near; lra); apply cf; (assumption || lia || lra).
Qed.

(** ** Values along a run *)
Definition accurate (n : nat) (u : R -> cvec) (e : R) (ts : list R) (vs : list cvec) : Prop :=
  Forall2 (fun t v => vle n (csub v (u t)) e) ts vs.
Definition gaps_at_most (H : R) (ts : list R) : Prop :=
  forall j, (S j < length ts)%nat -> nth (S j) ts 0 - nth j ts 0 <= H.

Lemma grun_run (Phi : R -> cvec -> cvec) hs v : grun Phi hs v = run Phi hs v.
Proof. revert v. induction hs as [|h hs IH]; intros v; [reflexivity|]. cbn. apply IH. Qed.
Lemma total_nonneg hs : Forall (fun h => 0 < h) hs -> 0 <= total hs.
Proof. unfold total. induction 1 as [|h hs Hh H IH]; cbn [fold_right]; lra. Qed.
Lemma total_firstn hs j : Forall (fun h => 0 < h) hs -> total (firstn j hs) <= total hs.
Proof.
  intros H. revert j. unfold total. induction H as [|h hs Hh H IH]; intros [|j]; cbn [firstn fold_right]; try lra.
  - assert (X := total_nonneg hs H). unfold total in X. lra.
  - specialize (IH j). lra.
Qed.
Lemma steps_gaps U (Phi : R -> U -> U) t0 u hs ts us H : steps_of Phi t0 u hs ts us -> gaps_at_most H ts -> Forall (fun h => h <= H) hs.
Proof.
  intros [Ht _] HG. apply Forall_forall. intros h Hin. destruct (In_nth hs h 0 Hin) as (j & Hj & E).
  assert (HL : length ts = S (length hs)) by (rewrite Ht, map_length, seq_length; reflexivity).
  assert (X := HG j ltac:(lia)). rewrite Ht in X.
  assert (V : forall k, (k <= length hs)%nat -> nth k (map (fun j => t0 + total (firstn j hs)) (seq 0 (S (length hs)))) 0 = t0 + total (firstn k hs)).
  { intros k Hk. rewrite (nth_indep _ 0 (t0 + total (firstn 0 hs))) by (rewrite map_length, seq_length; lia).
    rewrite (map_nth (fun j => t0 + total (firstn j hs)) (seq 0 (S (length hs))) 0%nat k), seq_nth by lia. reflexivity. }
  rewrite !V in X by lia.
  assert (F : firstn (S j) hs = firstn j hs ++ [h]).
  { clear - E Hj. revert j E Hj. induction hs as [|a hs IH]; intros [|j] E Hj; cbn in *; try lia; [subst; reflexivity|]. f_equal. apply IH; [exact E|lia]. }
  rewrite F, total_app in X. lra.
Qed.
Section RunAccuracy.
  Variables n q : nat.
  Variable L : nat -> nat -> C.
  Variable N : cvec -> cvec.
  Variables t0 tf rho K : R.
  Variable u : R -> cvec.
  Variable f : nat -> R -> cvec.
  Variable J : R -> cvec -> cvec.
  Hypothesis HS : smooth n q L N t0 tf rho K u f J.
  Variable m : R -> erk.
  Variable p : nat.
  Hypothesis Hp : (0 < p)%nat.
  Hypothesis Hloc : bigO n R (adm t0 tf) (S p) (fun t h => csub (erk_step (m h) N h (u t)) (u (t + h))).
  Theorem run_accuracy A S : 0 <= A -> exists C h0 r0, 0 <= C /\ 0 < h0 /\ 0 < r0 /\
    forall Phi H e, 0 <= e -> 0 <= H -> H <= h0 ->
    forall hs v d ts vs, (forall h, In h hs -> 0 < h <= H -> h <= tf - t0 -> follows n N m A S e Phi h) -> 0 <= d -> d + e <= r0 -> vle n (csub v (u t0)) d -> Forall (fun h => 0 < h) hs -> Forall (fun h => h <= H) hs ->
      t0 + total hs <= tf -> steps_of Phi t0 v hs ts vs ->
      accurate n u (C * (d + e + H ^ p)) ts vs /\ vle n (csub (grun Phi hs v) (u (t0 + total hs))) (C * (d + e + H ^ p)).
  Proof.
    intros HA. destruct (accumulate n q L N t0 tf rho K u f J HS m p Hp Hloc A S HA) as (C & h0 & r0 & H1 & H2 & H3 & H4).
    exists C, h0, r0. split; [exact H1|]. split; [exact H2|]. split; [exact H3|].
    intros Phi H e He HH HHh hs v d ts vs Hf Hd Hde Hv Hpos Hmax Htot [Ets Evs].
    assert (Le : Forall (fun h => h <= tf - t0) hs).
    { apply Forall_forall. intros h Hin. assert (G : h <= total hs).
      { clear - Hin Hpos. induction Hpos as [|a hs Ha Hp IH]; [destruct Hin|]. unfold total. cbn [fold_right]. assert (X := total_nonneg hs Hp). unfold total in *.
        destruct Hin as [->|Hin]; [lra|]. specialize (IH Hin). lra. }
      lra. }
    assert (G : forall j, vle n (csub (grun Phi (firstn j hs) v) (u (t0 + total (firstn j hs)))) (C * (d + e + H ^ p))).
    { intros j. rewrite grun_run. apply H4; try assumption.
      - apply Forall_forall. intros h Hin.
        assert (In h hs) by (rewrite <- (firstn_skipn j hs); apply in_or_app; left; exact Hin).
        rewrite Forall_forall in Hpos, Hmax, Le. split; [split; auto|]. apply Hf; auto.
      - assert (X := total_firstn hs j Hpos). lra. }
    split.
    - unfold accurate. rewrite Ets, Evs. clear - G. induction (seq 0 (Datatypes.S (length hs))) as [|j l IH]; cbn [map]; constructor; [apply G|exact IH].
    - assert (X := G (length hs)). rewrite firstn_all in X. exact X.
  Qed.
End RunAccuracy.
