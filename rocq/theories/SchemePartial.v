(** * Solvers whose linear algebra may raise

    [cs_model_sound] and [as_model_sound] assume that [expm] and [inv] never raise. Here nothing is
    assumed about them: every update that returns is a step of the pure method, for a step size
    whose coefficients were computed. (After an exception the cached coefficients may be wrong, so
    nothing is said about a solver that is used on; [evolve] stops, and resets when it is called
    again.) *)

From Coq Require Import ZArith List Bool FunctionalExtensionality Lia Reals.
From Verif Require Import Scalars Control ControlCS ControlCSReal ControlSim ControlSound Arrays SchemeBase
     SchemeIF SchemeETD4 SchemeETD5 Solvers SchemeFacts SchemeSound SchemeFamily CInst.
Import ListNotations.

Set Implicit Arguments.

Definition cs_sound1 (B U W : Type) (m : csm B U W) (Phi : B -> U -> U) (good : B -> Prop) (Inv : cs_st m -> U -> Prop) : Prop :=
  (forall s u, Inv (cs_reset m s) u) /\
  (forall s u h w, Inv s u ->
     match cs_upd m u h s w with
     | (inr x, s', _) => good h /\ x = Phi h u /\ Inv s' x
     | (inl _, _, _) => True
     end).
Definition as_sound1 (B U W : Type) (m : asm B U W) (Phi : B -> U -> U * U) (good : B -> Prop)
           (Inv : bool -> as_st m -> U -> Prop) : Prop :=
  (forall s u, Inv false (as_reset m s) u) /\
  (forall acc s u h w, Inv acc s u ->
     match as_upd m acc u h s w with
     | (inr x, s', _) => good h /\ x = Phi h u /\ Inv false s' u /\ Inv true s' (fst x)
     | (inl _, _, _) => True
     end).

(** Computations that do not touch [_h_coeff]. *)
Definition keeps {B K X W Y} (m : M (sst B K X) W Y) : Prop := forall s w, h_coeff (snd (fst (m s w))) = h_coeff s.
Section Keeps.
  Variables B K X W : Type.
  Notation st := (sst B K X).
  Lemma keeps_ret Y (y : Y) : keeps (@ret st W Y y). Proof. intros s w; reflexivity. Qed.
  Lemma keeps_get Y (f : st -> Y) : keeps (@get st W Y f). Proof. intros s w; reflexivity. Qed.
  Lemma keeps_mem f : keeps (@upd st W (fun s => set_mem f s)). Proof. intros s w; reflexivity. Qed.
  Lemma keeps_mem' f : keeps (@upd st W (set_mem f)). Proof. intros s w; reflexivity. Qed.
  Lemma keeps_init b : keeps (@upd st W (set_init b)). Proof. intros s w; reflexivity. Qed.
  Lemma keeps_call V Y (nl : V -> W -> (exn + Y) * W) v : keeps (@call st W V Y nl v).
  Proof. intros s w. unfold call. destruct (nl v w). reflexivity. Qed.
  Lemma keeps_bind Y Z (m : M st W Y) (f : Y -> M st W Z) : keeps m -> (forall y, keeps (f y)) -> keeps (bind m f).
  Proof.
    intros Hm Hf s w. unfold bind. specialize (Hm s w). destruct (m s w) as [[[e|y] s'] w']; [exact Hm|]. rewrite (Hf y s' w'). exact Hm.
  Qed.
End Keeps.

Section Partial.
  Variable F : tops.
  Variables U K X : Type.
  Variable uc : T F -> K -> (exn + unit) * K.
  Hypothesis HI : coef_indep uc.
  Variable k0 : K.
  (** Step sizes that compare equal have the same coefficients. *)
  Hypothesis HQ : forall a b, teqb F a b = true -> uc a = uc b.
  Definition good (h : T F) : Prop := fst (uc h k0) = inr tt.
  Definition tot (h : T F) (k : K) : (exn + unit) * K := match fst (uc h k) with inr _ => uc h k | inl _ => (inr tt, k0) end.

  Lemma tot_total h k : fst (tot h k) = inr tt.
  Proof. unfold tot. destruct (fst (uc h k)) as [e|[]] eqn:E; [reflexivity|exact E]. Qed.
  Lemma tot_indep : coef_indep tot.
  Proof.
    intros h k k'. split; [rewrite !tot_total; reflexivity|]. intros _. destruct (HI h k k') as [E1 E2]. unfold tot.
    rewrite <- E1. destruct (fst (uc h k)) as [e|[]] eqn:E; [reflexivity|]. apply E2. reflexivity.
  Qed.
  Lemma tot_good h k : fst (uc h k) = inr tt -> tot h k = uc h k.
  Proof. intros E. unfold tot. rewrite E. reflexivity. Qed.
  Lemma good_any h k : good h <-> fst (uc h k) = inr tt.
  Proof. unfold good. destruct (HI h k0 k) as [E _]. rewrite E. reflexivity. Qed.
  Lemma tot_eq a b : teqb F a b = true -> kof F tot k0 a = kof F tot k0 b.
  Proof. intros H. unfold kof, tot. rewrite (HQ _ _ H). reflexivity. Qed.

  Definition goodc (s : sst (T F) K X) : Prop := forall h, h_coeff s = Some h -> good h.
  Lemma update_tot W s h (w : W) : goodc s ->
    match s_update_coeffs F W K X uc h s w with
    | (inr y, s', w') => s_update_coeffs F W K X tot h s w = (inr y, s', w') /\ good h /\ goodc s'
    | (inl _, _, _) => True
    end.
  Proof.
    intros H. unfold s_update_coeffs. destruct (same_h F h (h_coeff s)) eqn:E.
    - split; [reflexivity|]. split; [|exact H]. unfold same_h in E. destruct (h_coeff s) as [h'|] eqn:E2; [|discriminate].
      unfold good. rewrite (HQ _ _ E). apply H. exact E2.
    - destruct (uc h (coefs (set_h (Some h) s))) as [[e|[]] c] eqn:E2; [exact I|].
      assert (G : fst (uc h (coefs (set_h (Some h) s))) = inr tt) by (rewrite E2; reflexivity).
      rewrite (tot_good _ _ G), E2. split; [reflexivity|]. split; [apply (good_any h (coefs (set_h (Some h) s))); exact G|].
      intros h1 H1. cbn in H1. injection H1 as <-. apply (good_any h (coefs (set_h (Some h) s))). exact G.
  Qed.
  Lemma update_fresh W s h (w : W) : good h -> s_update_coeffs F W K X uc h s w = s_update_coeffs F W K X tot h s w.
  Proof.
    intros H. unfold s_update_coeffs. destruct (same_h F h (h_coeff s)); [reflexivity|].
    rewrite tot_good by (apply (good_any h (coefs (set_h (Some h) s))); exact H). reflexivity.
  Qed.

  Section CS.
    Variable W : Type.
    Variable init : U -> M (sst (T F) K X) W unit.
    Variable stages : U -> T F -> M (sst (T F) K X) W U.
    Hypothesis Ki : forall u, keeps (init u).
    Hypothesis Ks : forall u h, keeps (stages u h).
    Variable Phi : T F -> U -> U.
    Variable Inv : sst (T F) K X -> U -> Prop.
    Hypothesis HS : cs_sound (cs_solver F U W K X tot init stages) Phi Inv.
    Lemma cs_partial : cs_sound1 (cs_solver F U W K X uc init stages) Phi good (fun s u => Inv s u /\ goodc s).
    Proof.
      destruct HS as [H1 H2]. split.
      - intros s u. split; [apply H1|]. intros h E. discriminate E.
      - intros s u h w [Hi Hg]. specialize (H2 s u h w Hi). cbn [cs_solver cs_upd cs_st] in *. unfold cs_update_stages in *.
        assert (KR : keeps (bind (get n1_init) (fun b => bind (if b then ret tt else bind (init u) (fun _ => upd (set_init true))) (fun _ => stages u h)))).
        { apply keeps_bind; [apply keeps_get|]. intros b. apply keeps_bind; [|intros _; apply Ks].
          destruct b; [apply keeps_ret|]. apply keeps_bind; [apply Ki|]. intros _. apply keeps_init. }
        unfold bind at 1. unfold bind at 1 in H2. assert (G := update_tot (W := W) (s := s) h w Hg).
        destruct (s_update_coeffs F W K X uc h s w) as [[[e|y] s'] w']; [exact I|]. destruct G as (E & Gh & Gs). rewrite E in H2.
        specialize (KR s' w'). destruct (bind (get n1_init) _ s' w') as [[[e|x] s2] w2]; [exact I|]. destruct H2 as [-> H2].
        split; [exact Gh|]. split; [reflexivity|]. split; [exact H2|]. intros h1 E1. apply Gs. rewrite <- KR. exact E1.
    Qed.
  End CS.
  Section AS.
    Variable W : Type.
    Variable init : U -> M (sst (T F) K X) W unit.
    Variable stages : bool -> U -> T F -> M (sst (T F) K X) W (U * U).
    Hypothesis Ki : forall u, keeps (init u).
    Hypothesis Ks : forall acc u h, keeps (stages acc u h).
    Variable Phi : T F -> U -> U * U.
    Variable Inv : bool -> sst (T F) K X -> U -> Prop.
    Hypothesis HS : as_sound (as_solver F U W K X tot init stages) Phi Inv.
    Lemma as_partial : as_sound1 (as_solver F U W K X uc init stages) Phi good (fun acc s u => Inv acc s u /\ goodc s).
    Proof.
      destruct HS as [H1 H2]. split.
      - intros s u. split; [apply H1|]. intros h E. discriminate E.
      - intros acc s u h w [Hi Hg]. specialize (H2 acc s u h w Hi). cbn [as_solver as_upd as_st] in *. unfold as_update_stages in *.
        assert (KR : keeps (bind (get n1_init) (fun b => bind (if b then ret tt else bind (init u) (fun _ => upd (set_init true))) (fun _ => stages acc u h)))).
        { apply keeps_bind; [apply keeps_get|]. intros b. apply keeps_bind; [|intros _; apply Ks].
          destruct b; [apply keeps_ret|]. apply keeps_bind; [apply Ki|]. intros _. apply keeps_init. }
        unfold bind at 1. unfold bind at 1 in H2. assert (G := update_tot (W := W) (s := s) h w Hg).
        destruct (s_update_coeffs F W K X uc h s w) as [[[e|y] s'] w']; [exact I|]. destruct G as (E & Gh & Gs). rewrite E in H2.
        specialize (KR s' w'). destruct (bind (get n1_init) _ s' w') as [[[e|x] s2] w2]; [exact I|]. destruct H2 as (-> & H2 & H3).
        assert (G2 : goodc s2) by (intros h1 E1; apply Gs; rewrite <- KR; exact E1).
        split; [exact Gh|]. split; [reflexivity|]. split; split; assumption.
    Qed.
  End AS.
End Partial.

Lemma cs_sound1_ext (B U W : Type) (m : csm B U W) (Phi Phi' : B -> U -> U) (good : B -> Prop) Inv :
  (forall h u, good h -> Phi h u = Phi' h u) -> cs_sound1 m Phi good Inv -> cs_sound1 m Phi' good Inv.
Proof.
  intros E [H1 H2]. split; [exact H1|]. intros s u h w Hi. specialize (H2 s u h w Hi).
  destruct (cs_upd m u h s w) as [[[e|x] s'] w']; [exact I|]. destruct H2 as (G & -> & H2). rewrite (E h u G) in *. auto.
Qed.
Lemma as_sound1_ext (B U W : Type) (m : asm B U W) (Phi Phi' : B -> U -> U * U) (good : B -> Prop) Inv :
  (forall h u, good h -> Phi h u = Phi' h u) -> as_sound1 m Phi good Inv -> as_sound1 m Phi' good Inv.
Proof.
  intros E [H1 H2]. split; [exact H1|]. intros acc s u h w Hi. specialize (H2 acc s u h w Hi).
  destruct (as_upd m acc u h s w) as [[[e|x] s'] w']; [exact I|]. destruct H2 as (G & -> & H2). rewrite (E h u G) in *. auto.
Qed.

Lemma cs_sound_1 (B U W : Type) (m : csm B U W) (Phi : B -> U -> U) (good : B -> Prop) Inv :
  (forall h, good h) -> cs_sound m Phi Inv -> cs_sound1 m Phi good Inv.
Proof.
  intros G [H1 H2]. split; [exact H1|]. intros s u h w Hi. specialize (H2 s u h w Hi).
  destruct (cs_upd m u h s w) as [[[e|x] s'] w']; [exact I|]. destruct H2. auto.
Qed.
Lemma as_sound_1 (B U W : Type) (m : asm B U W) (Phi : B -> U -> U * U) (good : B -> Prop) Inv :
  (forall h, good h) -> as_sound m Phi Inv -> as_sound1 m Phi good Inv.
Proof.
  intros G [H1 H2]. split; [exact H1|]. intros acc s u h w Hi. specialize (H2 acc s u h w Hi).
  destruct (as_upd m acc u h s w) as [[[e|x] s'] w']; [exact I|]. destruct H2 as (? & ? & ?). auto.
Qed.

Ltac keeps_tac :=
  repeat first
    [ apply keeps_bind; [|intros] | apply keeps_ret | apply keeps_get | apply keeps_mem | apply keeps_mem' | apply keeps_init | apply keeps_call
    | match goal with |- keeps (if ?b then _ else _) => destruct b end
    | match goal with |- context [let '(_) := ?x in _] => destruct x end
    | progress cbv zeta ].

Section Models.
  Variable F : tops.
  Variable A : aops F.
  Variable W : Type.
  Variable p : problem A W.
  Variable N : vec A -> vec A.
  Hypothesis HN : forall v w y w', p_nl p v w = (inr y, w') -> y = N v.

  (** Step sizes for which [_update_coeffs] returns. *)
  Definition cs_good (k : cs_kind) (h : T F) : Prop := fst (cs_uc p k h (cs_k0 A k)) = inr tt.
  Definition as_good (k : as_kind) (h : T F) : Prop := fst (as_uc p k h (as_k0 A k)) = inr tt.

  Ltac phi_ext := intros h u G; unfold cs_Phi, as_Phi, cs_phi, as_phi; cbn [cs_model as_model cs_new as_new];
    unfold if4_nondiag, etd4_nondiag, etd5_nondiag, if34_nondiag, etd34_nondiag, etd35_nondiag, cs_solver, as_solver, cs_update_stages, as_update_stages;
    cbn [cs_upd as_upd cs_st as_st]; unfold bind at 1; symmetry; unfold bind at 1.

  (** [HQ]: step sizes that compare equal have the same coefficients (equal reals; in binary64 also zeros of different sign). *)
  Theorem cs_model_sound1_eq k : (forall a b, teqb F a b = true -> cs_uc p k a = cs_uc p k b) ->
    exists Inv, cs_sound1 (cs_model p k) (cs_Phi p N k) (cs_good k) Inv.
  Proof.
    intros HQ. assert (HI := cs_uc_indep p k).
    assert (Tot : (forall h c, fst (cs_uc p k h c) = inr tt) -> exists Inv, cs_sound1 (cs_model p k) (cs_Phi p N k) (cs_good k) Inv).
    { intros HT. assert (He : cs_eq_ok p k) by (intros a b E; unfold kof; rewrite (HQ _ _ E); reflexivity).
      exists (cs_inv p N k). apply cs_sound_1; [intros h; apply HT|]. unfold cs_eq_ok in He. destruct k.
      - exact (if4d_sound p N HN _ (z1 A) HI HT He).
      - exact (if4n_sound p N HN _ (z1 A) HI HT He).
      - exact (etd4d_sound p N HN _ (z1 A) HI HT He).
      - exact (etd4n_sound p N HN _ (z1 A) HI HT He).
      - exact (etd5d_sound p N HN _ (z1 A) HI HT He).
      - exact (etd5n_sound p N HN _ (z1 A) HI HT He). }
    destruct k; try (apply Tot; reflexivity); clear Tot.
    - eexists. eapply cs_sound1_ext; [|apply (cs_partial HI HQ (k0 := cs_k0 A IF4n));
        [intros u; unfold if4n_init; keeps_tac|intros u h; unfold if4n_stages; keeps_tac
        |exact (if4n_sound p N HN _ (z1 A) (tot_indep F HI (cs_k0 A IF4n)) (tot_total F _ _) (tot_eq F (cs_uc p IF4n) (cs_k0 A IF4n) HQ))]].
      phi_ext. rewrite (update_fresh (X := mem1 (vec A)) HI (k0 := cs_k0 A IF4n) (W := unit) _ (h := h) tt G). reflexivity.
    - eexists. eapply cs_sound1_ext; [|apply (cs_partial HI HQ (k0 := cs_k0 A ETD4n));
        [intros u; unfold etd4n_init; keeps_tac|intros u h; unfold etd4n_stages; keeps_tac
        |exact (etd4n_sound p N HN _ (z1 A) (tot_indep F HI (cs_k0 A ETD4n)) (tot_total F _ _) (tot_eq F (cs_uc p ETD4n) (cs_k0 A ETD4n) HQ))]].
      phi_ext. rewrite (update_fresh (X := mem1 (vec A)) HI (k0 := cs_k0 A ETD4n) (W := unit) _ (h := h) tt G). reflexivity.
    - eexists. eapply cs_sound1_ext; [|apply (cs_partial HI HQ (k0 := cs_k0 A ETD5n));
        [intros u; unfold etd5n_init; keeps_tac|intros u h; unfold etd5n_stages; keeps_tac
        |exact (etd5n_sound p N HN _ (z1 A) (tot_indep F HI (cs_k0 A ETD5n)) (tot_total F _ _) (tot_eq F (cs_uc p ETD5n) (cs_k0 A ETD5n) HQ))]].
      phi_ext. rewrite (update_fresh (X := mem1 (vec A)) HI (k0 := cs_k0 A ETD5n) (W := unit) _ (h := h) tt G). reflexivity.
  Qed.

  Theorem as_model_sound1_eq k : (forall a b, teqb F a b = true -> as_uc p k a = as_uc p k b) ->
    exists Inv, as_sound1 (as_model p k) (as_Phi p N k) (as_good k) Inv.
  Proof.
    intros HQ. assert (HI := as_uc_indep p k).
    assert (Tot : (forall h c, fst (as_uc p k h c) = inr tt) -> exists Inv, as_sound1 (as_model p k) (as_Phi p N k) (as_good k) Inv).
    { intros HT. assert (He : as_eq_ok p k) by (intros a b E; unfold kof; rewrite (HQ _ _ E); reflexivity).
      exists (as_inv p N k). apply as_sound_1; [intros h; apply HT|]. unfold as_eq_ok in He. destruct k.
      - exact (if34d_sound p N HN _ (z2 A) HI HT He).
      - exact (if34n_sound p N HN _ (z2 A) HI HT He).
      - exact (if34z_sound p N HN _ (z3 A) HI HT He).
      - exact (@dp_sound _ _ _ p N HN _ (z2 A) He).
      - exact (etd34d_sound p N HN _ (z2 A) HI HT He).
      - exact (etd34n_sound p N HN _ (z2 A) HI HT He).
      - exact (etd34z_sound p N HN _ (z3 A) HI HT He).
      - exact (etd35d_sound p N HN _ (z1 A) HI HT He).
      - exact (etd35n_sound p N HN _ (z1 A) HI HT He).
      - exact (etd35z_sound p N HN _ (z4 A) HI HT He). }
    destruct k; try (apply Tot; reflexivity); clear Tot.
    - eexists. eapply as_sound1_ext; [|apply (as_partial HI HQ (k0 := as_k0 A IF34n));
        [intros u; unfold if34n_init; keeps_tac|intros acc u h; unfold if34n_stages; keeps_tac
        |exact (if34n_sound p N HN _ (z2 A) (tot_indep F HI (as_k0 A IF34n)) (tot_total F _ _) (tot_eq F (as_uc p IF34n) (as_k0 A IF34n) HQ))]].
      phi_ext. rewrite (update_fresh (X := mem2 (vec A)) HI (k0 := as_k0 A IF34n) (W := unit) _ (h := h) tt G). reflexivity.
    - eexists. eapply as_sound1_ext; [|apply (as_partial HI HQ (k0 := as_k0 A ETD34n));
        [intros u; unfold etd34n_init; keeps_tac|intros acc u h; unfold etd34n_stages; keeps_tac
        |exact (etd34n_sound p N HN _ (z2 A) (tot_indep F HI (as_k0 A ETD34n)) (tot_total F _ _) (tot_eq F (as_uc p ETD34n) (as_k0 A ETD34n) HQ))]].
      phi_ext. rewrite (update_fresh (X := mem2 (vec A)) HI (k0 := as_k0 A ETD34n) (W := unit) _ (h := h) tt G). reflexivity.
    - eexists. eapply as_sound1_ext; [|apply (as_partial HI HQ (k0 := as_k0 A ETD35n));
        [intros u; unfold etd35n_init; keeps_tac|intros acc u h; unfold etd35n_stages; keeps_tac
        |exact (etd35n_sound p N HN _ (z1 A) (tot_indep F HI (as_k0 A ETD35n)) (tot_total F _ _) (tot_eq F (as_uc p ETD35n) (as_k0 A ETD35n) HQ))]].
      phi_ext. rewrite (update_fresh (X := mem1 (vec A)) HI (k0 := as_k0 A ETD35n) (W := unit) _ (h := h) tt G). reflexivity.
  Qed.
End Models.

Section Equal.
  Variable F : tops.
  Hypothesis HQ : forall a b : T F, teqb F a b = true -> a = b.
  Variable A : aops F.
  Variable W : Type.
  Variable p : problem A W.
  Variable N : vec A -> vec A.
  Hypothesis HN : forall v w y w', p_nl p v w = (inr y, w') -> y = N v.

  Theorem cs_model_sound1 k : exists Inv, cs_sound1 (cs_model p k) (cs_Phi p N k) (cs_good p k) Inv.
  Proof. apply (cs_model_sound1_eq p N HN). intros a b E. rewrite (HQ _ _ E). reflexivity. Qed.
  Theorem as_model_sound1 k : exists Inv, as_sound1 (as_model p k) (as_Phi p N k) (as_good p k) Inv.
  Proof. apply (as_model_sound1_eq p N HN). intros a b E. rewrite (HQ _ _ E). reflexivity. Qed.
End Equal.
