(** * Soundness of the whole family *)

From Coq Require Import ZArith List Bool FunctionalExtensionality Lia.
From Verif Require Import Scalars Control ControlCS ControlCSReal ControlSim ControlSound Arrays SchemeBase
     SchemeIF SchemeETD4 SchemeETD5 Solvers SchemeFacts SchemeSound.
Import ListNotations.

Set Implicit Arguments.

(** Computations that do not raise. *)
Definition safe {S W X} (m : M S W X) : Prop := forall s w e, fst (fst (m s w)) <> inl e.

Lemma safe_ret {S W X} (x : X) : safe (@ret S W X x).
Proof. intros s w e; discriminate. Qed.
Lemma safe_get {S W X} (f : S -> X) : safe (@get S W X f).
Proof. intros s w e; discriminate. Qed.
Lemma safe_upd {S W} (f : S -> S) : safe (@upd S W f).
Proof. intros s w e; discriminate. Qed.
Lemma safe_bind {S W X Y} (m : M S W X) (f : X -> M S W Y) :
  safe m -> (forall x, safe (f x)) -> safe (bind m f).
Proof.
  intros Hm Hf s w e. unfold bind. specialize (Hm s w).
  destruct (m s w) as [[[e'|x] s'] w']; [elim (Hm e'); reflexivity|]. apply Hf.
Qed.
Lemma safe_call {S W V Y} (nl : V -> W -> (exn + Y) * W) v :
  (forall v w e, fst (nl v w) <> inl e) -> safe (@call S W V Y nl v).
Proof.
  intros H s w e. unfold call. specialize (H v w). destruct (nl v w) as [r w']. exact (H e).
Qed.

Section Family.
  Variable F : tops.
  Variable A : aops F.
  Variable W : Type.
  Variable p : problem A W.

  (** ** The family *)

  (** Type of the cached coefficients, the strategy's [update_coeffs], and the zero coefficients
      set by the constructor. *)
  Definition cs_K (k : cs_kind) : Type :=
    match k with
    | IF4d => if_coefs (vec A) | IF4n => if_coefs (mat A)
    | ETD4d => etd4_coefs (vec A) | ETD4n => etd4_coefs (mat A)
    | ETD5d => etd5_coefs (vec A) | ETD5n => etd5_coefs (mat A)
    end.
  Definition as_K (k : as_kind) : Type :=
    match k with
    | IF34d => if_coefs (vec A) | IF34n => if_coefs (mat A) | IF34z => if_coefs (vec A)
    | IF45DPd => dp_coefs (vec A) (T F)
    | ETD34d => etd4_coefs (vec A) | ETD34n => etd4_coefs (mat A) | ETD34z => etd4_coefs (vec A)
    | ETD35d => etd5_coefs (vec A) | ETD35n => etd5_coefs (mat A) | ETD35z => etd5_coefs (vec A)
    end.
  Definition cs_uc (k : cs_kind) : T F -> cs_K k -> (exn + unit) * cs_K k :=
    match k with
    | IF4d => if4d_coeffs F A (p_vec p)
    | IF4n => if4n_coeffs F A (p_expm p) (p_mat p)
    | ETD4d => etd4d_coeffs F A (p_cfg p) (p_vec p)
    | ETD4n => etd4n_coeffs F A (p_cfg p) (p_expm p) (p_inv p) (p_mat p)
    | ETD5d => etd5d_coeffs F A (p_cfg p) (p_vec p)
    | ETD5n => etd5n_coeffs F A (p_cfg p) (p_expm p) (p_inv p) (p_mat p)
    end.
  Definition as_uc (k : as_kind) : T F -> as_K k -> (exn + unit) * as_K k :=
    match k with
    | IF34d => if34d_coeffs F A (p_vec p)
    | IF34n => if34n_coeffs F A (p_expm p) (p_mat p)
    | IF34z => if34z_coeffs F A (p_eigs p)
    | IF45DPd => dp_coeffs F A (p_vec p)
    | ETD34d => etd34d_coeffs F A (p_cfg p) (p_vec p)
    | ETD34n => etd4n_coeffs F A (p_cfg p) (p_expm p) (p_inv p) (p_mat p)
    | ETD34z => etd34z_coeffs F A (p_cfg p) (p_eigs p)
    | ETD35d => etd35d_coeffs F A (p_cfg p) (p_vec p)
    | ETD35n => etd5n_coeffs F A (p_cfg p) (p_expm p) (p_inv p) (p_mat p)
    | ETD35z => etd35z_coeffs F A (p_cfg p) (p_eigs p)
    end.
  Definition cs_k0 (k : cs_kind) : cs_K k :=
    match k with
    | IF4d => z_if (vzero A) | IF4n => z_if (mzero A)
    | ETD4d => z_etd4 (vzero A) | ETD4n => z_etd4 (mzero A)
    | ETD5d => z_etd5 (vzero A) | ETD5n => z_etd5 (mzero A)
    end.
  Definition as_k0 (k : as_kind) : as_K k :=
    match k with
    | IF34d => z_if (vzero A) | IF34n => z_if (mzero A) | IF34z => z_if (vzero A)
    | IF45DPd => z_dp (vzero A) (tofZ F 0)
    | ETD34d => z_etd4 (vzero A) | ETD34n => z_etd4 (mzero A) | ETD34z => z_etd4 (vzero A)
    | ETD35d => z_etd5 (vzero A) | ETD35n => z_etd5 (mzero A) | ETD35z => z_etd5 (vzero A)
    end.

  (** [expm] and [inv] do not raise (they matter for matrix operators only). *)
  Definition linalg_total : Prop :=
    (forall m e, p_expm p m <> inl e) /\ (forall m e, p_inv p m <> inl e).

  Lemma cs_uc_indep k : coef_indep (cs_uc k).
  Proof.
    destruct k; cbn [cs_uc cs_K].
    - apply if4d_indep.
    - apply if4n_indep.
    - apply etd4d_indep.
    - apply etd4n_indep.
    - apply etd5d_indep.
    - apply etd5n_indep.
  Qed.
  Lemma as_uc_indep k : coef_indep (as_uc k).
  Proof.
    destruct k; cbn [as_uc as_K].
    - apply if34d_indep.
    - apply if34n_indep.
    - apply if34z_indep.
    - apply dp_indep.
    - intros h c c'. apply (@etd34_indep F A (p_cfg p) (fun h => vscal h (p_vec p))).
    - apply etd4n_indep.
    - intros h c c'. apply (@etd34_indep F A (p_cfg p) (fun h => vscal h (p_eigs p))).
    - intros h c c'. apply (@etd35_indep F A (p_cfg p) (fun h => vscal h (p_vec p))).
    - apply etd5n_indep.
    - intros h c c'. apply (@etd35_indep F A (p_cfg p) (fun h => vscal h (p_eigs p))).
  Qed.

  Lemma etd4_contour_total z pts : forall q e, (forall m e, p_inv p m <> inl e) ->
    etd4_contour F A (p_cfg p) (p_inv p) z pts q <> inl e.
  Proof.
    induction pts as [|pt pts IH]; intros q e Hi; cbn [etd4_contour]; [discriminate|].
    destruct (p_inv p _) eqn:E1; [elim (Hi _ _ E1)|].
    destruct (p_inv p (msub _ (mdivz z 2))) eqn:E2; [elim (Hi _ _ E2)|].
    apply IH. exact Hi.
  Qed.
  Lemma etd5_contour_total z pts : forall q e, (forall m e, p_inv p m <> inl e) ->
    etd5_contour F A (p_cfg p) (p_inv p) z pts q <> inl e.
  Proof.
    induction pts as [|pt pts IH]; intros q e Hi; cbn [etd5_contour]; [discriminate|].
    repeat match goal with
      |- context [p_inv p ?m] => let E := fresh "E" in destruct (p_inv p m) eqn:E; [elim (Hi _ _ E)|]
    end.
    apply IH. exact Hi.
  Qed.

  Ltac uc_total_tac :=
    intros [He Hi] h c; try reflexivity;
    unfold if4n_coeffs, if34n_coeffs, etd4n_coeffs, etd5n_coeffs;
    repeat match goal with
      |- context [p_expm p ?m] => let E := fresh "E" in destruct (p_expm p m) eqn:E; [elim (He _ _ E)|]
    end; try reflexivity;
    match goal with
    | |- context [etd4_contour ?a1 ?a2 ?a3 ?a4 ?a5 ?a6 ?a7] =>
        let E := fresh "E" in destruct (etd4_contour a1 a2 a3 a4 a5 a6 a7) as [?ex|[]] eqn:E; [elim (@etd4_contour_total _ _ _ _ Hi E)|]
    | |- context [etd5_contour ?a1 ?a2 ?a3 ?a4 ?a5 ?a6 ?a7] =>
        let E := fresh "E" in destruct (etd5_contour a1 a2 a3 a4 a5 a6 a7) as [?ex|[]] eqn:E; [elim (@etd5_contour_total _ _ _ _ Hi E)|]
    end; reflexivity.

  Lemma cs_uc_total k : linalg_total -> forall h c, fst (cs_uc k h c) = inr tt.
  Proof. destruct k; cbn [cs_uc cs_K]; uc_total_tac. Qed.
  Lemma as_uc_total k : linalg_total -> forall h c, fst (as_uc k h c) = inr tt.
  Proof. destruct k; cbn [as_uc as_K]; uc_total_tac. Qed.

  (** The nonlinear function may raise, but when it returns, it returns [N v]. *)
  Variable N : vec A -> vec A.
  (** The memoryless method: one step of a newly constructed solver with the pure function [N]. *)
  Definition cs_Phi (k : cs_kind) (h : T F) (u : vec A) : vec A :=
    @cs_phi F A (cs_model (with_nl p (pure_nl N)) k) (cs_new (with_nl p (pure_nl N)) k) h u.
  Definition as_Phi (k : as_kind) (h : T F) (u : vec A) : vec A * vec A :=
    @as_phi F A (as_model (with_nl p (pure_nl N)) k) (as_new (with_nl p (pure_nl N)) k) h u.

  Definition cs_inv (k : cs_kind) : cs_st (cs_model p k) -> vec A -> Prop :=
    match k with
    | IF4d => inv1 N (cs_uc IF4d) (cs_k0 IF4d) | IF4n => inv1 N (cs_uc IF4n) (cs_k0 IF4n)
    | ETD4d => inv1 N (cs_uc ETD4d) (cs_k0 ETD4d) | ETD4n => inv1 N (cs_uc ETD4n) (cs_k0 ETD4n)
    | ETD5d => inv1 N (cs_uc ETD5d) (cs_k0 ETD5d) | ETD5n => inv1 N (cs_uc ETD5n) (cs_k0 ETD5n)
    end.
  Definition as_inv (k : as_kind) : bool -> as_st (as_model p k) -> vec A -> Prop :=
    match k with
    | IF34d => inv2 N (as_uc IF34d) (as_k0 IF34d) | IF34n => inv2 N (as_uc IF34n) (as_k0 IF34n)
    | IF34z => inv3 p N (as_uc IF34z) (as_k0 IF34z) | IF45DPd => inv2 N (as_uc IF45DPd) (as_k0 IF45DPd)
    | ETD34d => inv2 N (as_uc ETD34d) (as_k0 ETD34d) | ETD34n => inv2 N (as_uc ETD34n) (as_k0 ETD34n)
    | ETD34z => inv3 p N (as_uc ETD34z) (as_k0 ETD34z)
    | ETD35d => inv1a N (as_uc ETD35d) (as_k0 ETD35d) | ETD35n => inv1a N (as_uc ETD35n) (as_k0 ETD35n)
    | ETD35z => inv4 p N (as_uc ETD35z) (as_k0 ETD35z)
    end.

  (** Step sizes that compare equal lead to equal coefficients (for the reals: trivially; for
      binary64 the two zeros are the only numbers that compare equal and differ). *)
  Definition cs_eq_ok (k : cs_kind) : Prop :=
    forall a b, teqb F a b = true -> kof F (cs_uc k) (cs_k0 k) a = kof F (cs_uc k) (cs_k0 k) b.
  Definition as_eq_ok (k : as_kind) : Prop :=
    forall a b, teqb F a b = true -> kof F (as_uc k) (as_k0 k) a = kof F (as_uc k) (as_k0 k) b.

  Hypothesis HN : forall v w y w', p_nl p v w = (inr y, w') -> y = N v.

  Theorem cs_model_sound k : linalg_total -> cs_eq_ok k ->
    cs_sound (cs_model p k) (cs_Phi k) (cs_inv k).
  Proof.
    intros Ht He. assert (HI := cs_uc_indep k). assert (HT := cs_uc_total k Ht). unfold cs_eq_ok in He.
    destruct k.
    - exact (if4d_sound p N HN _ (z1 A) HI HT He).
    - exact (if4n_sound p N HN _ (z1 A) HI HT He).
    - exact (etd4d_sound p N HN _ (z1 A) HI HT He).
    - exact (etd4n_sound p N HN _ (z1 A) HI HT He).
    - exact (etd5d_sound p N HN _ (z1 A) HI HT He).
    - exact (etd5n_sound p N HN _ (z1 A) HI HT He).
  Qed.

  Theorem as_model_sound k : linalg_total -> as_eq_ok k ->
    as_sound (as_model p k) (as_Phi k) (as_inv k).
  Proof.
    intros Ht He. assert (HI := as_uc_indep k). assert (HT := as_uc_total k Ht). unfold as_eq_ok in He.
    destruct k.
    - exact (if34d_sound p N HN _ (z2 A) HI HT He).
    - exact (if34n_sound p N HN _ (z2 A) HI HT He).
    - exact (if34z_sound p N HN _ (z3 A) HI HT He).
    - exact (@dp_sound _ _ _ p N HN _ (z2 A) He).
    - exact (etd34d_sound p N HN _ (z2 A) HI HT He).
    - exact (etd34n_sound p N HN _ (z2 A) HI HT He).
    - exact (etd34z_sound p N HN _ (z3 A) HI HT He).
    - exact (etd35d_sound p N HN _ (z1 A) HI HT He).
    - exact (etd35n_sound p N HN _ (z1 A) HI HT He).
    - exact (etd35z_sound p N HN _ (z4 A) HI HT He).
  Qed.

  (** A newly constructed solver satisfies the invariant for every vector. *)
  Lemma cs_new_inv k u : cs_inv k (cs_new p k) u.
  Proof. destruct k; split; discriminate. Qed.
  Lemma as_new_inv k u : as_inv k false (as_new p k) u.
  Proof. destruct k; repeat split; discriminate. Qed.

  (** With a nonlinear function that never raises, no strategy raises. *)
  Hypothesis HP : forall v w e, fst (p_nl p v w) <> inl e.

  Lemma safe_update_coeffs K X uc h : (forall h c, fst (uc h c) = inr tt) ->
    safe (s_update_coeffs F W K X uc h).
  Proof.
    intros H s w e. unfold s_update_coeffs. destruct (same_h F h (h_coeff s)); [discriminate|].
    specialize (H h (coefs (set_h (Some h) s))). destruct (uc h _) as [r c]. cbn in *. congruence.
  Qed.

  Ltac safe_tac :=
    repeat first
      [ apply safe_bind; [|intros] | apply safe_ret | apply safe_get | apply safe_upd
      | apply safe_call; exact HP | apply safe_update_coeffs; assumption
      | match goal with |- safe (if ?b then _ else _) => destruct b end
      | match goal with |- context [let '(_) := ?x in _] => destruct x end
      | progress cbv zeta ].

  Lemma cs_model_never_raises k : linalg_total ->
    forall u h s w e, fst (fst (cs_upd (cs_model p k) u h s w)) <> inl e.
  Proof.
    intros Ht. assert (HT := cs_uc_total k Ht). intros u h.
    change (safe (cs_upd (cs_model p k) u h)).
    destruct k; cbn [cs_model cs_uc] in *;
      unfold if4_diag, if4_nondiag, etd4_diag, etd4_nondiag, etd5_diag, etd5_nondiag, cs_solver;
      cbn [cs_upd]; unfold cs_update_stages, if4d_init, if4n_init, etd4d_init, etd4n_init, etd5d_init, etd5n_init,
        if4d_stages, if4n_stages, etd4d_stages, etd4n_stages, etd5d_stages, etd5n_stages; safe_tac.
  Qed.

  Lemma as_model_never_raises k : linalg_total -> as_never_raises (as_model p k).
  Proof.
    intros Ht. assert (HT := as_uc_total k Ht). intros acc u h.
    change (safe (as_upd (as_model p k) acc u h)).
    destruct k; cbn [as_model as_uc] in *;
      unfold if34_diag, if34_nondiag, if34_diagonalized, if45dp, etd34_diag, etd34_nondiag, etd34_diagonalized,
        etd35_diag, etd35_nondiag, etd35_diagonalized, as_solver;
      cbn [as_upd]; unfold as_update_stages, dp_update_stages, if34d_stages, if34n_stages, if34z_stages,
        etd34d_stages, etd34n_stages, etd34z_stages, etd35d_stages, etd35n_stages, etd35z_stages;
      unfold if34d_init, if34n_init, if34z_init, etd34d_init, etd34n_init, etd34z_init,
        etd35d_init, etd35n_init, etd35z_init; safe_tac.
  Qed.
End Family.
