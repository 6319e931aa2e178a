(** * What an update does to the cached coefficients *)

From Coq Require Import ZArith List Bool Lia.
From Verif Require Import Scalars Control ControlSound Arrays SchemeBase
     SchemeIF SchemeETD4 SchemeETD5 Solvers SchemeFacts SchemeSound SchemeFamily.
Import ListNotations.

Set Implicit Arguments.

(** Computations that leave the coefficients and their step size alone. *)
Definition keeps {B K X W Y} (m : M (sst B K X) W Y) : Prop :=
  forall s w, coefs (snd (fst (m s w))) = coefs s /\ h_coeff (snd (fst (m s w))) = h_coeff s.

Lemma keeps_ret {B K X W Y} (y : Y) : keeps (@ret (sst B K X) W Y y).
Proof. split; reflexivity. Qed.
Lemma keeps_get {B K X W Y} (f : sst B K X -> Y) : keeps (@get (sst B K X) W Y f).
Proof. split; reflexivity. Qed.
Lemma keeps_mem {B K X W} x : keeps (@upd (sst B K X) W (set_mem x)).
Proof. split; reflexivity. Qed.
Lemma keeps_init {B K X W} b : keeps (@upd (sst B K X) W (set_init b)).
Proof. split; reflexivity. Qed.
Lemma keeps_call {B K X W V Y} (nl : V -> W -> (exn + Y) * W) v : keeps (@call (sst B K X) W V Y nl v).
Proof. intros s w. unfold call. destruct (nl v w). split; reflexivity. Qed.
Lemma keeps_bind {B K X W Y Z} (m : M (sst B K X) W Y) (f : Y -> M (sst B K X) W Z) :
  keeps m -> (forall y, keeps (f y)) -> keeps (bind m f).
Proof.
  intros Hm Hf s w. unfold bind. specialize (Hm s w). destruct (m s w) as [[[e|y] s'] w']; cbn in *; [exact Hm|].
  destruct (Hf y s' w') as [H1 H2], Hm as [H3 H4]. split; congruence.
Qed.

Ltac keeps_tac :=
  repeat first
    [ apply keeps_bind; [|intros] | apply keeps_ret | apply keeps_get | apply keeps_mem | apply keeps_init
    | apply keeps_call
    | match goal with |- keeps (if ?b then _ else _) => destruct b end
    | progress cbv zeta ].

Section Coefs.
  Variable F : tops.
  Variable A : aops F.
  Variable W : Type.
  Variable p : problem A W.

  Definition cs_coefs (k : cs_kind) : cs_st (cs_model p k) -> cs_K A k :=
    match k with
    | IF4d => coefs | IF4n => coefs | ETD4d => coefs | ETD4n => coefs | ETD5d => coefs | ETD5n => coefs
    end.
  Definition as_coefs (k : as_kind) : as_st (as_model p k) -> as_K A k :=
    match k with
    | IF34d => coefs | IF34n => coefs | IF34z => coefs | IF45DPd => coefs | ETD34d => coefs
    | ETD34n => coefs | ETD34z => coefs | ETD35d => coefs | ETD35n => coefs | ETD35z => coefs
    end.
  Definition cs_hc (k : cs_kind) : cs_st (cs_model p k) -> option (T F) :=
    match k with
    | IF4d => h_coeff | IF4n => h_coeff | ETD4d => h_coeff | ETD4n => h_coeff | ETD5d => h_coeff
    | ETD5n => h_coeff
    end.
  Definition as_hc (k : as_kind) : as_st (as_model p k) -> option (T F) :=
    match k with
    | IF34d => h_coeff | IF34n => h_coeff | IF34z => h_coeff | IF45DPd => h_coeff | ETD34d => h_coeff
    | ETD34n => h_coeff | ETD34z => h_coeff | ETD35d => h_coeff | ETD35n => h_coeff | ETD35z => h_coeff
    end.

  (** An update that starts with [s_update_coeffs] and then only computes stages. *)
  Lemma update_then_keeps K X Y uc h (g : unit -> M (sst (T F) K X) W Y) s w :
    (forall x, keeps (g x)) ->
    let s' := snd (fst (bind (s_update_coeffs F W K X uc h) g s w)) in
    if same_h F h (h_coeff s) then coefs s' = coefs s /\ h_coeff s' = h_coeff s
    else coefs s' = snd (uc h (coefs s)) /\ h_coeff s' = Some h.
  Proof.
    intros Hk. unfold bind, s_update_coeffs. destruct (same_h F h (h_coeff s)).
    - cbn. apply Hk.
    - cbn [set_h coefs]. destruct (uc h (coefs s)) as [[e|[]] c]; cbn [fst snd]; [split; reflexivity|].
      apply Hk.
  Qed.

  Ltac unf :=
    unfold if4_diag, if4_nondiag, etd4_diag, etd4_nondiag, etd5_diag, etd5_nondiag,
      if34_diag, if34_nondiag, if34_diagonalized, if45dp, etd34_diag, etd34_nondiag, etd34_diagonalized,
      etd35_diag, etd35_nondiag, etd35_diagonalized, cs_solver, as_solver;
    cbn [cs_st cs_reset cs_upd as_st as_reset as_upd];
    unfold cs_update_stages, as_update_stages, dp_update_stages,
      if4d_stages, if4n_stages, if34d_stages, if34n_stages, if34z_stages, etd4d_stages, etd4n_stages,
      etd34d_stages, etd34n_stages, etd34z_stages, etd5d_stages, etd5n_stages, etd35d_stages,
      etd35n_stages, etd35z_stages;
    unfold if4d_init, if4n_init, if34d_init, if34n_init, if34z_init, etd4d_init, etd4n_init, etd34d_init,
      etd34n_init, etd34z_init, etd5d_init, etd5n_init, etd35d_init, etd35n_init, etd35z_init.

  Lemma cs_upd_coefs k u h s w :
    let s' := snd (fst (cs_upd (cs_model p k) u h s w)) in
    if same_h F h (cs_hc k s) then cs_coefs k s' = cs_coefs k s /\ cs_hc k s' = cs_hc k s
    else cs_coefs k s' = snd (cs_uc p k h (cs_coefs k s)) /\ cs_hc k s' = Some h.
  Proof.
    destruct k; cbn [cs_model cs_coefs cs_hc cs_uc cs_K]; unf; apply update_then_keeps; intros; keeps_tac.
  Qed.

  Lemma as_upd_coefs k acc u h s w :
    let s' := snd (fst (as_upd (as_model p k) acc u h s w)) in
    if same_h F h (as_hc k s) then as_coefs k s' = as_coefs k s /\ as_hc k s' = as_hc k s
    else as_coefs k s' = snd (as_uc p k h (as_coefs k s)) /\ as_hc k s' = Some h.
  Proof.
    destruct k; cbn [as_model as_coefs as_hc as_uc as_K]; unf; apply update_then_keeps; intros; keeps_tac.
  Qed.

  (** A raising coefficient computation makes the whole update raise. *)
  Lemma cs_upd_coefs_raise k u h s w e :
    same_h F h (cs_hc k s) = false -> fst (cs_uc p k h (cs_coefs k s)) = inl e ->
    fst (fst (cs_upd (cs_model p k) u h s w)) = inl e.
  Proof.
    intros H1 H2.
    destruct k; cbn [cs_model cs_coefs cs_hc cs_uc cs_K] in *; unf;
      unfold bind at 1; unfold s_update_coeffs; rewrite H1; cbn [set_h coefs];
      match goal with |- context [match (let '(_, _) := ?x in _) with _ => _ end] => destruct x as [r c] end;
      cbn [fst] in H2; subst r; reflexivity.
  Qed.
  Lemma as_upd_coefs_raise k acc u h s w e :
    same_h F h (as_hc k s) = false -> fst (as_uc p k h (as_coefs k s)) = inl e ->
    fst (fst (as_upd (as_model p k) acc u h s w)) = inl e.
  Proof.
    intros H1 H2.
    destruct k; cbn [as_model as_coefs as_hc as_uc as_K] in *; unf;
      unfold bind at 1; unfold s_update_coeffs; rewrite H1; cbn [set_h coefs];
      match goal with |- context [match (let '(_, _) := ?x in _) with _ => _ end] => destruct x as [r c] end;
      cbn [fst] in H2; subst r; reflexivity.
  Qed.

  (** With the coefficients in the cache an update cannot raise unless the nonlinear function does. *)
  Hypothesis HP : forall v w e, fst (p_nl p v w) <> inl e.

  Lemma cached_safe K X Y uc h (g : unit -> M (sst (T F) K X) W Y) s w e :
    (forall x, safe (g x)) -> same_h F h (h_coeff s) = true ->
    fst (fst (bind (s_update_coeffs F W K X uc h) g s w)) <> inl e.
  Proof.
    intros Hg H. unfold bind, s_update_coeffs. rewrite H. apply Hg.
  Qed.

  Ltac safe_tac :=
    repeat first
      [ apply safe_bind; [|intros] | apply safe_ret | apply safe_get | apply safe_upd
      | apply safe_call; exact HP
      | match goal with |- safe (if ?b then _ else _) => destruct b end
      | progress cbv zeta ].

  Lemma cs_upd_cached k u h s w e :
    same_h F h (cs_hc k s) = true -> fst (fst (cs_upd (cs_model p k) u h s w)) <> inl e.
  Proof.
    intros H. destruct k; cbn [cs_model cs_hc] in *; unf; apply cached_safe; try exact H; intros; safe_tac.
  Qed.
  Lemma as_upd_cached k acc u h s w e :
    same_h F h (as_hc k s) = true -> fst (fst (as_upd (as_model p k) acc u h s w)) <> inl e.
  Proof.
    intros H. destruct k; cbn [as_model as_hc] in *; unf; apply cached_safe; try exact H; intros; safe_tac.
  Qed.
End Coefs.
