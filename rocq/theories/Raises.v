(** * Where exceptions of a step come from

    The stages raise only what the user's nonlinear function, [expm] or [inv] raise. *)

From Coq Require Import ZArith List Bool Reals.
From Verif Require Import Scalars Control Arrays SchemeBase SchemeIF SchemeETD4 SchemeETD5 Solvers SchemeFacts SchemeSound SchemeFamily.
Import ListNotations.

Set Implicit Arguments.

Section Raises.
  Variable P : exn -> Prop.
  Definition raises {S W Y} (m : M S W Y) : Prop :=
    forall s w, match fst (fst (m s w)) with inl e => P e | inr _ => True end.
  Lemma raises_ret S W Y (y : Y) : raises (@ret S W Y y). Proof. intros s w; exact I. Qed.
  Lemma raises_get S W Y (f : S -> Y) : raises (@get S W Y f). Proof. intros s w; exact I. Qed.
  Lemma raises_upd S W f : raises (@upd S W f). Proof. intros s w; exact I. Qed.
  Lemma raises_call S W V Y (nl : V -> W -> (exn + Y) * W) v :
    (forall w, match fst (nl v w) with inl e => P e | inr _ => True end) -> raises (@call S W V Y nl v).
  Proof. intros H s w. specialize (H w). unfold call. destruct (nl v w). exact H. Qed.
  Lemma raises_bind S W Y Z (m : M S W Y) (f : Y -> M S W Z) : raises m -> (forall y, raises (f y)) -> raises (bind m f).
  Proof. intros Hm Hf s w. unfold bind. specialize (Hm s w). destruct (m s w) as [[[e|y] s'] w']; [exact Hm|]. apply Hf. Qed.
  Lemma raises_coeffs F W K X (uc : T F -> K -> (exn + unit) * K) h :
    (forall c, match fst (uc h c) with inl e => P e | inr _ => True end) -> raises (s_update_coeffs F W K X uc h).
  Proof.
    intros H s w. unfold s_update_coeffs. destruct (same_h F h (h_coeff s)); [exact I|].
    specialize (H (coefs (set_h (Some h) s))). destruct (uc h (coefs (set_h (Some h) s))). exact H.
  Qed.

  Ltac raises_tac nl :=
    repeat first
      [ apply raises_bind; [|intros] | apply raises_ret | apply raises_get | apply raises_upd | apply raises_call; exact (nl _)
      | match goal with |- raises (if ?b then _ else _) => destruct b end
      | match goal with |- context [let '(_) := ?x in _] => destruct x end
      | progress cbv zeta ].

  Section Models.
    Variable F : tops.
    Variable A : aops F.
    Variable W : Type.
    Variable p : problem A W.
    Hypothesis Hnl : forall v w, match fst (p_nl p v w) with inl e => P e | inr _ => True end.
    Hypothesis Hexpm : forall m, match p_expm p m with inl e => P e | inr _ => True end.
    Hypothesis Hinv : forall m, match p_inv p m with inl e => P e | inr _ => True end.

    Lemma contour4 z pts ps : match etd4_contour F A (p_cfg p) (p_inv p) z pts ps with inl e => P e | inr _ => True end.
    Proof.
      revert ps. induction pts as [|pt pts IH]; intros ps; cbn [etd4_contour]; [exact I|].
      match goal with |- context [p_inv p ?m] => assert (G := Hinv m); destruct (p_inv p m); [exact G|] end.
      match goal with |- context [p_inv p ?m] => assert (G2 := Hinv m); destruct (p_inv p m); [exact G2|] end.
      apply IH.
    Qed.
    Lemma contour5 z pts ps : match etd5_contour F A (p_cfg p) (p_inv p) z pts ps with inl e => P e | inr _ => True end.
    Proof.
      revert ps. induction pts as [|pt pts IH]; intros ps; cbn [etd5_contour]; [exact I|].
      do 4 (match goal with |- context [p_inv p ?m] => let G := fresh in assert (G := Hinv m); destruct (p_inv p m); [exact G|] end).
      apply IH.
    Qed.
    Ltac step_tac :=
      repeat match goal with
      | |- context [p_expm p ?m] => let G := fresh in assert (G := Hexpm m); destruct (p_expm p m); [exact G|]
      | |- context [etd4_contour F A ?c ?i ?z ?n ?q] => let G := fresh in assert (G := contour4 z n q); destruct (etd4_contour F A c i z n q) as [|[]]; [exact G|]
      | |- context [etd5_contour F A ?c ?i ?z ?n ?q] => let G := fresh in assert (G := contour5 z n q); destruct (etd5_contour F A c i z n q) as [|[]]; [exact G|]
      end; exact I.
    Lemma as_coeffs_raise k h c : match fst (as_uc p k h c) with inl e => P e | inr _ => True end.
    Proof.
      destruct k; try exact I; cbn [as_uc]; unfold if34n_coeffs, etd4n_coeffs, etd5n_coeffs; cbv zeta; step_tac.
    Qed.
    Lemma cs_coeffs_raise k h c : match fst (cs_uc p k h c) with inl e => P e | inr _ => True end.
    Proof.
      destruct k; try exact I; cbn [cs_uc]; unfold if4n_coeffs, etd4n_coeffs, etd5n_coeffs; cbv zeta; step_tac.
    Qed.
    (** A constant step update raises only what the external functions raise. *)
    Theorem cs_model_raises k u h s w :
      match fst (fst (cs_upd (cs_model p k) u h s w)) with inl e => P e | inr _ => True end.
    Proof.
      revert s w. change (raises (cs_upd (cs_model p k) u h)). assert (C := cs_coeffs_raise k h).
      destruct k; cbn [cs_model cs_uc] in *;
        unfold if4_diag, if4_nondiag, etd4_diag, etd4_nondiag, etd5_diag, etd5_nondiag, cs_solver, cs_update_stages; cbn [cs_upd];
        (apply raises_bind; [apply raises_coeffs; exact C|intros; clear C]);
        unfold if4d_init, if4n_init, etd4d_init, etd4n_init, etd5d_init, etd5n_init,
               if4d_stages, if4n_stages, etd4d_stages, etd4n_stages, etd5d_stages, etd5n_stages; raises_tac Hnl.
    Qed.
    (** The same of an attempt of an adaptive solver. *)
    Theorem as_model_raises k acc u h s w :
      match fst (fst (as_upd (as_model p k) acc u h s w)) with inl e => P e | inr _ => True end.
    Proof.
      revert s w. change (raises (as_upd (as_model p k) acc u h)). assert (C := as_coeffs_raise k h).
      destruct k; cbn [as_model as_uc] in *;
        unfold if34_diag, if34_nondiag, if34_diagonalized, if45dp, etd34_diag, etd34_nondiag, etd34_diagonalized,
               etd35_diag, etd35_nondiag, etd35_diagonalized, as_solver, as_update_stages; cbn [as_upd];
        unfold dp_update_stages;
        (apply raises_bind; [apply raises_coeffs; exact C|intros; clear C]);
        unfold if34d_init, if34n_init, if34z_init, etd34d_init, etd34n_init, etd34z_init, etd35d_init, etd35n_init, etd35z_init,
               if34d_stages, if34n_stages, if34z_stages, etd34d_stages, etd34n_stages, etd34z_stages, etd35d_stages, etd35n_stages, etd35z_stages;
        raises_tac Hnl.
    Qed.
  End Models.
End Raises.
