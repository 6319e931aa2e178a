(** * Facts about every solver strategy: caches are invisible *)

From Coq Require Import ZArith List Bool FunctionalExtensionality Lia.
From Verif Require Import Scalars Control ControlCS ControlCSReal ControlSim Arrays SchemeBase SchemeIF SchemeETD4
     SchemeETD5 Solvers.
Import ListNotations.

Set Implicit Arguments.

(** ** Coefficient computations do not depend on the coefficients they overwrite *)

Definition coef_indep (B K : Type) (ucoef : B -> K -> (exn + unit) * K) : Prop :=
  forall h k k', fst (ucoef h k) = fst (ucoef h k') /\
                 (fst (ucoef h k) = inr tt -> snd (ucoef h k) = snd (ucoef h k')).

Section Coefs.
  Variable F : tops.
  Variable A : aops F.
  Variable cfg : etdcfg F.
  Variables expm inv : mat A -> exn + mat A.

  Lemma if4d_indep L : coef_indep (if4d_coeffs F A L).
  Proof. intros h k k'; split; reflexivity. Qed.
  Lemma if34d_indep L : coef_indep (if34d_coeffs F A L).
  Proof. intros h k k'; split; reflexivity. Qed.
  Lemma if34z_indep lam : coef_indep (if34z_coeffs F A lam).
  Proof. intros h k k'; split; reflexivity. Qed.
  Lemma dp_indep L : coef_indep (dp_coeffs F A L).
  Proof. intros h k k'; split; reflexivity. Qed.
  Lemma if4n_indep L : coef_indep (if4n_coeffs F A expm L).
  Proof.
    intros h k k'; unfold if4n_coeffs. destruct (expm (mscal h L)); [split; [reflexivity|discriminate]|].
    destruct (expm (mdivz (mscal h L) 2)); split; try reflexivity. discriminate.
  Qed.
  Lemma if34n_indep L : coef_indep (if34n_coeffs F A expm L).
  Proof.
    intros h k k'; unfold if34n_coeffs. destruct (expm (mscal h L)); [split; [reflexivity|discriminate]|].
    destruct (expm (mdivz (mscal h L) 2)); split; try reflexivity. discriminate.
  Qed.

  (** In-place masked updates: the two masks together cover every entry. *)
  Lemma etd4d_indep L : coef_indep (etd4d_coeffs F A cfg L).
  Proof.
    intros h k k'; split; [reflexivity|intros _]. unfold etd4d_coeffs. cbn [snd].
    rewrite !mask_cover. reflexivity.
  Qed.
  Lemma etd34_indep (z : T F -> vec A) : coef_indep (fun h => etd34_coeffs_of F A cfg h (z h)).
  Proof.
    intros h k k'; split; [reflexivity|intros _]. unfold etd34_coeffs_of. cbn [snd].
    rewrite !mask_cover. reflexivity.
  Qed.
  Lemma etd5d_indep L : coef_indep (etd5d_coeffs F A cfg L).
  Proof.
    intros h k k'; split; [reflexivity|intros _]. unfold etd5d_coeffs. cbn [snd].
    rewrite !mask_cover. reflexivity.
  Qed.
  Lemma etd35_indep (z : T F -> vec A) : coef_indep (fun h => etd35_coeffs_of F A cfg h (z h)).
  Proof.
    intros h k k'; split; [reflexivity|intros _]. unfold etd35_coeffs_of. cbn [snd].
    rewrite !mask_cover. reflexivity.
  Qed.
  Lemma etd4n_indep L : coef_indep (etd4n_coeffs F A cfg expm inv L).
  Proof.
    intros h k k'; unfold etd4n_coeffs. destruct (expm (mscal h L)); [split; [reflexivity|discriminate]|].
    destruct (expm (mdivz (mscal h L) 2)); [split; [reflexivity|discriminate]|].
    destruct (etd4_contour _ _ _ _ _ _ _) as [e|[? ? ? ? ?]]; split; try reflexivity. discriminate.
  Qed.
  Lemma etd5n_indep L : coef_indep (etd5n_coeffs F A cfg expm inv L).
  Proof.
    intros h k k'; unfold etd5n_coeffs.
    destruct (expm (mdivz (mscal h L) 4)); [split; [reflexivity|discriminate]|].
    destruct (expm (mdivz (mscal h L) 2)); [split; [reflexivity|discriminate]|].
    destruct (expm (mdivz (mscalz 3 (mscal h L)) 4)); [split; [reflexivity|discriminate]|].
    destruct (expm (mscal h L)); [split; [reflexivity|discriminate]|].
    destruct (etd5_contour _ _ _ _ _ _ _) as [e|[? ? ? ? ? ? ? ? ?]]; split; try reflexivity. discriminate.
  Qed.
End Coefs.

(** ** Coefficient computation of each strategy *)
Section Family.
  Variable F : tops.
  Variable A : aops F.
  Variable W : Type.
  Variable p : problem A W.

  (** Fresh: as after [reset] or construction. *)
  Definition fresh {B K X} (s : sst B K X) : Prop := h_coeff s = None /\ n1_init s = false.
  Definition sameR {B K X} (s s' : sst B K X) : Prop := s = s' \/ (fresh s /\ fresh s').
  Definition sameRa {B K X} (acc : bool) (s s' : sst B K X) : Prop :=
    s = s' \/ (acc = false /\ fresh s /\ fresh s').

  Ltac unfold_all :=
    unfold cs_model, as_model, if4_diag, if4_nondiag, etd4_diag, etd4_nondiag, etd5_diag, etd5_nondiag,
      if34_diag, if34_nondiag, if34_diagonalized, if45dp, etd34_diag, etd34_nondiag, etd34_diagonalized,
      etd35_diag, etd35_nondiag, etd35_diagonalized, cs_solver, as_solver in *;
    cbn [cs_st cs_reset cs_upd as_st as_reset as_upd] in *;
    unfold cs_update_stages, as_update_stages, dp_update_stages,
      if4d_init, if4n_init, if34d_init, if34n_init, if34z_init, etd4d_init, etd4n_init, etd34d_init,
      etd34n_init, etd34z_init, etd5d_init, etd5n_init, etd35d_init, etd35n_init, etd35z_init,
      if4d_stages, if4n_stages, if34d_stages, if34n_stages, if34z_stages, etd4d_stages, etd4n_stages,
      etd34d_stages, etd34n_stages, etd34z_stages, etd5d_stages, etd5n_stages, etd35d_stages,
      etd35n_stages, etd35z_stages,
      s_update_coeffs, s_reset, fresh, sameR, sameRa,
      bind, get, upd, ret, call, set_h, set_init, set_coefs, set_mem in *.

  Ltac norm := cbn [fst snd h_coeff n1_init coefs mem same_h m1_NL1 m2_NL1 m2_NLn m3_NL1 m3_NLn m3_v
                    m4_NL1 m4_v] in *.

  (** Split on the next call of the nonlinear function. *)
  Ltac step_nl :=
    match goal with
    | |- context [p_nl p ?v ?w] => destruct (p_nl p v w) as [[?e|?y] ?w']; norm
    end.

  Ltac done_raise := repeat split; intros; discriminate.

  Ltac split_coefs HI uc h k1 k2 :=
    let E1 := fresh "E" in let E2 := fresh "E" in
    let r1 := fresh "r" in let c1 := fresh "c" in let r2 := fresh "r" in let c2 := fresh "c" in
    destruct (HI h k1 k2) as [E1 E2];
    destruct (uc h k1) as [r1 c1], (uc h k2) as [r2 c2];
    cbn [fst snd] in E1, E2; subst r2;
    destruct r1 as [?e|[]]; norm; [done_raise|];
    specialize (E2 eq_refl); subst c2; norm.

  Ltac cs_forgets_tac :=
    let HI := fresh "HI" in
    intros HI; split;
    [ intros a b; right; split; split; reflexivity
    | intros u h a b w [->|[[Ha1 Ha2] [Hb1 Hb2]]];
      [ match goal with |- context [cs_upd ?m ?u ?h ?s ?w] =>
          destruct (cs_upd m u h s w) as [[r a'] w1] end;
        repeat split; intros; left; reflexivity
      | destruct a, b; norm; subst; unfold_all; norm;
        match goal with |- context [?uc h ?k1] =>
          match goal with |- context [uc h ?k2] =>
            lazymatch k1 with k2 => fail | _ => idtac end;
            split_coefs HI uc h k1 k2 end end;
        repeat (step_nl; [done_raise|]);
        repeat split; intros; left; reflexivity ] ].

  Ltac as_forgets_tac :=
    let HI := fresh "HI" in
    intros HI; split;
    [ intros a b; right; repeat split; reflexivity
    | intros acc u h a b w [->|(-> & [Ha1 Ha2] & [Hb1 Hb2])];
      [ match goal with |- context [as_upd ?m ?acc ?u ?h ?s ?w] =>
          destruct (as_upd m acc u h s w) as [[r a'] w1] end;
        repeat split; intros; left; reflexivity
      | destruct a, b; norm; subst; unfold_all; norm;
        match goal with |- context [?uc h ?k1] =>
          match goal with |- context [uc h ?k2] =>
            lazymatch k1 with k2 => fail | _ => idtac end;
            split_coefs HI uc h k1 k2 end end;
        repeat (step_nl; [done_raise|]);
        repeat split; intros; left; reflexivity ] ].

  Lemma if4d_forgets uc : coef_indep uc ->
    cs_forgets (cs_solver F (vec A) W (if_coefs (vec A)) (mem1 (vec A)) uc
                  (if4d_init F A W (p_nl p)) (if4d_stages F A W (p_nl p) )) sameR.
  Proof. cs_forgets_tac. Qed.
  Lemma if4n_forgets uc : coef_indep uc ->
    cs_forgets (cs_solver F (vec A) W (if_coefs (mat A)) (mem1 (vec A)) uc
                  (if4n_init F A W (p_nl p)) (if4n_stages F A W (p_nl p) (p_size p))) sameR.
  Proof. cs_forgets_tac. Qed.
  Lemma etd4d_forgets uc : coef_indep uc ->
    cs_forgets (cs_solver F (vec A) W (etd4_coefs (vec A)) (mem1 (vec A)) uc
                  (etd4d_init F A W (p_nl p)) (etd4d_stages F A W (p_nl p) )) sameR.
  Proof. cs_forgets_tac. Qed.
  Lemma etd4n_forgets uc : coef_indep uc ->
    cs_forgets (cs_solver F (vec A) W (etd4_coefs (mat A)) (mem1 (vec A)) uc
                  (etd4n_init F A W (p_nl p)) (etd4n_stages F A W (p_nl p) (p_size p))) sameR.
  Proof. cs_forgets_tac. Qed.
  Lemma etd5d_forgets uc : coef_indep uc ->
    cs_forgets (cs_solver F (vec A) W (etd5_coefs (vec A)) (mem1 (vec A)) uc
                  (etd5d_init F A W (p_nl p)) (etd5d_stages F A W (p_nl p) )) sameR.
  Proof. cs_forgets_tac. Qed.
  Lemma etd5n_forgets uc : coef_indep uc ->
    cs_forgets (cs_solver F (vec A) W (etd5_coefs (mat A)) (mem1 (vec A)) uc
                  (etd5n_init F A W (p_nl p)) (etd5n_stages F A W (p_nl p) (p_size p))) sameR.
  Proof. cs_forgets_tac. Qed.
  Lemma if34d_forgets uc : coef_indep uc ->
    as_forgets (as_solver F (vec A) W (if_coefs (vec A)) (mem2 (vec A)) uc
                  (if34d_init F A W (p_nl p) ) (if34d_stages F A W (p_nl p) )) sameRa.
  Proof. as_forgets_tac. Qed.
  Lemma if34n_forgets uc : coef_indep uc ->
    as_forgets (as_solver F (vec A) W (if_coefs (mat A)) (mem2 (vec A)) uc
                  (if34n_init F A W (p_nl p) ) (if34n_stages F A W (p_nl p) (p_size p))) sameRa.
  Proof. as_forgets_tac. Qed.
  Lemma if34z_forgets uc : coef_indep uc ->
    as_forgets (as_solver F (vec A) W (if_coefs (vec A)) (mem3 (vec A)) uc
                  (if34z_init F A W (p_nl p) (p_size p) (p_Sinv p)) (if34z_stages F A W (p_nl p) (p_size p) (p_S p) (p_Sinv p))) sameRa.
  Proof. as_forgets_tac. Qed.
  Lemma etd34d_forgets uc : coef_indep uc ->
    as_forgets (as_solver F (vec A) W (etd4_coefs (vec A)) (mem2 (vec A)) uc
                  (etd34d_init F A W (p_nl p) ) (etd34d_stages F A W (p_nl p) )) sameRa.
  Proof. as_forgets_tac. Qed.
  Lemma etd34n_forgets uc : coef_indep uc ->
    as_forgets (as_solver F (vec A) W (etd4_coefs (mat A)) (mem2 (vec A)) uc
                  (etd34n_init F A W (p_nl p) ) (etd34n_stages F A W (p_nl p) (p_size p))) sameRa.
  Proof. as_forgets_tac. Qed.
  Lemma etd34z_forgets uc : coef_indep uc ->
    as_forgets (as_solver F (vec A) W (etd4_coefs (vec A)) (mem3 (vec A)) uc
                  (etd34z_init F A W (p_nl p) (p_size p) (p_Sinv p)) (etd34z_stages F A W (p_nl p) (p_size p) (p_S p) (p_Sinv p))) sameRa.
  Proof. as_forgets_tac. Qed.
  Lemma etd35d_forgets uc : coef_indep uc ->
    as_forgets (as_solver F (vec A) W (etd5_coefs (vec A)) (mem1 (vec A)) uc
                  (etd35d_init F A W (p_nl p) ) (etd35d_stages F A W (p_nl p) )) sameRa.
  Proof. as_forgets_tac. Qed.
  Lemma etd35n_forgets uc : coef_indep uc ->
    as_forgets (as_solver F (vec A) W (etd5_coefs (mat A)) (mem1 (vec A)) uc
                  (etd35n_init F A W (p_nl p) ) (etd35n_stages F A W (p_nl p) (p_size p))) sameRa.
  Proof. as_forgets_tac. Qed.
  Lemma etd35z_forgets uc : coef_indep uc ->
    as_forgets (as_solver F (vec A) W (etd5_coefs (vec A)) (mem4 (vec A)) uc
                  (etd35z_init F A W (p_nl p) (p_size p) (p_Sinv p)) (etd35z_stages F A W (p_nl p) (p_size p) (p_S p) (p_Sinv p))) sameRa.
  Proof. as_forgets_tac. Qed.
  Lemma dp_forgets : as_forgets (if45dp F A W (p_nl p) (p_vec p)) sameRa.
  Proof.
    generalize (@dp_indep F A (p_vec p)). unfold if45dp, dp_update_stages.
    generalize (dp_coeffs F A (p_vec p)). intros uc. as_forgets_tac.
  Qed.

  (** The relation for each member of the family. *)
  Definition cs_rel (k : cs_kind) : cs_st (cs_model p k) -> cs_st (cs_model p k) -> Prop :=
    match k with
    | IF4d => sameR | IF4n => sameR | ETD4d => sameR | ETD4n => sameR | ETD5d => sameR | ETD5n => sameR
    end.
  Definition as_rel (k : as_kind) : bool -> as_st (as_model p k) -> as_st (as_model p k) -> Prop :=
    match k with
    | IF34d => sameRa | IF34n => sameRa | IF34z => sameRa | IF45DPd => sameRa | ETD34d => sameRa
    | ETD34n => sameRa | ETD34z => sameRa | ETD35d => sameRa | ETD35n => sameRa | ETD35z => sameRa
    end.

  Theorem cs_model_forgets k : cs_forgets (cs_model p k) (cs_rel k).
  Proof.
    destruct k; cbn [cs_model cs_rel].
    - apply if4d_forgets, if4d_indep.
    - apply if4n_forgets, if4n_indep.
    - apply etd4d_forgets, etd4d_indep.
    - apply etd4n_forgets, etd4n_indep.
    - apply etd5d_forgets, etd5d_indep.
    - apply etd5n_forgets, etd5n_indep.
  Qed.

  Theorem as_model_forgets k : as_forgets (as_model p k) (as_rel k).
  Proof.
    destruct k; cbn [as_model as_rel].
    - apply if34d_forgets, if34d_indep.
    - apply if34n_forgets, if34n_indep.
    - apply if34z_forgets, if34z_indep.
    - apply dp_forgets.
    - apply etd34d_forgets. intros h k k'. apply (@etd34_indep F A (p_cfg p) (fun h => vscal h (p_vec p))).
    - apply etd34n_forgets, etd4n_indep.
    - apply etd34z_forgets. intros h k k'. apply (@etd34_indep F A (p_cfg p) (fun h => vscal h (p_eigs p))).
    - apply etd35d_forgets. intros h k k'. apply (@etd35_indep F A (p_cfg p) (fun h => vscal h (p_vec p))).
    - apply etd35n_forgets, etd5n_indep.
    - apply etd35z_forgets. intros h k k'. apply (@etd35_indep F A (p_cfg p) (fun h => vscal h (p_eigs p))).
  Qed.
End Family.
