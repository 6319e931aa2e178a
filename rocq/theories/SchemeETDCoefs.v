(** * ETD coefficient arrays over exact complex arithmetic *)

From Coq Require Import ZArith List Bool Reals Lra Lia FunctionalExtensionality QArith Qreals Setoid Morphisms.
From Coquelicot Require Import Complex.
From Verif Require Import Scalars Control ControlSound Arrays SchemeBase SchemeIF SchemeETD4 SchemeETD5 Solvers
     SchemeFacts SchemeSound SchemeFamily SchemeForm CInst SpecRK SchemeIFReal SpecPhi SpecERK ContourReal SchemeETDReal.
Import ListNotations.
Local Open Scope R_scope.

(** ** The cached arrays of the 1-D strategies *)

Section Used.
  Variable cfg : etdcfg Rops.
  Notation M := (contour_points cfg).

  Definition psi_code (r : nat) : C -> C :=
    match r with 1%nat => psi1 Cops | 2%nat => psi2 Cops | _ => psi3 Cops end.
  (** The value that takes the place of [psi_r(q z)]: the contour mean for small modes. *)
  Definition psi_used (r : nat) (q : R) (z : C) : C :=
    if Rlt_dec (Cmod z) (modecutoff cfg)
    then (csum M (fun j => psi_code r (RtoC q * (z + rho cfg j))) / RtoC (INR M))%C
    else psi_code r (RtoC q * z)%C.
  Definition ph (r : nat) (q : R) (z : C) : C := (RtoC (/ INR (fact r)) * psi_used r q z)%C.

  Lemma avg_used r (q h : R) f z : (forall x, f x = (RtoC q * x)%C) -> Cmod z < modecutoff cfg ->
    contour_avg Cops cfg h (psi_code r) f z = (RtoC h * psi_used r q z)%C.
  Proof.
    intros Hf Hz. unfold psi_used. destruct (Rlt_dec (Cmod z) (modecutoff cfg)) as [_|Hn]; [|contradiction].
    unfold contour_avg. csimp. unfold npts. cbn [tofZ Rops]. rewrite <- INR_IZR_INZ. unfold Cdiv.
    rewrite (csum_ext M _ (fun j => psi_code r (RtoC q * (z + rho cfg j)))%C).
    - ceq. ring.
    - intros j _. rewrite Hf. reflexivity.
  Qed.
  Lemma direct_used r (q : R) z w : w = (RtoC q * z)%C -> ~ Cmod z < modecutoff cfg ->
    psi_code r w = psi_used r q z.
  Proof.
    intros -> Hz. unfold psi_used. destruct (Rlt_dec (Cmod z) (modecutoff cfg)); [contradiction|]. reflexivity.
  Qed.

  Lemma div_scale (x : C) (k : Z) : k <> 0%Z -> (x / RtoC (IZR k))%C = (RtoC (/ IZR k) * x)%C.
  Proof. intros Hk. rewrite RtoC_inv by (apply not_0_IZR; exact Hk). unfold Cdiv. ring. Qed.

  (** Names for the operators of a 1-D operator. *)
  Section Ops.
    Variables (h : R) (L : cvec).
    Definition dE (q : R) : op := dfun h L (fun z => Cexp (RtoC q * z))%C.
    Definition dph (r : nat) (q : R) : op := dfun h L (ph r q).
    Definition d_krogstad := krogstad (dE (1/2)) (dE 1) (dph 1 (1/2)) (dph 2 (1/2)) (dph 1 1) (dph 2 1) (dph 3 1).
    Definition d_krogstad_embedded :=
      krogstad_embedded (dE (1/2)) (dE 1) (dph 1 (1/2)) (dph 2 (1/2)) (dph 1 1) (dph 2 1) (dph 3 1).
    Definition d_etd5 := etd5_method (dE (1/4)) (dE (1/2)) (dE (3/4)) (dE 1) (dph 1 (1/4)) (dph 2 (1/4))
      (dph 1 (1/2)) (dph 2 (1/2)) (dph 1 (3/4)) (dph 2 (3/4)) (dph 1 1) (dph 2 1) (dph 3 1).
    Definition d_etd5_embedded := etd5_embedded (dE (1/4)) (dE (1/2)) (dE (3/4)) (dE 1) (dph 1 (1/4)) (dph 2 (1/4))
      (dph 1 (1/2)) (dph 2 (1/2)) (dph 1 (3/4)) (dph 2 (3/4)) (dph 1 1) (dph 2 1) (dph 3 1).
  End Ops.

  (** [f x = q x], entry arithmetic only. *)
  Ltac scale_fact := unfold lit; cbn [Cops eofT emul ediv Rops T tdiv tofZ]; ceq; cfield.
  Ltac small_one r p Hz :=
    match goal with |- context [contour_avg Cops cfg ?h p ?f ?z] =>
      let go q := rewrite (avg_used r q h f z) by
        first [exact Hz | let x := fresh "x" in intros x; scale_fact] in
      change p with (psi_code r); first [go (1/4)%R | go (1/2)%R | go (3/4)%R | go 1%R]
    end.
  Ltac small_all Hz :=
    repeat small_one 1%nat (psi1 Cops) Hz; repeat small_one 2%nat (psi2 Cops) Hz; repeat small_one 3%nat (psi3 Cops) Hz.
  Ltac big_one r p z Hz :=
    match goal with |- context [p ?w] =>
      let go q := rewrite (direct_used r q z w) by first [exact Hz | csimp; set (x := z); clearbody x; scale_fact] in
      change (p w) with (psi_code r w); first [go (1/4)%R | go (1/2)%R | go (3/4)%R | go 1%R]
    end.
  Ltac big_all z Hz :=
    repeat big_one 1%nat (psi1 Cops) z Hz; repeat big_one 2%nat (psi2 Cops) z Hz; repeat big_one 3%nat (psi3 Cops) z Hz.

  Lemma small_iff h (L : cvec) i :
    small_idx (A := Cops) (vscal (A := Cops) h L) (modecutoff cfg) i = true <-> Cmod (RtoC h * L i)%C < modecutoff cfg.
  Proof.
    unfold small_idx. csimp. change (tltb Rops) with Rltb. unfold Rltb.
    destruct (Rlt_dec _ _) as [H|H]; split; intros; try assumption; try reflexivity; [discriminate|contradiction].
  Qed.

  Lemma pick h (L : cvec) (s g : C) i (v X : C) :
    (Cmod (RtoC h * L i)%C < modecutoff cfg -> (s * v)%C = X) ->
    (~ Cmod (RtoC h * L i)%C < modecutoff cfg -> (g * v)%C = X) ->
    ((if small_idx (A := Cops) (vscal (A := Cops) h L) (modecutoff cfg) i then s else g) * v)%C = X.
  Proof.
    intros H1 H2. destruct (small_idx _ _ i) eqn:E.
    - apply H1. apply small_iff. exact E.
    - apply H2. intros H. apply small_iff in H. congruence.
  Qed.
  Ltac psi_atoms := repeat match goal with |- context [psi_used ?r ?q ?z] =>
    let x := fresh "p" in set (x := psi_used r q z) in *; clearbody x end.
  Lemma fact1 : INR (fact 1) = 1.  Proof. reflexivity. Qed.
  Lemma fact2 : INR (fact 2) = 2.  Proof. cbn; ring. Qed.
  Lemma fact3 : INR (fact 3) = 6.  Proof. cbn; ring. Qed.
  Ltac fin v i := csimp; psi_atoms; set (vi := v i); clearbody vi; csimp; ceq; cfield.
  Ltac mode h L v i := cbn [emul Cops]; apply pick; intros Hz;
    [ unfold vdivz, vscalz, vdivs, vscal, vadd, vsub; small_all Hz; fin v i
    | csimp; big_all (RtoC h * L i)%C Hz; fin v i ].
  Ltac expo h L i := csimp; f_equal; f_equal; set (x := (RtoC h * L i)%C); clearbody x; ceq; cfield.

  Lemma etd4d_ok (L : cvec) (h : R) c0 :
    etd4_ok _ (vmul (A := Cops)) (snd (etd4d_coeffs Rops Cops cfg L h c0)) h (dE h L (1/2)) (dE h L 1)
      (dph h L 1 (1/2)) (dph h L 2 (1/2)) (dph h L 1 1) (dph h L 2 1) (dph h L 3 1).
  Proof.
    split; intros v; apply functional_extensionality; intros i;
      unfold etd4d_coeffs; cbn [snd e4_EL e4_EL2 e4_a21 e4_a31 e4_a32 e4_a41 e4_a43 e4_b1 e4_b2 e4_b4];
      rewrite ?mask_cover; cbn [krogstad er_a er_b nth];
      unfold osub; unfold oadd, oscal, cadd, cscal, dE, dph, dfun, vmul, ph; rewrite ?fact1, ?fact2, ?fact3.
    1-2: expo h L i.
    all: mode h L v i.
  Qed.
  (** ETD34 computes the same arrays from [z]. *)
  Lemma etd34_coeffs_eq (L : cvec) (h : R) c0 :
    etd34_coeffs_of Rops Cops cfg h (vscal (A := Cops) h L) c0 = etd4d_coeffs Rops Cops cfg L h c0.
  Proof. reflexivity. Qed.

  Ltac etd5_fields := cbn [snd e5_EL14 e5_EL12 e5_EL34 e5_EL e5_a21 e5_a31 e5_a32 e5_a41 e5_a43 e5_a51 e5_a52
      e5_a54 e5_a61 e5_a62 e5_a63 e5_a65 e5_b1 e5_b3 e5_b4 e5_b5 e5_b6].
  Lemma etd5d_ok (L : cvec) (h : R) c0 :
    etd5_ok _ (vmul (A := Cops)) (snd (etd5d_coeffs Rops Cops cfg L h c0)) h
      (dE h L (1/4)) (dE h L (1/2)) (dE h L (3/4)) (dE h L 1) (dph h L 1 (1/4)) (dph h L 2 (1/4))
      (dph h L 1 (1/2)) (dph h L 2 (1/2)) (dph h L 1 (3/4)) (dph h L 2 (3/4)) (dph h L 1 1) (dph h L 2 1) (dph h L 3 1).
  Proof.
    split; intros v; apply functional_extensionality; intros i;
      unfold etd5d_coeffs; etd5_fields;
      rewrite ?mask_cover; cbn [etd5_method er_a er_b nth];
      unfold osub; unfold oadd, oscal, cadd, cscal, dE, dph, dfun, vmul, ph; rewrite ?fact1, ?fact2, ?fact3.
    1-4: expo h L i.
    all: mode h L v i.
  Qed.
  Lemma etd35_ok (L : cvec) (h : R) c0 :
    etd5_ok _ (vmul (A := Cops)) (snd (etd35_coeffs_of Rops Cops cfg h (vscal (A := Cops) h L) c0)) h
      (dE h L (1/4)) (dE h L (1/2)) (dE h L (3/4)) (dE h L 1) (dph h L 1 (1/4)) (dph h L 2 (1/4))
      (dph h L 1 (1/2)) (dph h L 2 (1/2)) (dph h L 1 (3/4)) (dph h L 2 (3/4)) (dph h L 1 1) (dph h L 2 1) (dph h L 3 1).
  Proof.
    split; intros v; apply functional_extensionality; intros i;
      unfold etd35_coeffs_of; etd5_fields;
      rewrite ?mask_cover; cbn [etd5_method er_a er_b nth];
      unfold osub; unfold oadd, oscal, cadd, cscal, dE, dph, dfun, vmul, ph; rewrite ?fact1, ?fact2, ?fact3.
    1-4: expo h L i.
    all: mode h L v i.
  Qed.
End Used.
