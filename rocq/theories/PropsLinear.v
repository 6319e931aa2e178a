(** * C40, C41, and the exponential part of C47, C48 *)

From Coq Require Import ZArith List Bool Reals Lra Lia FunctionalExtensionality QArith Qreals Setoid Morphisms.
From Coquelicot Require Import Complex.
From Verif Require Import Scalars Control ControlCS ControlCSReal ControlSim ControlSound Arrays SchemeBase
     SchemeIF SchemeETD4 SchemeETD5 Solvers SchemeFacts SchemeSound SchemeFamily SchemeForm CInst SpecRK
     SchemeIFReal PropsCache PropsIF SpecPhi ContourReal SpecERK SchemeETDReal SchemeETDCoefs PropsPsi PropsETD.
Import ListNotations.
Local Open Scope R_scope.

(** ** C40: the linear part is integrated exactly; a step of size zero changes nothing *)

(** The exact flow of [v' = L v] over a step [h], as the three kinds of operator see it: entrywise
    exponentials, the matrix returned by [expm], the exponential in the eigenbasis. *)
Definition is_linear_flow_cs {W} (p : problem Cops W) (k : cs_kind) (h : R) (u v : vec Cops) : Prop :=
  match k with
  | IF4d | ETD4d | ETD5d => forall i, v i = (Cexp (RtoC h * p_vec p i) * u i)%C
  | IF4n | ETD4n | ETD5n =>
      exists E, p_expm p (fun i j => RtoC h * p_mat p i j)%C = inr E /\
                forall i, v i = csum (p_size p) (fun j => E i j * u j)%C
  end.
Definition is_linear_flow_as {W} (p : problem Cops W) (k : as_kind) (h : R) (u v : vec Cops) : Prop :=
  match k with
  | IF34d | IF45DPd | ETD34d | ETD35d => forall i, v i = (Cexp (RtoC h * p_vec p i) * u i)%C
  | IF34n | ETD34n | ETD35n =>
      exists E, p_expm p (fun i j => RtoC h * p_mat p i j)%C = inr E /\
                forall i, v i = csum (p_size p) (fun j => E i j * u j)%C
  | IF34z | ETD34z | ETD35z =>
      forall i, v i = csum (p_size p) (fun k => p_S p i k *
                  (Cexp (RtoC h * p_eigs p k) * csum (p_size p) (fun j => p_Sinv p k j * u j)))%C
  end.

Definition zv : vec Cops := fun _ => RtoC 0.
Lemma vadd_zv (a : vec Cops) : vadd a zv = a.
Proof. apply functional_extensionality; intros i. unfold vadd, zv. csimp. ceq. ring. Qed.
Lemma vsub_zv : vsub zv zv = zv.
Proof. apply functional_extensionality; intros i. unfold vsub, zv. csimp. ceq. ring. Qed.
Lemma vneg_zv : vneg zv = zv.
Proof. apply functional_extensionality; intros i. unfold vneg, zv. csimp. ceq. ring. Qed.
Lemma vscalz_zv z : vscalz z zv = zv.
Proof. apply functional_extensionality; intros i. unfold vscalz, vscal, zv. csimp. ceq. ring. Qed.
Lemma vscal_zv (h : R) : vscal (F := Rops) (A := Cops) h zv = zv.
Proof. apply functional_extensionality; intros i. unfold vscal, zv. csimp. ceq. ring. Qed.
Lemma vdivz_zv z : vdivz zv z = zv.
Proof. apply functional_extensionality; intros i. unfold vdivz, zv. csimp. ceq. unfold Cdiv. ring. Qed.
Lemma vmul_zv c : vmul c zv = zv.
Proof. apply functional_extensionality; intros i. unfold vmul, zv. csimp. ceq. ring. Qed.
Lemma mdot_zv n c : emdot Cops n c zv = zv.
Proof. apply functional_extensionality; intros i. unfold zv. cbn [emdot Cops]. apply csum_0. intros. ring. Qed.
Lemma vscal_0 (v : vec Cops) : vscal (F := Rops) (A := Cops) (0 : R) v = zv.
Proof. apply functional_extensionality; intros i. unfold vscal, zv. csimp. ceq. ring. Qed.
Ltac zvs := repeat first [ rewrite vadd_zv | rewrite vsub_zv | rewrite vneg_zv | rewrite vscalz_zv | rewrite vscal_zv
  | rewrite vdivz_zv | rewrite vmul_zv | rewrite mdot_zv | rewrite vscal_0 ].

Section Zero.
  Variable X : Type.
  Variable act : X -> vec Cops -> vec Cops.
  Hypothesis H0 : forall c, act c zv = zv.
  Lemma etd4_zero c u : fst (@etd4_form Rops Cops X act (fun _ => zv) c u zv) = act (e4_EL c) u.
  Proof. unfold etd4_form. cbv zeta. cbn [fst]. rewrite !vadd_zv, !H0, !vadd_zv. reflexivity. Qed.
  Lemma etd5_zero c u : fst (@etd5_form Rops Cops X act (fun _ => zv) c u zv) = act (e5_EL c) u.
  Proof. unfold etd5_form. cbv zeta. cbn [fst]. rewrite !H0, !vadd_zv. reflexivity. Qed.
  (** Step size zero: the weights act as zero. *)
  Lemma etd4_still N c u n1 : (forall v, act (e4_b1 c) v = zv) -> (forall v, act (e4_b2 c) v = zv) ->
    (forall v, act (e4_b4 c) v = zv) -> fst (@etd4_form Rops Cops X act N c u n1) = act (e4_EL c) u.
  Proof. intros H1 H2 H3. unfold etd4_form. cbv zeta. cbn [fst]. rewrite H1, H2, H3, !vadd_zv. reflexivity. Qed.
  Lemma etd5_still N c u n1 : (forall v, act (e5_b1 c) v = zv) -> (forall v, act (e5_b3 c) v = zv) ->
    (forall v, act (e5_b4 c) v = zv) -> (forall v, act (e5_b5 c) v = zv) -> (forall v, act (e5_b6 c) v = zv) ->
    fst (@etd5_form Rops Cops X act N c u n1) = act (e5_EL c) u.
  Proof. intros H1 H2 H3 H4 H5. unfold etd5_form. cbv zeta. cbn [fst]. rewrite H1, H2, H3, H4, H5, !vadd_zv. reflexivity. Qed.
End Zero.

Lemma if_d_zero (h : R) c u : fst (@if_form_d Rops Cops (fun _ => zv) h c u zv) = vmul (if_EL c) u.
Proof. unfold if_form_d. cbv zeta. cbn [fst]. zvs. reflexivity. Qed.
Lemma if_n_zero (h : R) n c u : fst (@if_form_n Rops Cops (fun _ => zv) h n c u zv) = emdot Cops n (if_EL c) u.
Proof. unfold if_form_n. cbv zeta. cbn [fst]. zvs. reflexivity. Qed.
Lemma if_d_still N c u n1 : fst (@if_form_d Rops Cops N (0 : R) c u n1) = vmul (if_EL c) u.
Proof. unfold if_form_d. cbv zeta. cbn [fst]. rewrite vscal_0, vadd_zv. reflexivity. Qed.
Lemma if_n_still N n c u n1 : fst (@if_form_n Rops Cops N (0 : R) n c u n1) = emdot Cops n (if_EL c) u.
Proof. unfold if_form_n. cbv zeta. cbn [fst]. rewrite vscal_0, vadd_zv. reflexivity. Qed.
Lemma dp_zero c u : fst (@dp_form Rops Cops (fun _ => zv) c u zv) = vmul (dp_EL c) u.
Proof. unfold dp_form. cbv zeta. cbn [fst]. zvs. reflexivity. Qed.

Lemma scaled_id (h : R) (L : mat Cops) : mscal (A := Cops) h L = (fun i j => RtoC h * L i j)%C.
Proof. reflexivity. Qed.

(** What the coefficient update of a matrix strategy stores. *)
Lemma if4n_stores e (L : mat Cops) (h : R) c0 c : if4n_coeffs Rops Cops e L h c0 = (inr tt, c) ->
  e (mscal (A := Cops) h L) = inr (if_EL c).
Proof.
  unfold if4n_coeffs. cbv zeta. intros H. destruct (e (mscal (A := Cops) h L)) as [x|EL] eqn:E1; [discriminate|].
  destruct (e (mdivz _ 2)) as [x|EL2]; [discriminate|]. injection H as <-. reflexivity.
Qed.
Lemma if34n_stores e (L : mat Cops) (h : R) c0 c : if34n_coeffs Rops Cops e L h c0 = (inr tt, c) ->
  e (mscal (A := Cops) h L) = inr (if_EL c).
Proof.
  unfold if34n_coeffs. cbv zeta. intros H. destruct (e (mscal (A := Cops) h L)) as [x|EL] eqn:E1; [discriminate|].
  destruct (e (mdivz _ 2)) as [x|EL2]; [discriminate|]. injection H as <-. reflexivity.
Qed.
Definition acts_zero n (m : mat Cops) : Prop := forall v, emdot Cops n m v = zv.
Lemma acts_zero_0 n (m : mat Cops) : (forall i j, m i j = RtoC 0) -> acts_zero n m.
Proof.
  intros H v. apply functional_extensionality; intros i. unfold zv. cbn [emdot Cops]. apply csum_0. intros j _.
  rewrite H. ring.
Qed.
Ltac az := apply acts_zero_0; intros i j; unfold mscal, mdivz, mdivs, madd, msub, mscalz; csimp; ceq; unfold Cdiv;
  rewrite ?Rmult_0_r, ?Rmult_0_l; ring.
Lemma etd4n_stores cfg e iv (L : mat Cops) (h : R) c0 c : etd4n_coeffs Rops Cops cfg e iv L h c0 = (inr tt, c) ->
  e (mscal (A := Cops) h L) = inr (e4_EL c) /\
  (h = 0 -> forall n, acts_zero n (e4_b1 c) /\ acts_zero n (e4_b2 c) /\ acts_zero n (e4_b4 c)).
Proof.
  unfold etd4n_coeffs. cbv zeta. intros H. destruct (e (mscal (A := Cops) h L)) as [x|EL] eqn:E1; [discriminate|].
  destruct (e (mdivz _ 2)) as [x|EL2]; [discriminate|].
  destruct (etd4_contour _ _ _ _ _ _ _) as [x|[p1 p2 p3 p4 p5]]; [discriminate|].
  injection H as <-. split; [reflexivity|]. intros -> n. cbn [e4_b1 e4_b2 e4_b4]. split; [|split]; az.
Qed.
Lemma etd5n_stores cfg e iv (L : mat Cops) (h : R) c0 c : etd5n_coeffs Rops Cops cfg e iv L h c0 = (inr tt, c) ->
  e (mscal (A := Cops) h L) = inr (e5_EL c) /\
  (h = 0 -> forall n, acts_zero n (e5_b1 c) /\ acts_zero n (e5_b3 c) /\ acts_zero n (e5_b4 c) /\
                      acts_zero n (e5_b5 c) /\ acts_zero n (e5_b6 c)).
Proof.
  unfold etd5n_coeffs. cbv zeta. intros H.
  destruct (e (mdivz (mscal (A := Cops) h L) 4)) as [x|EL14]; [discriminate|].
  destruct (e (mdivz (mscal (A := Cops) h L) 2)) as [x|EL12]; [discriminate|].
  destruct (e (mdivz (mscalz 3 _) 4)) as [x|EL34]; [discriminate|].
  destruct (e (mscal (A := Cops) h L)) as [x|EL] eqn:E1; [discriminate|].
  destruct (etd5_contour _ _ _ _ _ _ _) as [x|[p1 p2 p3 p4 p5 p6 p7 p8 p9]]; [discriminate|].
  injection H as <-. split; [reflexivity|]. intros -> n. cbn [e5_b1 e5_b3 e5_b4 e5_b5 e5_b6].
  repeat split; az.
Qed.

Lemma inr_of {E B} (x : (E + unit) * B) : fst x = inr tt -> exists b, x = (inr tt, b).
Proof. destruct x as [a b]. cbn. intros ->. exists b. reflexivity. Qed.

Lemma dexp_mul (h : R) (L u : vec Cops) i : vmul (vexp (vscal (A := Cops) h L)) u i = (Cexp (RtoC h * L i) * u i)%C.
Proof. reflexivity. Qed.

Ltac matrix_kind p k h u Ht :=
  let c := fresh "c" in let Hc := fresh "Hc" in
  destruct (inr_of _ (cs_uc_total k Ht h (cs_k0 Cops k))) as [c Hc];
  rewrite (@cs_Phi_form _ _ _ p _ k h c u Hc); cbn [cs_form cs_uc] in *.
Theorem C40_linear_exact_constant_step :
  forall (W : Type) (p : problem Cops W) (k : cs_kind) (h : R) (u : vec Cops),
    linalg_total p -> is_linear_flow_cs p k h u (cs_Phi p (fun _ _ => RtoC 0) k h u).
Proof.
  intros W p k h u Ht.
  change (fun (_ : vec Cops) (_ : nat) => RtoC 0) with (fun _ : vec Cops => zv).
  destruct k; cbn [is_linear_flow_cs].
  - erewrite cs_Phi_form by reflexivity; cbn [cs_form]; intros i. rewrite if_d_zero. reflexivity.
  - matrix_kind p IF4n h u Ht. exists (if_EL c). split; [exact (if4n_stores _ _ _ _ _ Hc)|]. rewrite if_n_zero. reflexivity.
  - erewrite cs_Phi_form by reflexivity; cbn [cs_form]; intros i. rewrite (etd4_zero _ _ vmul_zv). reflexivity.
  - matrix_kind p ETD4n h u Ht. exists (e4_EL c). split; [exact (proj1 (etd4n_stores _ _ _ _ _ _ _ Hc))|].
    rewrite (etd4_zero _ _ (mdot_zv _)). reflexivity.
  - erewrite cs_Phi_form by reflexivity; cbn [cs_form]; intros i. rewrite (etd5_zero _ _ vmul_zv). reflexivity.
  - matrix_kind p ETD5n h u Ht. exists (e5_EL c). split; [exact (proj1 (etd5n_stores _ _ _ _ _ _ _ Hc))|].
    rewrite (etd5_zero _ _ (mdot_zv _)). reflexivity.
Qed.

Ltac matrix_kind_as p k h u Ht :=
  let c := fresh "c" in let Hc := fresh "Hc" in
  destruct (inr_of _ (as_uc_total k Ht h (as_k0 Cops k))) as [c Hc];
  rewrite (@as_Phi_form _ _ _ p _ k h c u Hc); cbn [as_form as_uc] in *.
Lemma eig_zero {W} (p : problem Cops W) : eig_N p (fun _ => zv) = (fun _ => zv).
Proof. apply functional_extensionality; intros v. unfold eig_N. apply mdot_zv. Qed.
Theorem C40_linear_exact_adaptive :
  forall (W : Type) (p : problem Cops W) (k : as_kind) (h : R) (u : vec Cops),
    linalg_total p -> is_linear_flow_as p k h u (fst (as_Phi p (fun _ _ => RtoC 0) k h u)).
Proof.
  intros W p k h u Ht.
  change (fun (_ : vec Cops) (_ : nat) => RtoC 0) with (fun _ : vec Cops => zv).
  destruct k; cbn [is_linear_flow_as].
  - erewrite as_Phi_form by reflexivity; cbn [as_form]; intros i. rewrite if_d_zero. reflexivity.
  - matrix_kind_as p IF34n h u Ht. exists (if_EL c). split; [exact (if34n_stores _ _ _ _ _ Hc)|].
    rewrite if_n_zero. reflexivity.
  - erewrite as_Phi_form by reflexivity; cbn [as_form]; intros i. rewrite eig_zero. cbn [eig_back fst].
    rewrite mdot_zv, if_d_zero. reflexivity.
  - erewrite as_Phi_form by reflexivity; cbn [as_form]; intros i. rewrite dp_zero. reflexivity.
  - erewrite as_Phi_form by reflexivity; cbn [as_form]; intros i. rewrite (etd4_zero _ _ vmul_zv). reflexivity.
  - matrix_kind_as p ETD34n h u Ht. exists (e4_EL c). split; [exact (proj1 (etd4n_stores _ _ _ _ _ _ _ Hc))|].
    rewrite (etd4_zero _ _ (mdot_zv _)). reflexivity.
  - erewrite as_Phi_form by reflexivity; cbn [as_form]; intros i. rewrite eig_zero. cbn [eig_back fst].
    rewrite mdot_zv, (etd4_zero _ _ vmul_zv). reflexivity.
  - erewrite as_Phi_form by reflexivity; cbn [as_form]; intros i. rewrite (etd5_zero _ _ vmul_zv). reflexivity.
  - matrix_kind_as p ETD35n h u Ht. exists (e5_EL c). split; [exact (proj1 (etd5n_stores _ _ _ _ _ _ _ Hc))|].
    rewrite (etd5_zero _ _ (mdot_zv _)). reflexivity.
  - erewrite as_Phi_form by reflexivity; cbn [as_form]; intros i. rewrite eig_zero. cbn [eig_back fst].
    rewrite mdot_zv, (etd5_zero _ _ vmul_zv). reflexivity.
Qed.

(** Step size zero. *)
Lemma erk_still (m : erk) N u : erk_step m N 0 u = er_E1 m u.
Proof.
  unfold erk_step, erk_value. apply functional_extensionality; intros i. unfold cadd, cscal. ring.
Qed.
Lemma dE_still (L : cvec) q (u : cvec) : dE 0 L q u = u.
Proof. apply functional_extensionality; intros i. unfold dE, dfun. rewrite Cmult_0_l, Cmult_0_r, Cexp_0. ring. Qed.
Lemma dflow_still (L u : cvec) i : (Cexp (RtoC 0 * L i) * u i)%C = u i.
Proof. rewrite Cmult_0_l, Cexp_0. ring. Qed.
Lemma vk_still (Phi : R -> cvec -> cvec) (N : cvec -> cvec) (u : cvec) i : vk Phi N 0 u i = Phi 0 u i.
Proof. unfold vk. ring. Qed.

(** The form of the exponential step in the eigenbasis. *)
Lemma etd34z_fst {W} (p : problem Cops W) N (h : R) u :
  fst (as_Phi p N ETD34z h u)
  = emdot Cops (p_size p) (p_S p) (fst (@etd4_form Rops Cops _ (vmul (A := Cops)) (eig_N p N)
      (snd (etd4d_coeffs Rops Cops (p_cfg p) (p_eigs p) h (z_etd4 (vzero Cops))))
      (emdot Cops (p_size p) (p_Sinv p) u) (emdot Cops (p_size p) (p_Sinv p) (N u)))).
Proof. erewrite as_Phi_form by reflexivity. reflexivity. Qed.
Lemma etd35z_fst {W} (p : problem Cops W) N (h : R) u :
  fst (as_Phi p N ETD35z h u)
  = emdot Cops (p_size p) (p_S p) (fst (@etd5_form Rops Cops _ (vmul (A := Cops)) (eig_N p N)
      (snd (etd35_coeffs_of Rops Cops (p_cfg p) h (vscal (A := Cops) h (p_eigs p)) (z_etd5 (vzero Cops))))
      (emdot Cops (p_size p) (p_Sinv p) u) (emdot Cops (p_size p) (p_Sinv p) (N u)))).
Proof. erewrite as_Phi_form by reflexivity. reflexivity. Qed.

Lemma czero (v : cvec) : cscal (RtoC 0) v = zv.
Proof. apply functional_extensionality; intros i. unfold cscal, zv. ring. Qed.
Lemma etd4d_still cfg (L : cvec) c0 N u n1 :
  fst (@etd4_form Rops Cops _ (vmul (A := Cops)) N (snd (etd4d_coeffs Rops Cops cfg L (0 : R) c0)) u n1) = u.
Proof.
  assert (K := etd4d_ok cfg L 0 c0). rewrite etd4_still.
  - rewrite (o4_EL _ _ _ _ _ _ _ _ _ _ _ K). apply dE_still.
  - intros v. rewrite (o4_b1 _ _ _ _ _ _ _ _ _ _ _ K). apply czero.
  - intros v. rewrite (o4_b2 _ _ _ _ _ _ _ _ _ _ _ K). apply czero.
  - intros v. rewrite (o4_b4 _ _ _ _ _ _ _ _ _ _ _ K). apply czero.
Qed.
Lemma etd5_still_ok (c : etd5_coefs (vec Cops)) E14 E12 E34 E1 f1q f2q f1h f2h f1t f2t f1 f2 f3 N u n1 :
  etd5_ok _ (vmul (A := Cops)) c 0 E14 E12 E34 E1 f1q f2q f1h f2h f1t f2t f1 f2 f3 -> (forall v, E1 v = v) ->
  fst (@etd5_form Rops Cops _ (vmul (A := Cops)) N c u n1) = u.
Proof.
  intros K HE. destruct K as [_ _ _ KE _ _ _ _ _ _ _ _ _ _ _ _ K1 K3 K4 K5 K6]. rewrite etd5_still.
  - rewrite KE. apply HE.
  - intros v. rewrite K1. apply czero.
  - intros v. rewrite K3. apply czero.
  - intros v. rewrite K4. apply czero.
  - intros v. rewrite K5. apply czero.
  - intros v. rewrite K6. apply czero.
Qed.

(** [expm] of the zero matrix is the identity. *)
Definition expm_zero {W} (p : problem Cops W) : Prop :=
  exists E, p_expm p (fun i j => RtoC 0 * p_mat p i j)%C = inr E /\ meq (p_size p) E mident.
Definition same_entries (n : option nat) (u v : cvec) : Prop :=
  match n with None => forall i, u i = v i | Some n => forall i, (i < n)%nat -> u i = v i end.
(** Matrix strategies see the first [p_size] entries only. *)
Definition cs_entries {W} (p : problem Cops W) (k : cs_kind) : option nat :=
  match k with IF4d | ETD4d | ETD5d => None | _ => Some (p_size p) end.
Definition as_entries {W} (p : problem Cops W) (k : as_kind) : option nat :=
  match k with IF34d | IF45DPd | ETD34d | ETD35d => None | _ => Some (p_size p) end.

Lemma zero_dot {W} (p : problem Cops W) E E' (u : cvec) i : expm_zero p ->
  E = mscal (A := Cops) (0 : R) (p_mat p) -> p_expm p E = inr E' -> (i < p_size p)%nat -> emdot Cops (p_size p) E' u i = u i.
Proof.
  intros (E0 & H1 & H2) -> H Hi. rewrite scaled_id, H1 in H. injection H as <-.
  change (emdot Cops (p_size p) E0 u i) with (mdot (p_size p) E0 u i).
  rewrite (mdot_meq _ _ _ u H2 i Hi). apply mdot_ident. exact Hi.
Qed.

Theorem C40_zero_step_constant_step :
  forall (W : Type) (p : problem Cops W) (N : vec Cops -> vec Cops) (k : cs_kind) (u : vec Cops),
    linalg_total p -> expm_zero p -> same_entries (cs_entries p k) (cs_Phi p N k (0 : R) u) u.
Proof.
  intros W p N k u Ht Hz.
  destruct k; cbn [same_entries cs_entries]; intros i; try intros Hi.
  - erewrite cs_Phi_form by reflexivity; cbn [cs_form]. rewrite if_d_still. apply dflow_still.
  - matrix_kind p IF4n (0 : R) u Ht. rewrite if_n_still.
    apply (zero_dot p _ _ u i Hz eq_refl (if4n_stores _ _ _ _ _ Hc) Hi).
  - rewrite etd4d_erk, erk_still. cbn [d_krogstad krogstad er_E1]. rewrite dE_still. reflexivity.
  - matrix_kind p ETD4n (0 : R) u Ht. destruct (etd4n_stores _ _ _ _ _ _ _ Hc) as [HE HB].
    destruct (HB eq_refl (p_size p)) as (B1 & B2 & B4). rewrite etd4_still by assumption.
    apply (zero_dot p _ _ u i Hz eq_refl HE Hi).
  - rewrite etd5d_erk, erk_still. cbn [d_etd5 etd5_method er_E1]. rewrite dE_still. reflexivity.
  - matrix_kind p ETD5n (0 : R) u Ht. destruct (etd5n_stores _ _ _ _ _ _ _ Hc) as [HE HB].
    destruct (HB eq_refl (p_size p)) as (B1 & B3 & B4 & B5 & B6). rewrite etd5_still by assumption.
    apply (zero_dot p _ _ u i Hz eq_refl HE Hi).
Qed.

Theorem C40_zero_step_adaptive :
  forall (W : Type) (p : problem Cops W) (N : vec Cops -> vec Cops) (k : as_kind) (u : vec Cops),
    linalg_total p -> expm_zero p -> eig_ok p -> same_entries (as_entries p k) (fst (as_Phi p N k (0 : R) u)) u.
Proof.
  intros W p N k u Ht Hz [HS HI].
  assert (HD : forall v i, (i < p_size p)%nat -> emdot Cops (p_size p) (p_S p) (emdot Cops (p_size p) (p_Sinv p) v) i = v i).
  { intros v i Hi. exact (mdot_inv (p_size p) (p_S p) (p_Sinv p) v HS i Hi). }
  destruct k; cbn [same_entries as_entries]; intros i; try intros Hi.
  - erewrite as_Phi_form by reflexivity; cbn [as_form]. rewrite if_d_still. apply dflow_still.
  - matrix_kind_as p IF34n (0 : R) u Ht. rewrite if_n_still.
    apply (zero_dot p _ _ u i Hz eq_refl (if34n_stores _ _ _ _ _ Hc) Hi).
  - erewrite as_Phi_form by reflexivity; cbn [as_form eig_back fst]. rewrite if_d_still.
    etransitivity; [|apply (HD u i Hi)]. f_equal. apply functional_extensionality; intros j. apply dflow_still.
  - rewrite C34_if45dp_candidate. rewrite (lawson_if_step all _ N (dflow_flow _) (respects_all N) DP5 0 u i I).
    unfold if_step, if_value, cadd, cscal, dflow. rewrite Rmult_0_r, !Cmult_0_l, Cexp_0. ring.
  - rewrite etd34d_erk. cbn [fst pair_of]. rewrite erk_still. cbn [d_krogstad krogstad er_E1]. rewrite dE_still. reflexivity.
  - matrix_kind_as p ETD34n (0 : R) u Ht. destruct (etd4n_stores _ _ _ _ _ _ _ Hc) as [HE HB].
    destruct (HB eq_refl (p_size p)) as (B1 & B2 & B4). rewrite etd4_still by assumption.
    apply (zero_dot p _ _ u i Hz eq_refl HE Hi).
  - rewrite etd34z_fst, etd4d_still. apply HD. exact Hi.
  - rewrite etd35d_erk. cbn [fst pair_of]. rewrite erk_still. cbn [d_etd5 etd5_method er_E1]. rewrite dE_still. reflexivity.
  - matrix_kind_as p ETD35n (0 : R) u Ht. destruct (etd5n_stores _ _ _ _ _ _ _ Hc) as [HE HB].
    destruct (HB eq_refl (p_size p)) as (B1 & B3 & B4 & B5 & B6). rewrite etd5_still by assumption.
    apply (zero_dot p _ _ u i Hz eq_refl HE Hi).
  - rewrite etd35z_fst. erewrite etd5_still_ok; [|apply etd35_ok|intros; apply dE_still]. apply HD. exact Hi.
Qed.
(** A problem meeting every hypothesis, whose flow is not the identity. *)
Example C40_not_vacuous : linalg_total nil_problem /\ expm_zero nil_problem /\ eig_ok nil_problem /\
  is_linear_flow_cs nil_problem IF4n 1 (fun _ => RtoC 1) (fun i => if Nat.eqb i 0 then RtoC 2 else if Nat.eqb i 1 then RtoC 1 else RtoC 0).
Proof.
  split; [|split; [|split]].
  - split; intros m e; discriminate.
  - eexists. split; [reflexivity|]. intros i j _ _. cbn. ring.
  - apply C32_not_vacuous.
  - cbn [is_linear_flow_cs nil_problem p_expm p_mat p_size]. eexists. split; [reflexivity|]. intros i.
    cbn [csum]. unfold mident, nil_L. destruct i as [|[|i]]; cbn [Nat.eqb andb]; apply C_eq; cbn; ring.
Qed.

(** ** C41: where the error vectors vanish *)

(** Stages in the integrating-factor variable. *)
Theorem C41_if34_equal_stages :
  forall (W : Type) (p : problem Cops W) (N : vec Cops -> vec Cops) (h : R) (u g : vec Cops),
    Forall (fun cn => snd cn = g) (if_stages (dflow (p_vec p)) N h u (tb_a RK4_fsal) (tb_c RK4_fsal) []) ->
    forall i, snd (as_Phi p N IF34d h u) i = RtoC 0.
Proof.
  intros W p N h u g H i. rewrite (proj2 (proj2 (C33_if34_diagonal W p N h u i))).
  assert (HF := dflow_flow (p_vec p)). assert (HN := respects_all N). assert (Hi : all i) by exact I.
  rewrite !(lawson_if_step _ _ N HF HN _ h u i Hi).
  unfold if_step, without_weights. cbn [tb_a tb_b tb_c].
  revert H. set (ns := if_stages _ _ _ _ _ _ _). intros H.
  assert (HC : map fst ns = [0; 1#2; 1#2; 1; 1]%Q) by reflexivity. clearbody ns.
  destruct ns as [|[c1 n1] [|[c2 n2] [|[c3 n3] [|[c4 n4] [|[c5 n5] [|? ?]]]]]]; try discriminate HC.
  injection HC as -> -> -> -> ->. 
  repeat match goal with H : Forall _ (_ :: _) |- _ => inversion H; clear H; subst end. cbn [snd] in *. subst.
  unfold if_value. cbn [if_comb]. unfold cadd, cscal. cbn [RK4_fsal tb_b RK4_fsal_hat].
  repeat match goal with |- context [dflow ?a ?b ?c ?d] => let x := fresh "x" in set (x := dflow a b c d); clearbody x end.
  unfold Q2R; cbn [Qnum Qden]. repeat match goal with x : C |- _ => destruct x end. apply C_eq; cbn; field.
Qed.

(** ETD34: the stages of Krogstad's method and the new value, for any configuration. *)
Lemma d_add cfg h L r q a b : dph cfg h L r q (cadd a b) = cadd (dph cfg h L r q a) (dph cfg h L r q b).
Proof. apply functional_extensionality; intros i. unfold dph, dfun, cadd. ring. Qed.
Lemma d_scal cfg h L r q c a : dph cfg h L r q (cscal c a) = cscal c (dph cfg h L r q a).
Proof. apply functional_extensionality; intros i. unfold dph, dfun, cscal. ring. Qed.
Ltac dph_atoms :=
  repeat match goal with |- context [dph ?c ?h ?L ?r ?q ?g ?i] =>
    let x := fresh "x" in set (x := dph c h L r q g i); clearbody x end.
Ltac dph_close := dph_atoms;
  match goal with |- context [dE ?h ?L 1 ?u ?i] => set (e := dE h L 1 u i); clearbody e end;
  repeat match goal with x : C |- _ => destruct x end; apply C_eq; cbn; field.

Theorem C41_etd34_equal_stages :
  forall (W : Type) (p : problem Cops W) (N : vec Cops -> vec Cops) (h : R) (u g : vec Cops),
    let m := d_krogstad_embedded (p_cfg p) h (p_vec p) in
    Forall (fun n => n = g) (erk_stages N h u (er_E m) (er_a m) []) ->
    forall i, snd (as_Phi p N ETD34d h u) i = RtoC 0.
Proof.
  intros W p N h u g m H i. rewrite etd34d_erk. cbn [pair_of snd].
  assert (S : exists k, erk_stages N h u (er_E m) (er_a m) []
     = erk_stages N h u (er_E (d_krogstad (p_cfg p) h (p_vec p))) (er_a (d_krogstad (p_cfg p) h (p_vec p))) [] ++ [N k])
    by (eexists; reflexivity).
  unfold erk_step. fold m. destruct S as [k S]. rewrite S in H |- *. revert H.
  set (ns := erk_stages N h u _ _ []). intros H.
  assert (HL : length ns = 4%nat) by reflexivity. clearbody ns.
  destruct ns as [|n1 [|n2 [|n3 [|n4 [|? ?]]]]]; try discriminate HL. cbn [app] in *.
  repeat match goal with H : Forall _ (_ :: _) |- _ => inversion H; clear H end.
  unfold m, d_krogstad_embedded, d_krogstad, krogstad_embedded, erk_value. cbn [krogstad er_b er_E1 er_a er_E ocomb firstn app].
  flat. subst. dph_close.
Qed.

Theorem C41_etd35_equal_stages :
  forall (W : Type) (p : problem Cops W) (N : vec Cops -> vec Cops) (h : R) (u : vec Cops) (a0 a1 a2 a3 : vec Cops),
    let m := d_etd5 (p_cfg p) h (p_vec p) in
    erk_stages N h u (er_E m) (er_a m) [] =
      map (fun c j => a0 j + RtoC c * a1 j + RtoC (c ^ 2) * a2 j + RtoC (c ^ 3) * a3 j)%C etd5_c ->
    forall i, snd (as_Phi p N ETD35d h u) i = RtoC 0.
Proof.
  intros W p N h u a0 a1 a2 a3 m H i. rewrite etd35d_erk. cbn [pair_of snd].
  unfold erk_step. fold m.
  change (er_E (d_etd5_embedded (p_cfg p) h (p_vec p))) with (er_E m).
  change (er_a (d_etd5_embedded (p_cfg p) h (p_vec p))) with (er_a m).
  rewrite H. cbn [map etd5_c].
  assert (Q : forall c, (fun j => a0 j + RtoC c * a1 j + RtoC (c ^ 2) * a2 j + RtoC (c ^ 3) * a3 j)%C
            = cadd a0 (cadd (cscal (RtoC c) a1) (cadd (cscal (RtoC (c ^ 2)) a2) (cscal (RtoC (c ^ 3)) a3)))).
  { intros c. apply functional_extensionality; intros j. unfold cadd, cscal. ring. }
  rewrite !Q. unfold m, d_etd5_embedded, d_etd5, etd5_embedded, erk_value. cbn [etd5_method er_b er_E1 ocomb nth].
  unfold osub; unfold oadd, oscal, ozero. rewrite !d_add, !d_scal. unfold cadd, cscal. cbn [pow]. dph_close.
Qed.

(** A constant nonlinear function, for every kind of operator. *)
Theorem C41_constant_forcing :
  forall (W : Type) (p : problem Cops W) (g : vec Cops) (k : as_kind) (h : R) (u : vec Cops),
    linalg_total p -> k <> IF45DPd -> forall i, snd (as_Phi p (fun _ => g) k h u) i = RtoC 0.
Proof.
  intros W p g k h u Ht Hk i.
  assert (S : forall a : vec Cops, vsub a a = zv).
  { intros a. apply functional_extensionality; intros j. unfold vsub, zv. csimp. ceq. ring. }
  assert (D : forall a : vec Cops, vsub (vadd (vsub (vadd (vneg a) (vscalz 4 a)) (vscalz 6 a)) (vscalz 4 a)) a = zv).
  { intros a. apply functional_extensionality; intros j. unfold zv. csimp. set (x := a j). clearbody x. ceq. cfield. }
  assert (E : eig_N p (fun _ => g) = (fun _ => emdot Cops (p_size p) (p_Sinv p) g)) by reflexivity.
  destruct (inr_of _ (as_uc_total k Ht h (as_k0 Cops k))) as [c Hc].
  rewrite (@as_Phi_form _ _ _ p _ k h c u Hc). clear Hc.
  destruct k; try (elim Hk; reflexivity); cbn [as_form as_K] in *; rewrite ?E;
    unfold eig_back, if_form_d, if_form_n, etd4_form, etd5_form; cbv zeta; cbn [snd]; rewrite ?S, ?D; zvs; reflexivity.
Qed.

(** A case of [C41_etd35_equal_stages] with a cubic that is not constant: entry 0 is
    [1 - exp(-t)], so that the other entries see [t^3]. *)
Definition clock_problem : problem Cops unit :=
  mk_problem (A := Cops) (fun v w => (inr v, w)) 2 (const_vec (-1)) (fun _ _ => RtoC 0)
    (mk_etdcfg (F := Rops) (1/100) 32 1) (fun m => inr m) (fun m => inr m) mident mident (const_vec 0).
Definition clock_N : vec Cops -> vec Cops :=
  fun v i => match i with O => RtoC 1 | _ => RtoC ((- ln (1 - fst (v 0%nat))) ^ 3) end.
Definition clock_stage (c : R) : cvec := fun i => match i with O => RtoC 1 | _ => RtoC (c ^ 3) end.
Lemma ocomb_entry h L (os : list op) ns ms i :
  Forall (fun o => exists f, o = dfun h L f) os -> Forall2 (fun n m : cvec => n i = m i) ns ms ->
  ocomb os ns i = ocomb os ms i.
Proof.
  intros Ho. revert ns ms. induction Ho as [|o os [f ->] Ho IH]; intros ns ms H; [reflexivity|].
  destruct H as [|n m ns ms Hn H]; [reflexivity|]. cbn [ocomb]. unfold cadd, dfun. rewrite Hn, (IH _ _ H). reflexivity.
Qed.
Lemma dfun_scal h L c f : oscal c (dfun h L f) = dfun h L (fun z => RtoC c * f z)%C.
Proof. apply functional_extensionality; intros v. apply functional_extensionality; intros i. unfold oscal, cscal, dfun. ring. Qed.
Lemma dfun_add h L f g : oadd (dfun h L f) (dfun h L g) = dfun h L (fun z => f z + g z)%C.
Proof. apply functional_extensionality; intros v. apply functional_extensionality; intros i. unfold oadd, cadd, dfun. ring. Qed.
Lemma dfun_zero h L : ozero = dfun h L (fun _ => RtoC 0).
Proof. apply functional_extensionality; intros v. apply functional_extensionality; intros i. unfold ozero, dfun. ring. Qed.
Ltac is_dfun h L := unfold osub, dphi; repeat first [rewrite dfun_scal | rewrite dfun_add | rewrite (dfun_zero h L)]; eexists; reflexivity.
Lemma etd5_rows_dfun h L i : (i < 6)%nat -> Forall (fun o => exists f, o = dfun h L f) (nth i (er_a (etd5 h L)) []).
Proof.
  intros Hi. do 6 (destruct i as [|i]; [cbn [nth etd5 etd5_method er_a]; repeat (apply Forall_cons || apply Forall_nil); is_dfun h L|]). lia.
Qed.
Lemma clock_value i : (i < 6)%nat ->
  clock_N (erk_value 1 zv (nth i (er_E (etd5 1 (const_vec (-1)))) ozero) (nth i (er_a (etd5 1 (const_vec (-1)))) [])
             (map clock_stage (firstn i etd5_c))) = clock_stage (nth i etd5_c 0).
Proof.
  intros Hi. set (L := const_vec (-1)). set (c := nth i etd5_c 0).
  destruct (C37_rows 1 L (fun _ => RtoC 1) i Hi) as (R0 & _ & _ & RE). fold c in R0, RE.
  assert (V : erk_value 1 zv (nth i (er_E (etd5 1 L)) ozero) (nth i (er_a (etd5 1 L)) []) (map clock_stage (firstn i etd5_c)) 0%nat
              = RtoC (1 - exp (- c))).
  { unfold erk_value, cadd, cscal. rewrite RE.
    rewrite (ocomb_entry 1 L _ _ (at_nodes 0 (firstn i etd5_c) (fun _ => RtoC 1)) 0%nat (etd5_rows_dfun 1 L i Hi)).
    2: { unfold at_nodes. clear. induction (firstn i etd5_c) as [|a l IH]; cbn [map]; constructor; [|exact IH].
         unfold clock_stage, cscal. cbn [pow]. ring. }
    rewrite R0. unfold cscal, dphi, dE, dfun, zv, L, const_vec.
    assert (P := phi1_id (RtoC c * (RtoC 1 * RtoC (-1)))%C).
    replace (RtoC c * (RtoC 1 * RtoC (-1)))%C with (RtoC (- c)) in * by (rewrite <- !RtoC_mult; f_equal; ring).
    rewrite Cexp_R in P. rewrite Cmult_0_r, Cplus_0_l, Cmult_1_l, Cmult_1_r.
    replace (RtoC c * phi 1 (RtoC (- c)))%C with (- (RtoC (- c) * phi 1 (RtoC (- c))))%C by (rewrite RtoC_opp; ring).
    rewrite P, RtoC_minus. ring. }
  apply functional_extensionality; intros j. unfold clock_N, clock_stage. destruct j as [|j]; [reflexivity|].
  match goal with |- context [fst ?x] => replace x with (RtoC (1 - exp (- c))) by (symmetry; exact V) end.
  cbn [fst RtoC]. replace (1 - (1 - exp (- c))) with (exp (- c)) by ring. rewrite ln_exp.
  f_equal. f_equal. ring.
Qed.
Example C41_not_vacuous :
  let m := d_etd5 (p_cfg clock_problem) 1 (p_vec clock_problem) in
  erk_stages clock_N 1 zv (er_E m) (er_a m) [] =
    map (fun c j => (if Nat.eqb j 0 then RtoC 1 else RtoC 0) + RtoC c * RtoC 0 + RtoC (c ^ 2) * RtoC 0
                    + RtoC (c ^ 3) * (if Nat.eqb j 0 then RtoC 0 else RtoC 1))%C etd5_c.
Proof.
  intros m. unfold m. cbn [clock_problem p_cfg p_vec].
  destruct (d_etd5_big (mk_etdcfg (F := Rops) (1/100) 32 1) 1 (const_vec (-1))) as [-> _].
  - cbn. lra.
  - intros i. unfold const_vec. rewrite <- RtoC_mult, Cmod_R. cbn [modecutoff].
    replace (1 * -1) with (Ropp 1) by ring. rewrite Rabs_Ropp, Rabs_R1. cbn. lra.
  - transitivity (map clock_stage etd5_c).
    + assert (K : forall i, (i < 6)%nat -> _) by exact clock_value.
      assert (K0 := K 0%nat ltac:(lia)). assert (K1 := K 1%nat ltac:(lia)). assert (K2 := K 2%nat ltac:(lia)).
      assert (K3 := K 3%nat ltac:(lia)). assert (K4 := K 4%nat ltac:(lia)). assert (K5 := K 5%nat ltac:(lia)). clear K.
      cbn [etd5 etd5_method er_E er_a erk_stages app map etd5_c nth firstn] in *.
      rewrite K0, K1, K2, K3, K4, K5. reflexivity.
    + apply map_ext. intros c. apply functional_extensionality; intros [|j]; unfold clock_stage; cbn [Nat.eqb]; ring.
Qed.

(** ** C47, C48 for ETD34 and ETD35 *)

Section Eig.
  Variable W : Type.
  Variable p : problem Cops W.
  Variable N : vec Cops -> vec Cops.
  Notation n := (p_size p).
  Notation cfg := (p_cfg p).
  Notation lam := (p_eigs p).
  Notation S := (mdot n (p_S p)).
  Notation Sinv := (mdot n (p_Sinv p)).
  Hypothesis HE : eig_ok p.
  Hypothesis HN : respects (below n) N.

  Lemma first_stage u : emdot Cops n (p_Sinv p) (N u) = eig_N p N (emdot Cops n (p_Sinv p) u).
  Proof.
    unfold eig_N. symmetry. apply (mdot_ext_eq n (p_Sinv p)). apply HN. apply (mdot_inv n (p_S p) (p_Sinv p) u (proj1 HE)).
  Qed.
  Notation N' := (fun v => Sinv (N (S v))).
  Lemma etd34z_eig (h : R) u :
    fst (as_Phi p N ETD34z h u) = S (erk_step (d_krogstad cfg h lam) N' h (Sinv u)) /\
    forall i, snd (as_Phi p N ETD34z h u) i =
      (erk_step (d_krogstad cfg h lam) N' h (Sinv u) i - erk_step (d_krogstad_embedded cfg h lam) N' h (Sinv u) i)%C.
  Proof.
    erewrite as_Phi_form by reflexivity. cbn [as_form eig_back fst snd]. rewrite first_stage.
    change (as_uc p ETD34z h (as_k0 Cops ETD34z)) with (etd4d_coeffs Rops Cops cfg lam h (as_k0 Cops ETD34z)).
    match goal with |- context [@etd4_form Rops Cops ?X ?act ?NN ?c ?v ?n1] =>
      change (@etd4_form Rops Cops X act NN c v n1)
        with (@etd4_form Rops Cops _ (vmul (A := Cops)) NN (snd (etd4d_coeffs Rops Cops cfg lam h (as_k0 Cops ETD34z))) v (NN v)) end.
    erewrite (etd4_form_erk _ _ vmul_act (eig_N p N)) by apply etd4d_ok. rewrite cadd_minus. split; reflexivity.
  Qed.
  Lemma etd35z_eig (h : R) u :
    fst (as_Phi p N ETD35z h u) = S (erk_step (d_etd5 cfg h lam) N' h (Sinv u)) /\
    forall i, snd (as_Phi p N ETD35z h u) i =
      (erk_step (d_etd5 cfg h lam) N' h (Sinv u) i - erk_step (d_etd5_embedded cfg h lam) N' h (Sinv u) i)%C.
  Proof.
    erewrite as_Phi_form by reflexivity. cbn [as_form eig_back fst snd]. rewrite first_stage.
    match goal with |- context [@etd5_form Rops Cops ?X ?act ?NN ?c ?v ?n1] =>
      change (@etd5_form Rops Cops X act NN c v n1)
        with (@etd5_form Rops Cops _ (vmul (A := Cops)) NN
                (snd (etd35_coeffs_of Rops Cops cfg h (vscal (A := Cops) h lam) (as_k0 Cops ETD35z))) v (NN v)) end.
    erewrite (etd5_form_erk _ _ vmul_act (eig_N p N)) by apply etd35_ok. rewrite cadd_minus. split; reflexivity.
  Qed.
End Eig.

Definition entrywise (h : R) (L : cvec) (o : op) : Prop := exists f, o = dfun h L f.
Definition entrywise_erk h L (m : erk) : Prop :=
  Forall (entrywise h L) (er_E m) /\ Forall (Forall (entrywise h L)) (er_a m) /\ entrywise h L (er_E1 m) /\
  Forall (entrywise h L) (er_b m).
Lemma entrywise_respects dom h L o : entrywise h L o -> respects dom o.
Proof. intros [f ->] a b H i Hi. unfold dfun. rewrite (H i Hi). reflexivity. Qed.
Lemma ew_id h L : entrywise h L (fun v => v).
Proof.
  exists (fun _ => RtoC 1). apply functional_extensionality; intros v. apply functional_extensionality; intros i.
  unfold dfun. ring.
Qed.
Lemma ew_fun h L f : entrywise h L (dfun h L f). Proof. exists f. reflexivity. Qed.
Lemma ew_zero h L : entrywise h L ozero. Proof. exists (fun _ => RtoC 0). apply dfun_zero. Qed.
Lemma ew_scal h L c o : entrywise h L o -> entrywise h L (oscal c o).
Proof. intros [f ->]. rewrite dfun_scal. apply ew_fun. Qed.
Lemma ew_add h L a b : entrywise h L a -> entrywise h L b -> entrywise h L (oadd a b).
Proof. intros [f ->] [g ->]. rewrite dfun_add. apply ew_fun. Qed.
Lemma ew_sub h L a b : entrywise h L a -> entrywise h L b -> entrywise h L (osub a b).
Proof. intros Ha Hb. apply ew_add; [exact Ha|apply ew_scal; exact Hb]. Qed.
Ltac ew := repeat (lazymatch goal with
  | |- entrywise _ _ (dfun _ _ _) => apply ew_fun
  | |- entrywise _ _ (dE _ _ _) => apply ew_fun
  | |- entrywise _ _ (dph _ _ _ _ _) => apply ew_fun
  | |- entrywise _ _ ozero => apply ew_zero
  | |- entrywise _ _ (oscal _ _) => apply ew_scal
  | |- entrywise _ _ (oadd _ _) => apply ew_add
  | |- entrywise _ _ (osub _ _) => apply ew_sub
  | |- entrywise _ _ (fun v => v) => apply ew_id
  | |- entrywise _ _ _ => assumption
  | |- Forall _ (_ :: _) => apply Forall_cons
  | |- Forall _ [] => apply Forall_nil
  end).
Lemma ew_krogstad h L E12 E1 f1h f2h f1 f2 f3 : Forall (entrywise h L) [E12; E1; f1h; f2h; f1; f2; f3] ->
  entrywise_erk h L (krogstad E12 E1 f1h f2h f1 f2 f3) /\ entrywise_erk h L (krogstad_embedded E12 E1 f1h f2h f1 f2 f3).
Proof.
  intros H. repeat match goal with H : Forall _ (_ :: _) |- _ => inversion H; clear H; subst end.
  split; (split; [|split; [|split]]); cbn [krogstad_embedded krogstad er_E er_a er_E1 er_b firstn app]; ew.
Qed.
Lemma ew_etd5 h L E14 E12 E34 E1 f1q f2q f1h f2h f1t f2t f1 f2 f3 :
  Forall (entrywise h L) [E14; E12; E34; E1; f1q; f2q; f1h; f2h; f1t; f2t; f1; f2; f3] ->
  entrywise_erk h L (etd5_method E14 E12 E34 E1 f1q f2q f1h f2h f1t f2t f1 f2 f3) /\
  entrywise_erk h L (etd5_embedded E14 E12 E34 E1 f1q f2q f1h f2h f1t f2t f1 f2 f3).
Proof.
  intros H. repeat match goal with H : Forall _ (_ :: _) |- _ => inversion H; clear H; subst end.
  split; (split; [|split; [|split]]); cbn [etd5_embedded etd5_method er_E er_a er_E1 er_b nth]; ew.
Qed.
Lemma d_krogstad_ew cfg h L : entrywise_erk h L (d_krogstad cfg h L) /\ entrywise_erk h L (d_krogstad_embedded cfg h L).
Proof. apply ew_krogstad. ew. Qed.
Lemma d_etd5_ew cfg h L : entrywise_erk h L (d_etd5 cfg h L) /\ entrywise_erk h L (d_etd5_embedded cfg h L).
Proof. apply ew_etd5. ew. Qed.

Section EigMaps.
  Variable W : Type.
  Variable p : problem Cops W.
  Variable N : vec Cops -> vec Cops.
  Notation n := (p_size p).
  Notation S := (mdot n (p_S p)).
  Notation Sinv := (mdot n (p_Sinv p)).
  Hypothesis HE : eig_ok p.
  Hypothesis HN : respects (below n) N.
  Lemma to_basis (m : erk) L (h : R) u : entrywise_erk h L m ->
    veq (below n) (erk_step (conj_erk S Sinv m) N h u) (S (erk_step m (fun v => Sinv (N (S v))) h (Sinv u))).
  Proof.
    intros (H1 & H2 & H3 & H4). apply conj_step.
    - apply mdot_linear.
    - apply mdot_linear.
    - exact HN.
    - eapply Forall_impl; [|exact H1]. intros o. apply entrywise_respects.
    - eapply Forall_impl; [|exact H2]. intros os Hos. eapply Forall_impl; [|exact Hos]. intros o. apply entrywise_respects.
    - eapply entrywise_respects. exact H3.
    - eapply Forall_impl; [|exact H4]. intros o. apply entrywise_respects.
  Qed.
  Lemma from_basis (m : erk) L (h : R) u : entrywise_erk h L m ->
    veq (below n) (erk_step m (fun v => Sinv (N (S v))) h (Sinv u)) (Sinv (erk_step (conj_erk S Sinv m) N h u)).
  Proof.
    intros H. rewrite (mdot_ext_eq n (p_Sinv p) _ _ (to_basis m L h u H)). symmetry. apply mdot_inv. apply (proj2 HE).
  Qed.
End EigMaps.

(** [f r q] in place of [phi_r(q z)]: exact above the cutoff, within quadrature accuracy below. *)
Definition replaces_phi (cfg : etdcfg Rops) (f : nat -> R -> C -> C) : Prop :=
  (forall r q z, (1 <= r <= 3)%nat -> 0 < q <= 1 ->
     Cmod (f r q z - phi r (RtoC q * z))%C <=
     exp (Cmod z + contour_radius cfg) * contour_radius cfg ^ contour_points cfg
       / INR (fact (contour_points cfg)) / INR (fact r)) /\
  (forall r q z, (1 <= r <= 3)%nat -> 0 < q <= 1 -> modecutoff cfg <= Cmod z -> f r q z = phi r (RtoC q * z)%C).
(** The schemes with matrix functions [S f(h lambda) S^-1]. *)
Definition D_krogstad (f : nat -> R -> C -> C) h lam : erk :=
  let D := dfun h lam in let e q := D (fun z => Cexp (RtoC q * z))%C in
  krogstad (e (1/2)) (e 1) (D (f 1%nat (1/2))) (D (f 2%nat (1/2))) (D (f 1%nat 1)) (D (f 2%nat 1)) (D (f 3%nat 1)).
Definition D_krogstad_emb (f : nat -> R -> C -> C) h lam : erk :=
  let D := dfun h lam in let e q := D (fun z => Cexp (RtoC q * z))%C in
  krogstad_embedded (e (1/2)) (e 1) (D (f 1%nat (1/2))) (D (f 2%nat (1/2))) (D (f 1%nat 1)) (D (f 2%nat 1)) (D (f 3%nat 1)).
Definition D_etd5 (f : nat -> R -> C -> C) h lam : erk :=
  let D := dfun h lam in let e q := D (fun z => Cexp (RtoC q * z))%C in
  etd5_method (e (1/4)) (e (1/2)) (e (3/4)) (e 1) (D (f 1%nat (1/4))) (D (f 2%nat (1/4)))
    (D (f 1%nat (1/2))) (D (f 2%nat (1/2))) (D (f 1%nat (3/4))) (D (f 2%nat (3/4)))
    (D (f 1%nat 1)) (D (f 2%nat 1)) (D (f 3%nat 1)).
Definition D_etd5_emb (f : nat -> R -> C -> C) h lam : erk :=
  let D := dfun h lam in let e q := D (fun z => Cexp (RtoC q * z))%C in
  etd5_embedded (e (1/4)) (e (1/2)) (e (3/4)) (e 1) (D (f 1%nat (1/4))) (D (f 2%nat (1/4)))
    (D (f 1%nat (1/2))) (D (f 2%nat (1/2))) (D (f 1%nat (3/4))) (D (f 2%nat (3/4)))
    (D (f 1%nat 1)) (D (f 2%nat 1)) (D (f 3%nat 1)).
Definition in_basis {W} (p : problem Cops W) (m : erk) : erk :=
  conj_erk (mdot (p_size p) (p_S p)) (mdot (p_size p) (p_Sinv p)) m.

(** With [diagonalize=True] the candidates are the steps with these matrix functions. *)
Theorem C47_etd_diagonalized :
  forall (W : Type) (p : problem Cops W) (N : vec Cops -> vec Cops),
    let cfg := p_cfg p in
    eig_ok p -> respects (below (p_size p)) N ->
    0 < modecutoff cfg <= contour_radius cfg -> (0 < contour_points cfg)%nat ->
    exists f, replaces_phi cfg f /\
      forall h u i, (i < p_size p)%nat ->
        fst (as_Phi p N ETD34z h u) i = erk_step (in_basis p (D_krogstad f h (p_eigs p))) N h u i /\
        fst (as_Phi p N ETD35z h u) i = erk_step (in_basis p (D_etd5 f h (p_eigs p))) N h u i.
Proof.
  intros W p N cfg HE HN [H0 HR] HM. exists (ph cfg). split; [split|].
  - intros r q z Hr Hq. apply (ph_error cfg H0 HM HR r q z Hr Hq).
  - intros r q z Hr Hq Hz. apply ph_big; [exact H0|exact Hr|lra|exact Hz].
  - intros h u i Hi. rewrite (proj1 (etd34z_eig W p N HE HN h u)), (proj1 (etd35z_eig W p N HE HN h u)).
    split; symmetry; [apply (to_basis W p N HN _ _ h u (proj1 (d_krogstad_ew cfg h (p_eigs p))) i Hi)
                     |apply (to_basis W p N HN _ _ h u (proj1 (d_etd5_ew cfg h (p_eigs p))) i Hi)].
Qed.

(** The error vector is the one of that scheme, but in the eigenbasis: multiplied by [S^-1]. *)
Theorem C48_etd_error_in_eigenbasis :
  forall (W : Type) (p : problem Cops W) (N : vec Cops -> vec Cops),
    let cfg := p_cfg p in let n := p_size p in
    eig_ok p -> respects (below n) N ->
    0 < modecutoff cfg <= contour_radius cfg -> (0 < contour_points cfg)%nat ->
    exists f, replaces_phi cfg f /\
      forall h u i, (i < n)%nat ->
        snd (as_Phi p N ETD34z h u) i =
          csum n (fun j => p_Sinv p i j * (erk_step (in_basis p (D_krogstad f h (p_eigs p))) N h u j
                                           - erk_step (in_basis p (D_krogstad_emb f h (p_eigs p))) N h u j))%C /\
        snd (as_Phi p N ETD35z h u) i =
          csum n (fun j => p_Sinv p i j * (erk_step (in_basis p (D_etd5 f h (p_eigs p))) N h u j
                                           - erk_step (in_basis p (D_etd5_emb f h (p_eigs p))) N h u j))%C.
Proof.
  intros W p N cfg n HE HN [H0 HR] HM. exists (ph cfg). split; [split|].
  - intros r q z Hr Hq. apply (ph_error cfg H0 HM HR r q z Hr Hq).
  - intros r q z Hr Hq Hz. apply ph_big; [exact H0|exact Hr|lra|exact Hz].
  - intros h u i Hi. rewrite (proj2 (etd34z_eig W p N HE HN h u)), (proj2 (etd35z_eig W p N HE HN h u)).
    assert (D : forall a b : cvec, (mdot n (p_Sinv p) a i - mdot n (p_Sinv p) b i)%C
              = csum n (fun j => p_Sinv p i j * (a j - b j))%C).
    { intros a b. unfold mdot. replace (csum n (fun j => p_Sinv p i j * (a j - b j))%C)
        with (csum n (fun j => (p_Sinv p i j * a j + RtoC (-1) * (p_Sinv p i j * b j))%C)).
      - rewrite csum_plus, csum_scal. rts. ring.
      - apply csum_ext. intros j _. rts. ring. }
    split; (etransitivity; [apply (f_equal2 Cminus)|apply D]).
    + apply (from_basis W p N HE HN _ _ h u (proj1 (d_krogstad_ew cfg h (p_eigs p))) i Hi).
    + apply (from_basis W p N HE HN _ _ h u (proj2 (d_krogstad_ew cfg h (p_eigs p))) i Hi).
    + apply (from_basis W p N HE HN _ _ h u (proj1 (d_etd5_ew cfg h (p_eigs p))) i Hi).
    + apply (from_basis W p N HE HN _ _ h u (proj2 (d_etd5_ew cfg h (p_eigs p))) i Hi).
Qed.
Example C47_not_vacuous : eig_ok rot_problem /\ respects (below (p_size rot_problem)) first_entry /\
  0 < modecutoff (p_cfg rot_problem) <= contour_radius (p_cfg rot_problem) /\ (0 < contour_points (p_cfg rot_problem))%nat.
Proof. split; [apply rot_eig_ok|]. split; [apply first_entry_ok|]. cbn. split; [lra|lia]. Qed.

Print Assumptions C40_zero_step_adaptive.
Print Assumptions C41_constant_forcing.
Print Assumptions C48_etd_error_in_eigenbasis.
