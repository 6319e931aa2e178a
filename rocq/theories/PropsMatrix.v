(** * C45, C46, and the matrix operators of C36-C38 *)

From Coq Require Import ZArith List Bool Reals Lra Lia FunctionalExtensionality QArith Qreals Setoid Morphisms.
From Coquelicot Require Import Hierarchy Derive Complex.
From Coquelicot Require AutoDerive.
From Verif Require Import Scalars Control ControlSound Arrays SchemeBase SchemeIF SchemeETD4 SchemeETD5 Solvers
     SchemeFacts SchemeSound SchemeFamily SchemeForm CInst SpecRK SchemeIFReal SpecPhi SpecERK SpecPoly ContourReal SchemeETDReal
     SchemeETDCoefs PropsIF PropsETD PropsLinear PropsPsi ContourMatrix MatrixFlow.
Import ListNotations.
Local Open Scope R_scope.

(** [numpy.linalg.inv] returns a two-sided inverse if it returns. *)
Definition inv_ok {W} (p : problem Cops W) : Prop :=
  forall m q, p_inv p m = inr q -> is_inv (p_size p) m q.
(** [scipy.linalg.expm] returns the exponential series. *)
Definition exp_series {W} (p : problem Cops W) : Prop :=
  forall m e, p_expm p m = inr e -> is_psi (p_size p) 0 m e.

(** [q h L]. *)
Definition scaled (q h : R) (L : mat Cops) : cmat := fun i j => (RtoC (q * h) * L i j)%C.

(** ** What [update_coeffs] stores *)

Section Sums.
  Variable cfg : etdcfg Rops.
  Notation M := (contour_points cfg).
  Notation r := (rho cfg).
  Variable iv : mat Cops -> exn + mat Cops.
  Variable z : mat Cops.
  Notation term k Q s l i j := (r (s + l)%nat * psi_code k (r (s + l)%nat) * (Q : nat -> cmat) l i j / RtoC (INR M))%C.

  Lemma term_eq (f : C) (m : cmat) i j pt :
    mdivs (A := Cops) (mscale (A := Cops) (emul Cops pt f) m) (npts cfg) i j = (pt * f * m i j / RtoC (INR M))%C.
  Proof. unfold mdivs, mscale, npts. csimp. rewrite <- INR_IZR_INZ. reflexivity. Qed.

  Lemma etd4_contour_sum : forall m s p0 p,
    etd4_contour Rops Cops cfg iv z (map (node Cops cfg) (seq s m)) p0 = inr p ->
    exists Q Qh : nat -> cmat,
      (forall l, (l < m)%nat -> iv (shift (r (s + l)%nat) z) = inr (Q l)
                             /\ iv (shift (r (s + l)%nat) (mdivz (A := Cops) z 2)) = inr (Qh l)) /\
      forall i j,
        p4_1h p i j = (p4_1h p0 i j + csum m (fun l => term 1%nat Qh s l i j))%C /\
        p4_2h p i j = (p4_2h p0 i j + csum m (fun l => term 2%nat Qh s l i j))%C /\
        p4_1 p i j = (p4_1 p0 i j + csum m (fun l => term 1%nat Q s l i j))%C /\
        p4_2 p i j = (p4_2 p0 i j + csum m (fun l => term 2%nat Q s l i j))%C /\
        p4_3 p i j = (p4_3 p0 i j + csum m (fun l => term 3%nat Q s l i j))%C.
  Proof.
    induction m as [|m IH]; intros s p0 p H; cbn [seq map etd4_contour] in H.
    - injection H as <-. exists (fun _ _ _ => RtoC 0), (fun _ _ _ => RtoC 0). split; [intros; lia|].
      intros i j. cbn [csum]. repeat split; symmetry; apply Cplus_0_r.
    - change (msub (mscale (node Cops cfg s) (eye Cops)) z) with (shift (r s) z) in H.
      change (msub (mscale (node Cops cfg s) (eye Cops)) (mdivz z 2)) with (shift (r s) (mdivz (A := Cops) z 2)) in H.
      destruct (iv (shift (r s) z)) as [e|Q0] eqn:E1; [discriminate|].
      destruct (iv (shift (r s) (mdivz (A := Cops) z 2))) as [e|Q1] eqn:E2; [discriminate|].
      destruct (IH (S s) _ _ H) as (Q & Qh & HQ & HS).
      exists (fun l => match l with O => Q0 | S l => Q l end), (fun l => match l with O => Q1 | S l => Qh l end).
      split.
      + intros [|l] Hl.
        * rewrite Nat.add_0_r. split; assumption.
        * replace (s + S l)%nat with (S s + l)%nat by lia. apply HQ. lia.
      + intros i j. destruct (HS i j) as (S1 & S2 & S3 & S4 & S5). cbn [p4_1h p4_2h p4_1 p4_2 p4_3] in *.
        unfold madd in *. rewrite !csum_shift, !Nat.add_0_r. cbn [psi_code].
        rewrite !term_eq in *.
        assert (G : forall (f : nat -> cmat) k, csum m (fun l => term k f (S s) l i j)
                    = csum m (fun l => (r (s + S l)%nat * psi_code k (r (s + S l)%nat) * f l i j / RtoC (INR M))%C)).
        { intros f k. apply csum_ext. intros l _. replace (S s + l)%nat with (s + S l)%nat by lia. reflexivity. }
        rewrite !G in *. cbn [eadd Cops] in *. change (node Cops cfg s) with (r s) in *. cbn [psi_code] in *.
        rewrite S1, S2, S3, S4, S5. repeat split; symmetry; apply Cplus_assoc.
  Qed.

  Lemma etd5_contour_sum : forall m s p0 p,
    etd5_contour Rops Cops cfg iv z (map (node Cops cfg) (seq s m)) p0 = inr p ->
    exists Q Qq Qh Qt : nat -> cmat,
      (forall l, (l < m)%nat -> iv (shift (r (s + l)%nat) z) = inr (Q l)
                             /\ iv (shift (r (s + l)%nat) (mdivz (A := Cops) z 4)) = inr (Qq l)
                             /\ iv (shift (r (s + l)%nat) (mdivz (A := Cops) z 2)) = inr (Qh l)
                             /\ iv (shift (r (s + l)%nat) (mdivz (A := Cops) (mscalz (A := Cops) 3 z) 4)) = inr (Qt l)) /\
      forall i j,
        p5_14a p i j = (p5_14a p0 i j + csum m (fun l => term 1%nat Qq s l i j))%C /\
        p5_14b p i j = (p5_14b p0 i j + csum m (fun l => term 2%nat Qq s l i j))%C /\
        p5_12a p i j = (p5_12a p0 i j + csum m (fun l => term 1%nat Qh s l i j))%C /\
        p5_12b p i j = (p5_12b p0 i j + csum m (fun l => term 2%nat Qh s l i j))%C /\
        p5_34a p i j = (p5_34a p0 i j + csum m (fun l => term 1%nat Qt s l i j))%C /\
        p5_34b p i j = (p5_34b p0 i j + csum m (fun l => term 2%nat Qt s l i j))%C /\
        p5_1 p i j = (p5_1 p0 i j + csum m (fun l => term 1%nat Q s l i j))%C /\
        p5_2 p i j = (p5_2 p0 i j + csum m (fun l => term 2%nat Q s l i j))%C /\
        p5_3 p i j = (p5_3 p0 i j + csum m (fun l => term 3%nat Q s l i j))%C.
  Proof.
    induction m as [|m IH]; intros s p0 p H; cbn [seq map etd5_contour] in H.
    - injection H as <-. exists (fun _ _ _ => RtoC 0), (fun _ _ _ => RtoC 0), (fun _ _ _ => RtoC 0), (fun _ _ _ => RtoC 0).
      split; [intros; lia|]. intros i j. cbn [csum]. repeat split; symmetry; apply Cplus_0_r.
    - change (msub (mscale (node Cops cfg s) (eye Cops)) z) with (shift (r s) z) in H.
      change (msub (mscale (node Cops cfg s) (eye Cops)) (mdivz z 4)) with (shift (r s) (mdivz (A := Cops) z 4)) in H.
      change (msub (mscale (node Cops cfg s) (eye Cops)) (mdivz z 2)) with (shift (r s) (mdivz (A := Cops) z 2)) in H.
      change (msub (mscale (node Cops cfg s) (eye Cops)) (mdivz (mscalz 3 z) 4))
        with (shift (r s) (mdivz (A := Cops) (mscalz (A := Cops) 3 z) 4)) in H.
      destruct (iv (shift (r s) (mdivz (A := Cops) z 4))) as [e|Q1] eqn:E2; [discriminate|].
      destruct (iv (shift (r s) (mdivz (A := Cops) z 2))) as [e|Q2] eqn:E3; [discriminate|].
      destruct (iv (shift (r s) (mdivz (A := Cops) (mscalz (A := Cops) 3 z) 4))) as [e|Q3] eqn:E4; [discriminate|].
      destruct (iv (shift (r s) z)) as [e|Q0] eqn:E1; [discriminate|].
      destruct (IH (S s) _ _ H) as (Q & Qq & Qh & Qt & HQ & HS).
      exists (fun l => match l with O => Q0 | S l => Q l end), (fun l => match l with O => Q1 | S l => Qq l end),
             (fun l => match l with O => Q2 | S l => Qh l end), (fun l => match l with O => Q3 | S l => Qt l end).
      split.
      + intros [|l] Hl.
        * rewrite Nat.add_0_r. repeat split; assumption.
        * replace (s + S l)%nat with (S s + l)%nat by lia. apply HQ. lia.
      + intros i j. destruct (HS i j) as (S1 & S2 & S3 & S4 & S5 & S6 & S7 & S8 & S9).
        cbn [p5_14a p5_14b p5_12a p5_12b p5_34a p5_34b p5_1 p5_2 p5_3] in *.
        unfold madd in *. rewrite !csum_shift, !Nat.add_0_r. cbn [psi_code].
        rewrite !term_eq in *.
        assert (G : forall (f : nat -> cmat) k, csum m (fun l => term k f (S s) l i j)
                    = csum m (fun l => (r (s + S l)%nat * psi_code k (r (s + S l)%nat) * f l i j / RtoC (INR M))%C)).
        { intros f k. apply csum_ext. intros l _. replace (S s + l)%nat with (s + S l)%nat by lia. reflexivity. }
        rewrite !G in *. cbn [eadd Cops] in *. change (node Cops cfg s) with (r s) in *. cbn [psi_code] in *.
        rewrite S1, S2, S3, S4, S5, S6, S7, S8, S9. repeat split; symmetry; apply Cplus_assoc.
  Qed.

  Lemma from_zero k Q (P : cmat) : (forall i j, P i j = (RtoC 0 + csum M (fun l => term k Q 0%nat l i j))%C) ->
    P = contour cfg (psi_code k) Q.
  Proof.
    intros H. apply functional_extensionality; intros i. apply functional_extensionality; intros j.
    rewrite H, Cplus_0_l. unfold contour, Cdiv. rewrite <- csum_scal_right. reflexivity.
  Qed.
End Sums.

(** [P] is the contour sum that replaces [psi_k(q h L)], with true inverses. *)
Definition contour_of {W} (p : problem Cops W) (k : nat) (q h : R) (P : cmat) : Prop :=
  exists Q : nat -> cmat,
    (forall l, (l < contour_points (p_cfg p))%nat ->
       is_inv (p_size p) (shift (rho (p_cfg p) l) (scaled q h (p_mat p))) (Q l)) /\
    P = contour (p_cfg p) (psi_code k) Q.

Lemma scaled_1 h L : mscal (A := Cops) h L = scaled 1 h L.
Proof. apply functional_extensionality; intros i. apply functional_extensionality; intros j. unfold scaled. rewrite Rmult_1_l. reflexivity. Qed.
Lemma scaled_div h L (k : positive) : mdivz (A := Cops) (mscal (A := Cops) h L) (Zpos k) = scaled (/ IZR (Zpos k)) h L.
Proof.
  apply functional_extensionality; intros i. apply functional_extensionality; intros j.
  unfold scaled, mdivz, mdivs, mscal. csimp. rewrite RtoC_mult, RtoC_inv by (apply not_0_IZR; discriminate). ceq. unfold Cdiv. ring.
Qed.
Lemma scaled_34 h L : mdivz (A := Cops) (mscalz (A := Cops) 3 (mscal (A := Cops) h L)) 4 = scaled (3 / 4) h L.
Proof.
  apply functional_extensionality; intros i. apply functional_extensionality; intros j.
  unfold scaled, mdivz, mdivs, mscalz, mscal. csimp. set (a := L i j). clearbody a. change C in a. ceq. cfield.
Qed.

(** Products with a matrix of coefficients are linear in the matrix. *)
Lemma mdot_madd n a b v i : mdot n (madd (A := Cops) a b) v i = (mdot n a v i + mdot n b v i)%C.
Proof. unfold mdot, madd. rewrite <- csum_plus. apply csum_ext; intros. csimp. ceq. ring. Qed.
Lemma mdot_msub n a b v i : mdot n (msub (A := Cops) a b) v i = (mdot n a v i + RtoC (-1) * mdot n b v i)%C.
Proof. unfold mdot, msub. rewrite <- csum_scal, <- csum_plus. apply csum_ext; intros. csimp. ceq. replace (RtoC (-1)) with (- RtoC 1)%C by (rewrite <- RtoC_opp; reflexivity). ring. Qed.
Lemma mdot_mscal n (c : R) a v i : mdot n (mscal (A := Cops) c a) v i = (RtoC c * mdot n a v i)%C.
Proof. unfold mdot, mscal. rewrite <- csum_scal. apply csum_ext; intros. csimp. ceq. ring. Qed.
Lemma mdot_mscalz n c a v i : mdot n (mscalz (A := Cops) c a) v i = (RtoC (IZR c) * mdot n a v i)%C.
Proof. exact (mdot_mscal n (IZR c) a v i). Qed.
Lemma mdot_mdivz n c a v i : mdot n (mdivz (A := Cops) a c) v i = (/ RtoC (IZR c) * mdot n a v i)%C.
Proof. unfold mdot, mdivz, mdivs. rewrite <- csum_scal. apply csum_ext; intros. csimp. ceq. unfold Cdiv. ring. Qed.

Ltac mlin := intros ?v; apply functional_extensionality; intros ?i;
  unfold osub; unfold oadd, oscal, ozero, cadd, cscal; cbn [nth];
  unfold osub; unfold oadd, oscal, ozero, cadd, cscal;
  change (emdot Cops) with mdot;
  repeat first [rewrite mdot_madd | rewrite mdot_msub | rewrite mdot_mscal | rewrite mdot_mscalz | rewrite mdot_mdivz];
  repeat match goal with |- context [mdot ?n ?m ?v ?i] => let x := fresh "x" in set (x := mdot n m v i) in *; clearbody x; change C in x end;
  unfold lit, half; cbn [Rops T tadd tsub tmul tdiv tofZ];
  ceq; cfield.

Section Stored.
  Variable W : Type.
  Variable p : problem Cops W.
  Notation n := (p_size p).
  Notation cfg := (p_cfg p).
  Hypothesis HI : inv_ok p.

  Lemma etd4n_stored (h : R) c0 c : etd4n_coeffs Rops Cops cfg (p_expm p) (p_inv p) (p_mat p) h c0 = (inr tt, c) ->
    exists E1 E12 P1h P2h P1 P2 P3,
      p_expm p (scaled 1 h (p_mat p)) = inr E1 /\ p_expm p (scaled (1/2) h (p_mat p)) = inr E12 /\
      contour_of p 1 (1/2) h P1h /\ contour_of p 2 (1/2) h P2h /\
      contour_of p 1 1 h P1 /\ contour_of p 2 1 h P2 /\ contour_of p 3 1 h P3 /\
      etd4_ok (mat Cops) (emdot Cops n) c h (mdot n E12) (mdot n E1)
        (mdot n P1h) (oscal (1/2) (mdot n P2h)) (mdot n P1) (oscal (1/2) (mdot n P2)) (oscal (1/6) (mdot n P3)).
  Proof.
    unfold etd4n_coeffs. cbv zeta. rewrite scaled_div, scaled_1. replace (/ 2) with (1/2) by lra. intros H.
    destruct (p_expm p (scaled 1 h (p_mat p))) as [x|E1] eqn:HE1; [discriminate|].
    destruct (p_expm p (scaled (1/2) h (p_mat p))) as [x|E12] eqn:HE12; [discriminate|].
    destruct (etd4_contour Rops Cops cfg (p_inv p) (scaled 1 h (p_mat p)) (nodes Cops cfg) _) as [x|[q1 q2 q3 q4 q5]] eqn:HC; [discriminate|].
    injection H as <-. 
    destruct (etd4_contour_sum cfg (p_inv p) (scaled 1 h (p_mat p)) _ 0 _ _ HC) as (Q & Qh & HQ & HS).
    assert (Hh : mdivz (A := Cops) (scaled 1 h (p_mat p)) 2 = scaled (1/2) h (p_mat p)).
    { rewrite <- scaled_1, scaled_div. f_equal. lra. }
    rewrite Hh in HQ. cbn [p4_1h p4_2h p4_1 p4_2 p4_3] in HS.
    assert (HQ1 : forall l, (l < contour_points cfg)%nat -> is_inv n (shift (rho cfg l) (scaled 1 h (p_mat p))) (Q l)).
    { intros l Hl. apply HI. apply (HQ l Hl). }
    assert (HQh : forall l, (l < contour_points cfg)%nat -> is_inv n (shift (rho cfg l) (scaled (1/2) h (p_mat p))) (Qh l)).
    { intros l Hl. apply HI. apply (HQ l Hl). }
    exists E1, E12, q1, q2, q3, q4, q5. split; [reflexivity|]. split; [reflexivity|].
    split; [exists Qh; split; [exact HQh|apply from_zero; intros; apply HS]|].
    split; [exists Qh; split; [exact HQh|apply from_zero; intros; apply HS]|].
    split; [exists Q; split; [exact HQ1|apply from_zero; intros; apply HS]|].
    split; [exists Q; split; [exact HQ1|apply from_zero; intros; apply HS]|].
    split; [exists Q; split; [exact HQ1|apply from_zero; intros; apply HS]|].
    clear. split; cbn [e4_EL2 e4_EL e4_a21 e4_a31 e4_a32 e4_a41 e4_a43 e4_b1 e4_b2 e4_b4 krogstad er_a er_b nth];
      try reflexivity; mlin.
  Qed.

  Lemma etd5n_stored (h : R) c0 c : etd5n_coeffs Rops Cops cfg (p_expm p) (p_inv p) (p_mat p) h c0 = (inr tt, c) ->
    exists E14 E12 E34 E1 P1q P2q P1h P2h P1t P2t P1 P2 P3,
      p_expm p (scaled (1/4) h (p_mat p)) = inr E14 /\ p_expm p (scaled (1/2) h (p_mat p)) = inr E12 /\
      p_expm p (scaled (3/4) h (p_mat p)) = inr E34 /\ p_expm p (scaled 1 h (p_mat p)) = inr E1 /\
      contour_of p 1 (1/4) h P1q /\ contour_of p 2 (1/4) h P2q /\
      contour_of p 1 (1/2) h P1h /\ contour_of p 2 (1/2) h P2h /\
      contour_of p 1 (3/4) h P1t /\ contour_of p 2 (3/4) h P2t /\
      contour_of p 1 1 h P1 /\ contour_of p 2 1 h P2 /\ contour_of p 3 1 h P3 /\
      etd5_ok (mat Cops) (emdot Cops n) c h (mdot n E14) (mdot n E12) (mdot n E34) (mdot n E1)
        (mdot n P1q) (oscal (1/2) (mdot n P2q)) (mdot n P1h) (oscal (1/2) (mdot n P2h))
        (mdot n P1t) (oscal (1/2) (mdot n P2t)) (mdot n P1) (oscal (1/2) (mdot n P2)) (oscal (1/6) (mdot n P3)).
  Proof.
    unfold etd5n_coeffs. cbv zeta. rewrite scaled_34, !scaled_div, scaled_1.
    replace (/ 2) with (1/2) by lra. replace (/ 4) with (1/4) by lra. intros H.
    destruct (p_expm p (scaled (1/4) h (p_mat p))) as [x|E14] eqn:HE14; [discriminate|].
    destruct (p_expm p (scaled (1/2) h (p_mat p))) as [x|E12] eqn:HE12; [discriminate|].
    destruct (p_expm p (scaled (3/4) h (p_mat p))) as [x|E34] eqn:HE34; [discriminate|].
    destruct (p_expm p (scaled 1 h (p_mat p))) as [x|E1] eqn:HE1; [discriminate|].
    destruct (etd5_contour Rops Cops cfg (p_inv p) (scaled 1 h (p_mat p)) (nodes Cops cfg) _)
      as [x|[q1 q2 q3 q4 q5 q6 q7 q8 q9]] eqn:HC; [discriminate|].
    assert (Hc := f_equal snd H). cbn [snd] in Hc. clear H. subst c.
    destruct (etd5_contour_sum cfg (p_inv p) (scaled 1 h (p_mat p)) _ 0 _ _ HC) as (Q & Qq & Qh & Qt & HQ & HS). clear HC.
    assert (Hq : mdivz (A := Cops) (scaled 1 h (p_mat p)) 4 = scaled (1/4) h (p_mat p)).
    { rewrite <- scaled_1, scaled_div. f_equal. lra. }
    assert (Hh : mdivz (A := Cops) (scaled 1 h (p_mat p)) 2 = scaled (1/2) h (p_mat p)).
    { rewrite <- scaled_1, scaled_div. f_equal. lra. }
    assert (Ht : mdivz (A := Cops) (mscalz (A := Cops) 3 (scaled 1 h (p_mat p))) 4 = scaled (3/4) h (p_mat p)).
    { rewrite <- scaled_1. apply scaled_34. }
    rewrite Hq, Hh, Ht in HQ. cbn [p5_14a p5_14b p5_12a p5_12b p5_34a p5_34b p5_1 p5_2 p5_3] in HS.
    assert (HQ1 : forall l, (l < contour_points cfg)%nat -> is_inv n (shift (rho cfg l) (scaled 1 h (p_mat p))) (Q l)).
    { intros l Hl. apply HI. apply (HQ l Hl). }
    assert (HQq : forall l, (l < contour_points cfg)%nat -> is_inv n (shift (rho cfg l) (scaled (1/4) h (p_mat p))) (Qq l)).
    { intros l Hl. apply HI. apply (HQ l Hl). }
    assert (HQh : forall l, (l < contour_points cfg)%nat -> is_inv n (shift (rho cfg l) (scaled (1/2) h (p_mat p))) (Qh l)).
    { intros l Hl. apply HI. apply (HQ l Hl). }
    assert (HQt : forall l, (l < contour_points cfg)%nat -> is_inv n (shift (rho cfg l) (scaled (3/4) h (p_mat p))) (Qt l)).
    { intros l Hl. apply HI. apply (HQ l Hl). }
    exists E14, E12, E34, E1, q1, q2, q3, q4, q5, q6, q7, q8, q9.
    do 4 (split; [reflexivity|]).
    split; [exists Qq; split; [exact HQq|apply from_zero; intros; apply HS]|].
    split; [exists Qq; split; [exact HQq|apply from_zero; intros; apply HS]|].
    split; [exists Qh; split; [exact HQh|apply from_zero; intros; apply HS]|].
    split; [exists Qh; split; [exact HQh|apply from_zero; intros; apply HS]|].
    split; [exists Qt; split; [exact HQt|apply from_zero; intros; apply HS]|].
    split; [exists Qt; split; [exact HQt|apply from_zero; intros; apply HS]|].
    split; [exists Q; split; [exact HQ1|apply from_zero; intros; apply HS]|].
    split; [exists Q; split; [exact HQ1|apply from_zero; intros; apply HS]|].
    split; [exists Q; split; [exact HQ1|apply from_zero; intros; apply HS]|].
    clear. split; cbn [e5_EL14 e5_EL12 e5_EL34 e5_EL e5_a21 e5_a31 e5_a32 e5_a41 e5_a43 e5_a51 e5_a52 e5_a54
      e5_a61 e5_a62 e5_a63 e5_a65 e5_b1 e5_b3 e5_b4 e5_b5 e5_b6 etd5_method er_a er_b nth];
      try reflexivity; mlin.
  Qed.
End Stored.

(** The steps of the code, from what is stored. *)
Lemma etd4n_steps {W} (p : problem Cops W) N (h : R) u c E12 E1 f1h f2h f1 f2 f3 :
  cs_uc p ETD4n h (cs_k0 Cops ETD4n) = (inr tt, c) ->
  etd4_ok (mat Cops) (emdot Cops (p_size p)) c h E12 E1 f1h f2h f1 f2 f3 ->
  cs_Phi p N ETD4n h u = erk_step (krogstad E12 E1 f1h f2h f1 f2 f3) N h u /\
  as_Phi p N ETD34n h u = pair_of N (krogstad E12 E1 f1h f2h f1 f2 f3) (krogstad_embedded E12 E1 f1h f2h f1 f2 f3) h u.
Proof.
  intros Hc Hok.
  assert (F := etd4_form_erk (mat Cops) (emdot Cops (p_size p)) (mdot_act (p_size p)) N c h E12 E1 f1h f2h f1 f2 f3 Hok u).
  rewrite (@cs_Phi_form _ _ _ p N ETD4n h c u Hc), (@as_Phi_form _ _ _ p N ETD34n h c u Hc). cbn [cs_form as_form].
  split; [|unfold pair_of; rewrite <- cadd_minus].
  - exact (f_equal fst F).
  - exact F.
Qed.
Lemma etd5n_steps {W} (p : problem Cops W) N (h : R) u c E14 E12 E34 E1 f1q f2q f1h f2h f1t f2t f1 f2 f3 :
  cs_uc p ETD5n h (cs_k0 Cops ETD5n) = (inr tt, c) ->
  etd5_ok (mat Cops) (emdot Cops (p_size p)) c h E14 E12 E34 E1 f1q f2q f1h f2h f1t f2t f1 f2 f3 ->
  cs_Phi p N ETD5n h u = erk_step (etd5_method E14 E12 E34 E1 f1q f2q f1h f2h f1t f2t f1 f2 f3) N h u /\
  as_Phi p N ETD35n h u = pair_of N (etd5_method E14 E12 E34 E1 f1q f2q f1h f2h f1t f2t f1 f2 f3)
                                    (etd5_embedded E14 E12 E34 E1 f1q f2q f1h f2h f1t f2t f1 f2 f3) h u.
Proof.
  intros Hc Hok.
  assert (F := etd5_form_erk (mat Cops) (emdot Cops (p_size p)) (mdot_act (p_size p)) N c h
                 E14 E12 E34 E1 f1q f2q f1h f2h f1t f2t f1 f2 f3 Hok u).
  rewrite (@cs_Phi_form _ _ _ p N ETD5n h c u Hc), (@as_Phi_form _ _ _ p N ETD35n h c u Hc). cbn [cs_form as_form].
  split; [|unfold pair_of; rewrite <- cadd_minus].
  - exact (f_equal fst F).
  - exact F.
Qed.

(** ** C45: the contour formula *)

(** Every weight of the four schemes is made of contour sums with true inverses (the exact
    linear combinations are the subject of C36 and C37). *)
Definition coeffs_computed {W} (p : problem Cops W) (h : R) : Prop :=
  fst (cs_uc p ETD4n h (cs_k0 Cops ETD4n)) = inr tt /\ fst (cs_uc p ETD5n h (cs_k0 Cops ETD5n)) = inr tt.

(** The formula on polynomials, for any [f] whose values at the nodes are those of a polynomial of
    degree below [M], and any matrix for which the inverses exist: [R^M + z^M] is invertible and
    the sum is [p(z) R^M (R^M + z^M)^-1]. *)
Lemma resolvent_comm n w z q : is_inv n (shift w z) q -> meq n (mprod n z q) (mprod n q z).
Proof.
  intros [H1 H2]. unfold shift in *.
  assert (E : meq n (mminus (mtimes w q) (mprod n z q)) (mminus (mtimes w q) (mprod n q z))).
  { transitivity (mprod n (mminus (mtimes w mident) z) q).
    - rewrite mprod_minus_l, mprod_times_l, mprod_ident_l. reflexivity.
    - rewrite H1, <- H2. rewrite mprod_minus_r, mprod_times_r, mprod_ident_r. reflexivity. }
  intros i j Hi Hj. specialize (E i j Hi Hj). unfold mminus in E.
  replace (mprod n z q i j) with (mtimes w q i j - (mtimes w q i j - mprod n z q i j))%C by ring. rewrite E. ring.
Qed.
Lemma contour_comm cfg n z Q f : (forall l, (l < contour_points cfg)%nat -> is_inv n (shift (rho cfg l) z) (Q l)) ->
  meq n (mprod n z (contour cfg f Q)) (mprod n (contour cfg f Q) z).
Proof.
  intros HQ i j Hi Hj. unfold mprod, contour.
  transitivity (csum (contour_points cfg) (fun l => rho cfg l * f (rho cfg l) * mprod n z (Q l) i j) / RtoC (INR (contour_points cfg)))%C.
  - unfold Cdiv. rewrite <- csum_scal_right.
    rewrite (csum_ext n _ (fun k => csum (contour_points cfg) (fun l => rho cfg l * f (rho cfg l) * (z i k * Q l k j) * / RtoC (INR (contour_points cfg)))%C)).
    + rewrite csum_swap. apply csum_ext. intros l _. unfold mprod. rewrite csum_scal_right, csum_scal. reflexivity.
    + intros k _. rewrite csum_scal_right. rewrite Cmult_assoc. f_equal. rewrite <- csum_scal. apply csum_ext. intros; ring.
  - unfold Cdiv. rewrite <- csum_scal_right.
    rewrite (csum_ext n _ (fun k => csum (contour_points cfg) (fun l => rho cfg l * f (rho cfg l) * (Q l i k * z k j) * / RtoC (INR (contour_points cfg)))%C)).
    + rewrite csum_swap. apply csum_ext. intros l Hl. rewrite (resolvent_comm n _ z _ (HQ l Hl) i j Hi Hj).
      unfold mprod. rewrite csum_scal_right, csum_scal. reflexivity.
    + intros k _. rewrite <- !csum_scal_right. apply csum_ext. intros; ring.
Qed.
Lemma comm_pow n z a k : meq n (mprod n z a) (mprod n a z) -> meq n (mprod n (mpow n z k) a) (mprod n a (mpow n z k)).
Proof.
  intros H. induction k as [|k IH]; cbn [mpow].
  - rewrite mprod_ident_l, mprod_ident_r. reflexivity.
  - rewrite mprod_assoc. transitivity (mprod n z (mprod n a (mpow n z k))); [apply mprod_proper; [reflexivity|exact IH]|].
    rewrite <- mprod_assoc. transitivity (mprod n (mprod n a z) (mpow n z k)); [apply mprod_proper; [exact H|reflexivity]|].
    apply mprod_assoc.
Qed.

Theorem C45_polynomials : forall (cfg : etdcfg Rops) n (z : cmat) (Q : nat -> cmat) (a : nat -> C) (f : C -> C),
  (0 < contour_points cfg)%nat -> 0 < contour_radius cfg ->
  (forall l, (l < contour_points cfg)%nat -> is_inv n (shift (rho cfg l) z) (Q l)) ->
  (forall l, (l < contour_points cfg)%nat -> f (rho cfg l) = csum (contour_points cfg) (fun k => a k * cpow (rho cfg l) k)%C) ->
  exists D,
    is_inv n (mplus (mtimes (cpow (RtoC (contour_radius cfg)) (contour_points cfg)) mident) (mpow n z (contour_points cfg))) D /\
    meq n (contour cfg f Q)
          (mprod n (mtimes (cpow (RtoC (contour_radius cfg)) (contour_points cfg)) (mpoly n z a (contour_points cfg))) D).
Proof.
  intros cfg n z Q a f HM HR HQ Hf. set (M := contour_points cfg) in *. set (RM := cpow (RtoC (contour_radius cfg)) M).
  assert (NZ : RM <> RtoC 0).
  { unfold RM. intros X. apply (f_equal Cmod) in X. rewrite Cmod_cpow, Cmod_R, Cmod_0, Rabs_pos_eq in X by lra.
    assert (Y := pow_lt _ M HR). lra. }
  set (one := contour cfg (fun w => csum M (fun l => (if Nat.eqb l 0 then RtoC 1 else RtoC 0) * cpow w l)%C) Q).
  assert (E1 := contour_poly cfg n HM z Q (fun l => if Nat.eqb l 0 then RtoC 1 else RtoC 0) HQ).
  fold M in E1. fold one in E1. fold RM in E1.
  assert (EI : meq n (mpoly n z (fun l => if Nat.eqb l 0 then RtoC 1 else RtoC 0) M) mident).
  { intros i j _ _. unfold mpoly. destruct M as [|m]; [lia|]. rewrite csum_shift, csum_0.
    - cbn [Nat.eqb mpow]. ring.
    - intros k _. cbn [Nat.eqb]. ring. }
  rewrite EI in E1.
  set (D := mtimes (/ RM)%C one).
  assert (DL : meq n (mprod n D (damp cfg n z)) mident).
  { unfold D. rewrite mprod_times_l. transitivity (mtimes (/ RM)%C (mtimes RM mident)).
    - apply mtimes_proper; [reflexivity|exact E1].
    - intros i j _ _. unfold mtimes. field. exact NZ. }
  assert (CO := contour_comm cfg n z Q (fun w => csum M (fun l => (if Nat.eqb l 0 then RtoC 1 else RtoC 0) * cpow w l)%C) HQ).
  fold one in CO.
  assert (DC : meq n (mprod n (damp cfg n z) D) (mprod n D (damp cfg n z))).
  { unfold damp, D. fold M. fold RM.
    rewrite mprod_plus_l, mprod_plus_r, !mprod_times_l, !mprod_times_r, mprod_ident_l, mprod_ident_r.
    apply mplus_proper; [intros i j _ _; unfold mtimes; ring|]. apply mtimes_proper; [reflexivity|]. apply comm_pow. exact CO. }
  exists D. split.
  - split; [exact (transitivity DC DL)|exact DL].
  - assert (EF : meq n (contour cfg f Q) (contour cfg (fun w => csum M (fun l => (a l * cpow w l)%C)) Q)).
    { intros i j _ _. unfold contour. f_equal. apply csum_ext. intros l Hl. rewrite (Hf l Hl). reflexivity. }
    assert (E2 := contour_poly cfg n HM z Q a HQ). fold M RM in E2.
    rewrite EF. set (A := contour cfg (fun w => csum M (fun l => (a l * cpow w l)%C)) Q) in *.
    transitivity (mprod n A (mprod n (damp cfg n z) D)).
    + transitivity (mprod n A mident); [symmetry; apply mprod_ident_r|]. apply mprod_proper; [reflexivity|].
      symmetry. exact (transitivity DC DL).
    + rewrite <- mprod_assoc. apply mprod_proper; [exact E2|reflexivity].
Qed.

(** [hL] is similar, with [S], to a matrix of norm at most [x < R] (largest row sum); with
    [S = T = 1] this is a bound on [hL] itself, and for a suitable [S] it holds for every [x]
    above the spectral radius. *)
Definition fits {W} (p : problem Cops W) (S T : cmat) (x h : R) : Prop :=
  (0 < contour_points (p_cfg p))%nat /\ is_inv (p_size p) S T /\ 0 <= x < contour_radius (p_cfg p) /\
  forall i, (i < p_size p)%nat -> rown (p_size p) (simto (p_size p) S T (scaled 1 h (p_mat p))) i <= x.
(** [P] is [psi_k(q h L)] up to [merr] (in the same norm). *)
Definition near_psi {W} (p : problem Cops W) (S T : cmat) (x : R) (k : nat) (q h : R) (P : cmat) : Prop :=
  exists P', is_psi (p_size p) k (scaled q h (p_mat p)) P' /\
    forall i, (i < p_size p)%nat -> rown (p_size p) (simto (p_size p) S T (mminus P P')) i <= merr (p_cfg p) x.

Lemma fits_q {W} (p : problem Cops W) S T x h q : fits p S T x h -> 0 <= q <= 1 ->
  forall i, (i < p_size p)%nat -> rown (p_size p) (simto (p_size p) S T (scaled q h (p_mat p))) i <= x.
Proof.
  intros (_ & HST & Hx & HF) Hq i Hi.
  assert (E : meq (p_size p) (simto (p_size p) S T (scaled q h (p_mat p))) (mtimes (RtoC q) (simto (p_size p) S T (scaled 1 h (p_mat p))))).
  { rewrite <- sim_times. apply sim_ext. intros a b _ _. unfold scaled, mtimes. rewrite !RtoC_mult. ring. }
  rewrite (rown_ext _ _ _ _ E Hi), rown_times, Cmod_R, Rabs_pos_eq by lra.
  specialize (HF i Hi). assert (G := rown_nonneg (p_size p) (simto (p_size p) S T (scaled 1 h (p_mat p))) i).
  apply Rle_trans with (1 * rown (p_size p) (simto (p_size p) S T (scaled 1 h (p_mat p))) i); [|lra].
  apply Rmult_le_compat_r; lra.
Qed.
Theorem C45_accuracy : forall (W : Type) (p : problem Cops W) S T (x h q : R) k P,
  fits p S T x h -> 0 <= q <= 1 -> (1 <= k <= 3)%nat -> contour_of p k q h P -> near_psi p S T x k q h P.
Proof.
  intros W p S T x h q k P HF Hq Hk (Q & HQ & ->). destruct (psi_exists (p_size p) k (scaled q h (p_mat p))) as [P' HP'].
  exists P'. split; [exact HP'|]. intros i Hi. assert (G := fits_q p S T x h q HF Hq).
  destruct HF as (HM & HST & Hx & _).
  apply (contour_error_similar (p_cfg p) (p_size p) S T (scaled q h (p_mat p)) Q x k P' i); try assumption. lra.
Qed.

(** ** C36 and C37 for matrix operators *)

(** If the coefficients are computed, ETD4 and ETD34 are Krogstad's method with [exp(hL)],
    [exp(hL/2)] and with matrices that differ from [psi_k(q h L)] by at most [merr]. *)
Theorem C36_matrix_operators :
  forall (W : Type) (p : problem Cops W) (N : vec Cops -> vec Cops) (h : R) S T x,
    inv_ok p -> exp_series p -> fits p S T x h -> fst (cs_uc p ETD4n h (cs_k0 Cops ETD4n)) = inr tt ->
    exists E12 E1 P1h P2h P1 P2 P3,
      is_psi (p_size p) 0 (scaled (1/2) h (p_mat p)) E12 /\ is_psi (p_size p) 0 (scaled 1 h (p_mat p)) E1 /\
      near_psi p S T x 1 (1/2) h P1h /\ near_psi p S T x 2 (1/2) h P2h /\
      near_psi p S T x 1 1 h P1 /\ near_psi p S T x 2 1 h P2 /\ near_psi p S T x 3 1 h P3 /\
      forall u : vec Cops,
      let d := mdot (p_size p) in
      let m := krogstad (d E12) (d E1) (d P1h) (oscal (1/2) (d P2h)) (d P1) (oscal (1/2) (d P2)) (oscal (1/6) (d P3)) in
      let e := krogstad_embedded (d E12) (d E1) (d P1h) (oscal (1/2) (d P2h)) (d P1) (oscal (1/2) (d P2)) (oscal (1/6) (d P3)) in
      cs_Phi p N ETD4n h u = erk_step m N h u /\
      as_Phi p N ETD34n h u = (erk_step m N h u, fun i => (erk_step m N h u i - erk_step e N h u i)%C).
Proof.
  intros W p N h S T x HI HE HF Hc. destruct (inr_of _ Hc) as [c Hc2].
  destruct (etd4n_stored W p HI h _ c Hc2) as (E1 & E12 & P1h & P2h & P1 & P2 & P3 & HE1 & HE12 & K1 & K2 & K3 & K4 & K5 & Hok).
  exists E12, E1, P1h, P2h, P1, P2, P3. split; [exact (HE _ _ HE12)|]. split; [exact (HE _ _ HE1)|].
  split; [apply C45_accuracy; [exact HF|lra|lia|exact K1]|].
  split; [apply C45_accuracy; [exact HF|lra|lia|exact K2]|].
  split; [apply C45_accuracy; [exact HF|lra|lia|exact K3]|].
  split; [apply C45_accuracy; [exact HF|lra|lia|exact K4]|].
  split; [apply C45_accuracy; [exact HF|lra|lia|exact K5]|].
  intros u. destruct (etd4n_steps p N h u c _ _ _ _ _ _ _ Hc2 Hok) as [G1 G2]. split; [exact G1|exact G2].
Qed.

Theorem C37_matrix_operators :
  forall (W : Type) (p : problem Cops W) (N : vec Cops -> vec Cops) (h : R) S T x,
    inv_ok p -> exp_series p -> fits p S T x h -> fst (cs_uc p ETD5n h (cs_k0 Cops ETD5n)) = inr tt ->
    exists E14 E12 E34 E1 P1q P2q P1h P2h P1t P2t P1 P2 P3,
      is_psi (p_size p) 0 (scaled (1/4) h (p_mat p)) E14 /\ is_psi (p_size p) 0 (scaled (1/2) h (p_mat p)) E12 /\
      is_psi (p_size p) 0 (scaled (3/4) h (p_mat p)) E34 /\ is_psi (p_size p) 0 (scaled 1 h (p_mat p)) E1 /\
      near_psi p S T x 1 (1/4) h P1q /\ near_psi p S T x 2 (1/4) h P2q /\
      near_psi p S T x 1 (1/2) h P1h /\ near_psi p S T x 2 (1/2) h P2h /\
      near_psi p S T x 1 (3/4) h P1t /\ near_psi p S T x 2 (3/4) h P2t /\
      near_psi p S T x 1 1 h P1 /\ near_psi p S T x 2 1 h P2 /\ near_psi p S T x 3 1 h P3 /\
      forall u : vec Cops,
      let d := mdot (p_size p) in
      let m := etd5_method (d E14) (d E12) (d E34) (d E1) (d P1q) (oscal (1/2) (d P2q)) (d P1h) (oscal (1/2) (d P2h))
                 (d P1t) (oscal (1/2) (d P2t)) (d P1) (oscal (1/2) (d P2)) (oscal (1/6) (d P3)) in
      let e := etd5_embedded (d E14) (d E12) (d E34) (d E1) (d P1q) (oscal (1/2) (d P2q)) (d P1h) (oscal (1/2) (d P2h))
                 (d P1t) (oscal (1/2) (d P2t)) (d P1) (oscal (1/2) (d P2)) (oscal (1/6) (d P3)) in
      cs_Phi p N ETD5n h u = erk_step m N h u /\
      as_Phi p N ETD35n h u = (erk_step m N h u, fun i => (erk_step m N h u i - erk_step e N h u i)%C).
Proof.
  intros W p N h S T x HI HE HF Hc. destruct (inr_of _ Hc) as [c Hc2].
  destruct (etd5n_stored W p HI h _ c Hc2) as (E14 & E12 & E34 & E1 & P1q & P2q & P1h & P2h & P1t & P2t & P1 & P2 & P3
    & HE14 & HE12 & HE34 & HE1 & K1 & K2 & K3 & K4 & K5 & K6 & K7 & K8 & K9 & Hok).
  exists E14, E12, E34, E1, P1q, P2q, P1h, P2h, P1t, P2t, P1, P2, P3.
  split; [exact (HE _ _ HE14)|]. split; [exact (HE _ _ HE12)|]. split; [exact (HE _ _ HE34)|]. split; [exact (HE _ _ HE1)|].
  split; [apply C45_accuracy; [exact HF|lra|lia|exact K1]|].
  split; [apply C45_accuracy; [exact HF|lra|lia|exact K2]|].
  split; [apply C45_accuracy; [exact HF|lra|lia|exact K3]|].
  split; [apply C45_accuracy; [exact HF|lra|lia|exact K4]|].
  split; [apply C45_accuracy; [exact HF|lra|lia|exact K5]|].
  split; [apply C45_accuracy; [exact HF|lra|lia|exact K6]|].
  split; [apply C45_accuracy; [exact HF|lra|lia|exact K7]|].
  split; [apply C45_accuracy; [exact HF|lra|lia|exact K8]|].
  split; [apply C45_accuracy; [exact HF|lra|lia|exact K9]|].
  intros u. destruct (etd5n_steps p N h u c _ _ _ _ _ _ _ _ _ _ _ _ _ Hc2 Hok) as [G1 G2]. split; [exact G1|exact G2].
Qed.

(** ** C38 for matrix operators *)

Definition etd_candidates_n {W} (p : problem Cops W) (N : vec Cops -> vec Cops) (h : R) (u : vec Cops) : list (vec Cops) :=
  [cs_Phi p N ETD4n h u; cs_Phi p N ETD5n h u; fst (as_Phi p N ETD34n h u); fst (as_Phi p N ETD35n h u)].

(** What the four candidates are for a constant nonlinear function, inside the contour or not. *)
Lemma candidates_n_const {W} (p : problem Cops W) (g u : vec Cops) (h : R) :
  inv_ok p -> coeffs_computed p h ->
  Forall (fun c => exists E1 P1, p_expm p (scaled 1 h (p_mat p)) = inr E1 /\ contour_of p 1 1 h P1 /\
            forall i, c i = (mdot (p_size p) E1 u i + RtoC h * mdot (p_size p) P1 g i)%C)
    (etd_candidates_n p (fun _ => g) h u).
Proof.
  intros HI [H4 H5]. destruct (inr_of _ H4) as [c4 Hc4]. destruct (inr_of _ H5) as [c5 Hc5].
  destruct (etd4n_stored W p HI h _ c4 Hc4) as (E1 & E12 & P1h & P2h & P1 & P2 & P3 & HE1 & _ & _ & _ & K3 & _ & _ & Hok4).
  destruct (etd4n_steps p (fun _ => g) h u c4 _ _ _ _ _ _ _ Hc4 Hok4) as [G1 G2].
  destruct (etd5n_stored W p HI h _ c5 Hc5) as (E14' & E12' & E34' & E1' & P1q' & P2q' & P1h' & P2h' & P1t' & P2t' & P1' & P2' & P3'
    & _ & _ & _ & HE1' & _ & _ & _ & _ & _ & _ & K7 & _ & _ & Hok5).
  destruct (etd5n_steps p (fun _ => g) h u c5 _ _ _ _ _ _ _ _ _ _ _ _ _ Hc5 Hok5) as [G3 G4].
  unfold etd_candidates_n. rewrite G1, G2, G3, G4. cbn [pair_of fst].
  repeat (apply Forall_cons || apply Forall_nil).
  - exists E1, P1. split; [exact HE1|]. split; [exact K3|]. intros i. exact (proj1 (krogstad_const _ _ _ _ _ _ _ g h u i)).
  - exists E1', P1'. split; [exact HE1'|]. split; [exact K7|]. intros i. exact (proj1 (etd5_const _ _ _ _ _ _ _ _ _ _ _ _ _ g h u i)).
  - exists E1, P1. split; [exact HE1|]. split; [exact K3|]. intros i. exact (proj1 (krogstad_const _ _ _ _ _ _ _ g h u i)).
  - exists E1', P1'. split; [exact HE1'|]. split; [exact K7|]. intros i. exact (proj1 (etd5_const _ _ _ _ _ _ _ _ _ _ _ _ _ g h u i)).
Qed.

(** The similarity undone. *)
Lemma unsim n S T a e s t : is_inv n S T -> (forall i, (i < n)%nat -> rown n (simto n S T a) i <= e) ->
  (forall i, (i < n)%nat -> rown n S i <= s) -> (forall i, (i < n)%nat -> rown n T i <= t) -> 0 <= e -> 0 <= t ->
  forall i, (i < n)%nat -> rown n a i <= s * (e * t).
Proof.
  intros [H1 H2] Ha HS HT He Ht i Hi.
  assert (E : meq n a (mprod n S (mprod n (simto n S T a) T))).
  { unfold simto. rewrite !mprod_assoc. rewrite H1, mprod_ident_r. rewrite <- mprod_assoc, H1. symmetry. apply mprod_ident_l. }
  rewrite (rown_ext n _ _ i E Hi).
  eapply Rle_trans; [apply (rown_prod n S _ i (e * t))|].
  - intros k Hk. eapply Rle_trans; [apply (rown_prod n _ T k t HT)|]. apply Rmult_le_compat_r; [exact Ht|]. apply Ha. exact Hk.
  - apply Rmult_le_compat_r; [apply Rmult_le_pos; assumption|]. apply HS. exact Hi.
Qed.
Lemma mdot_bound n a (g : cvec) i e G : rown n a i <= e -> (forall j, (j < n)%nat -> Cmod (g j) <= G) -> 0 <= G ->
  Cmod (mdot n a g i) <= e * G.
Proof.
  intros Ha Hg HG. unfold mdot. eapply Rle_trans; [apply Cmod_csum|].
  eapply Rle_trans; [apply (sumf_le n _ (fun j => G * Cmod (a i j)))|].
  - intros j Hj. rewrite Cmod_mult, Rmult_comm. apply Rmult_le_compat_r; [apply Cmod_ge_0|]. apply Hg. exact Hj.
  - rewrite sumf_mul, Rmult_comm. apply Rmult_le_compat_r; [exact HG|]. exact Ha.
Qed.
Lemma mdot_diff n a b v i : (mdot n (mminus a b) v i = mdot n a v i - mdot n b v i)%C.
Proof.
  unfold mdot, mminus. rewrite (csum_ext n _ (fun j => a i j * v j + (- RtoC 1) * (b i j * v j))%C) by (intros; ring).
  rewrite csum_plus, csum_scal. ring.
Qed.

(** Constant forcing: the four candidates are within [|h| s merr t G] of the value at [h] of the
    solution of [w' = L w + g], [w(0) = u] ([s], [t]: norms of [S], [S^-1]; [G]: norm of [g]). *)
Theorem C38_matrix_constant_forcing :
  forall (W : Type) (p : problem Cops W) (g u : vec Cops) (h : R) S T x s t G (w : R -> cvec),
    inv_ok p -> exp_series p -> fits p S T x h -> coeffs_computed p h ->
    (forall i, (i < p_size p)%nat -> rown (p_size p) S i <= s) ->
    (forall i, (i < p_size p)%nat -> rown (p_size p) T i <= t) -> 0 <= t ->
    (forall j, (j < p_size p)%nat -> Cmod (g j) <= G) -> 0 <= G ->
    (forall i, (i < p_size p)%nat -> w 0 i = u i) ->
    (forall r i, (i < p_size p)%nat -> is_Cder (fun r => w r i) r (mdot (p_size p) (p_mat p) (w r) i + g i)%C) ->
    Forall (fun c => forall i, (i < p_size p)%nat -> Cmod (c i - w h i)%C <= Rabs h * (s * (merr (p_cfg p) x * t) * G))
      (etd_candidates_n p (fun _ => g) h u).
Proof.
  intros W p g u h S T x s t G w HI HE HF HC HS HT Ht Hg HG Hw0 Hw.
  eapply Forall_impl; [|apply (candidates_n_const p g u h HI HC)]. cbn beta.
  intros c (E1 & P1 & HE1 & HP1 & Hci) i Hi. rewrite Hci.
  assert (HE1' := HE _ _ HE1).
  destruct (C45_accuracy W p S T x h 1 1 P1 HF ltac:(lra) ltac:(lia) HP1) as (P' & HP' & Hn).
  assert (ME : mtimes (RtoC h) (p_mat p) = scaled 1 h (p_mat p)).
  { unfold scaled, mtimes. rewrite Rmult_1_l. reflexivity. }
  rewrite <- ME in HE1', HP'.
  rewrite (forced_matrix (p_size p) (p_mat p) g w Hw h E1 P' i Hi HE1' HP').
  assert (EU : mdot (p_size p) E1 (w 0) i = mdot (p_size p) E1 u i).
  { unfold mdot. apply csum_ext. intros j Hj. rewrite (Hw0 j Hj). reflexivity. }
  rewrite EU.
  replace (mdot (p_size p) E1 u i + RtoC h * mdot (p_size p) P1 g i - (mdot (p_size p) E1 u i + RtoC h * mdot (p_size p) P' g i))%C
    with (RtoC h * (mdot (p_size p) P1 g i - mdot (p_size p) P' g i))%C by ring.
  rewrite Cmod_mult, Cmod_R. apply Rmult_le_compat_l; [apply Rabs_pos|]. rewrite <- mdot_diff.
  apply mdot_bound; [|exact Hg|exact HG].
  destruct HF as (HM & HST & Hx & _).
  apply (unsim (p_size p) S T); try assumption. apply merr_pos; try assumption. lra.
Qed.

(** Equilibria are kept up to the same error. *)
Theorem C38_matrix_equilibria :
  forall (W : Type) (p : problem Cops W) (g u : vec Cops) (h : R) S T x s t G,
    inv_ok p -> exp_series p -> fits p S T x h -> coeffs_computed p h ->
    (forall i, (i < p_size p)%nat -> rown (p_size p) S i <= s) ->
    (forall i, (i < p_size p)%nat -> rown (p_size p) T i <= t) -> 0 <= t ->
    (forall j, (j < p_size p)%nat -> Cmod (g j) <= G) -> 0 <= G ->
    (forall i, (i < p_size p)%nat -> (mdot (p_size p) (p_mat p) u i + g i)%C = 0) ->
    Forall (fun c => forall i, (i < p_size p)%nat -> Cmod (c i - u i)%C <= Rabs h * (s * (merr (p_cfg p) x * t) * G))
      (etd_candidates_n p (fun _ => g) h u).
Proof.
  intros W p g u h S T x s t G HI HE HF HC HS HT Ht Hg HG He.
  apply (C38_matrix_constant_forcing W p g u h S T x s t G (fun _ => u)); try assumption.
  - reflexivity.
  - intros r i Hi. rewrite (He i Hi). apply is_Cder_const.
Qed.

(** ** C46: [np.diag(d)] against [d] *)

(** Operators with the same values below [n]. *)
Section Ext.
  Variable dom : nat -> Prop.
  Definition oeq (D D' : op) : Prop := forall v v', veq dom v v' -> veq dom (D v) (D' v').
  Lemma oeq_add a a' b b' : oeq a a' -> oeq b b' -> oeq (oadd a b) (oadd a' b').
  Proof. intros Ha Hb v v' H i Hi. unfold oadd, cadd. rewrite (Ha v v' H i Hi), (Hb v v' H i Hi). reflexivity. Qed.
  Lemma oeq_scal c a a' : oeq a a' -> oeq (oscal c a) (oscal c a').
  Proof. intros Ha v v' H i Hi. unfold oscal, cscal. rewrite (Ha v v' H i Hi). reflexivity. Qed.
  Lemma oeq_sub a a' b b' : oeq a a' -> oeq b b' -> oeq (osub a b) (osub a' b').
  Proof. intros Ha Hb. apply oeq_add; [exact Ha|]. apply oeq_scal. exact Hb. Qed.
  Lemma oeq_zero : oeq ozero ozero.
  Proof. intros v v' _ i _. reflexivity. Qed.
  Lemma oeq_id : oeq (fun v => v) (fun v => v).
  Proof. intros v v' H. exact H. Qed.

  Lemma ocomb_ext row row' : Forall2 oeq row row' -> forall ns ns', Forall2 (veq dom) ns ns' -> veq dom (ocomb row ns) (ocomb row' ns').
  Proof.
    induction 1 as [|a a' row row' Ha Hr IH]; intros ns ns' Hn; [destruct Hn; reflexivity|].
    destruct Hn as [|v v' ns ns' Hv Hn]; [reflexivity|]. cbn [ocomb]. apply cadd_proper; [apply Ha, Hv|apply IH, Hn].
  Qed.
  Lemma value_ext h u u' E E' row row' ns ns' : oeq E E' -> Forall2 oeq row row' -> veq dom u u' -> Forall2 (veq dom) ns ns' ->
    veq dom (erk_value h u E row ns) (erk_value h u' E' row' ns').
  Proof. intros HE Hr Hu Hn. unfold erk_value. apply cadd_proper; [apply HE, Hu|]. apply cscal_proper. apply ocomb_ext; assumption. Qed.
  Variable N : cvec -> cvec.
  Hypothesis HN : respects dom N.
  Lemma stages_ext h u : forall Es Es', Forall2 oeq Es Es' -> forall rows rows', Forall2 (Forall2 oeq) rows rows' ->
    forall ns ns', Forall2 (veq dom) ns ns' -> Forall2 (veq dom) (erk_stages N h u Es rows ns) (erk_stages N h u Es' rows' ns').
  Proof.
    induction 1 as [|E E' Es Es' HE HEs IH]; intros rows rows' Hr ns ns' Hn; [exact Hn|].
    destruct Hr as [|row row' rows rows' Hrow Hr]; [exact Hn|]. cbn [erk_stages]. apply IH; [exact Hr|].
    apply Forall2_app; [exact Hn|]. constructor; [|constructor]. apply HN. apply value_ext; [exact HE|exact Hrow|reflexivity|exact Hn].
  Qed.
  Theorem step_ext m m' h u : Forall2 oeq (er_E m) (er_E m') -> Forall2 (Forall2 oeq) (er_a m) (er_a m') ->
    oeq (er_E1 m) (er_E1 m') -> Forall2 oeq (er_b m) (er_b m') -> veq dom (erk_step m N h u) (erk_step m' N h u).
  Proof.
    intros HE Ha H1 Hb. unfold erk_step. apply value_ext; [exact H1|exact Hb|reflexivity|]. apply stages_ext; [exact HE|exact Ha|constructor].
  Qed.
End Ext.
Ltac ops := repeat match goal with
  | |- Forall2 _ [] [] => constructor
  | |- Forall2 _ (_ :: _) (_ :: _) => constructor
  | |- oeq _ (oadd _ _) _ => apply oeq_add
  | |- oeq _ (osub _ _) _ => apply oeq_sub
  | |- oeq _ (oscal _ _) (oscal _ _) => apply oeq_scal
  | |- oeq _ ozero _ => apply oeq_zero
  | |- oeq _ (fun v => v) _ => apply oeq_id
  | H : oeq ?d ?a ?b |- oeq ?d ?a ?b => exact H
  end.
Section ExtMethods.
  Variable dom : nat -> Prop.
  Variable N : cvec -> cvec.
  Hypothesis HN : respects dom N.
  Lemma krogstad_ext E12 E1 f1h f2h f1 f2 f3 E12' E1' f1h' f2h' f1' f2' f3' h u :
    oeq dom E12 E12' -> oeq dom E1 E1' -> oeq dom f1h f1h' -> oeq dom f2h f2h' -> oeq dom f1 f1' -> oeq dom f2 f2' -> oeq dom f3 f3' ->
    veq dom (erk_step (krogstad E12 E1 f1h f2h f1 f2 f3) N h u) (erk_step (krogstad E12' E1' f1h' f2h' f1' f2' f3') N h u) /\
    veq dom (erk_step (krogstad_embedded E12 E1 f1h f2h f1 f2 f3) N h u) (erk_step (krogstad_embedded E12' E1' f1h' f2h' f1' f2' f3') N h u).
  Proof.
    intros. split; apply step_ext; try exact HN;
      cbn [krogstad krogstad_embedded er_E er_a er_E1 er_b app firstn]; ops.
  Qed.
  Lemma etd5_ext E14 E12 E34 E1 f1q f2q f1h f2h f1t f2t f1 f2 f3 E14' E12' E34' E1' f1q' f2q' f1h' f2h' f1t' f2t' f1' f2' f3' h u :
    oeq dom E14 E14' -> oeq dom E12 E12' -> oeq dom E34 E34' -> oeq dom E1 E1' -> oeq dom f1q f1q' -> oeq dom f2q f2q' ->
    oeq dom f1h f1h' -> oeq dom f2h f2h' -> oeq dom f1t f1t' -> oeq dom f2t f2t' -> oeq dom f1 f1' -> oeq dom f2 f2' -> oeq dom f3 f3' ->
    veq dom (erk_step (etd5_method E14 E12 E34 E1 f1q f2q f1h f2h f1t f2t f1 f2 f3) N h u)
            (erk_step (etd5_method E14' E12' E34' E1' f1q' f2q' f1h' f2h' f1t' f2t' f1' f2' f3') N h u) /\
    veq dom (erk_step (etd5_embedded E14 E12 E34 E1 f1q f2q f1h f2h f1t f2t f1 f2 f3) N h u)
            (erk_step (etd5_embedded E14' E12' E34' E1' f1q' f2q' f1h' f2h' f1t' f2t' f1' f2' f3') N h u).
  Proof.
    intros. split; apply step_ext; try exact HN; unfold etd5_embedded;
      cbn [etd5_method er_E er_a er_E1 er_b nth]; ops.
  Qed.
End ExtMethods.

(** What the contour sum of the matrix code is on a diagonal matrix. *)
Definition mph (cfg : etdcfg Rops) (r : nat) (q : R) (z : C) : C :=
  (RtoC (/ INR (fact r)) * cscalar cfg (psi_code r) (RtoC q * z))%C.

Lemma is_inv_ext n m m' q : meq n m m' -> is_inv n m q -> is_inv n m' q.
Proof.
  intros E [H1 H2]. split.
  - transitivity (mprod n m q); [apply mprod_proper; [symmetry; exact E|reflexivity]|exact H1].
  - transitivity (mprod n q m); [apply mprod_proper; [reflexivity|symmetry; exact E]|exact H2].
Qed.
Lemma psi_ext n k z z' P P' : meq n z z' -> meq n P P' -> is_psi n k z P -> is_psi n k z' P'.
Proof.
  intros E EP H i j Hi Hj eps He. destruct (H i j Hi Hj eps He) as [K HK]. exists K. intros m Hm. specialize (HK m Hm).
  rewrite <- (EP i j Hi Hj).
  replace (psum n k z' m i j) with (psum n k z m i j); [exact HK|].
  unfold psum, mpoly. apply csum_ext. intros l _. rewrite (mpow_ext n z z' l E i j Hi Hj). reflexivity.
Qed.
Lemma scaled_diag n q h d : meq n (scaled q h (diagm d)) (diagm (fun i => RtoC q * (RtoC h * d i))%C).
Proof. intros i j _ _. unfold scaled, diagm. destruct (Nat.eqb i j); rewrite RtoC_mult; ring. Qed.

Section Diag.
  Variable W : Type.
  Variable p : problem Cops W.
  Notation n := (p_size p).
  Notation d := (p_vec p).
  Hypothesis Hd : p_mat p = diagm d.
  Notation dom := (fun i => (i < n)%nat).

  Lemma mdot_diagm P (f : nat -> C) : meq n P (diagm f) -> oeq dom (mdot n P) (fun v i => (f i * v i)%C).
  Proof.
    intros H v v' Hv i Hi. unfold mdot. rewrite (csum_ext n _ (fun j => (diagm f i j * v' j)%C)).
    - rewrite (csum_single n i _ Hi); [unfold diagm; rewrite Nat.eqb_refl; reflexivity|].
      intros j _ Hj. unfold diagm. destruct (Nat.eqb_spec i j); [congruence|]. ring.
    - intros j Hj. rewrite (H i j Hi Hj), (Hv j Hj). reflexivity.
  Qed.
  Lemma contour_diag r q h P : contour_of p r q h P ->
    meq n P (diagm (fun i => cscalar (p_cfg p) (psi_code r) (RtoC q * (RtoC h * d i)))%C).
  Proof.
    intros (Q & HQ & ->). apply diagm_contour. intros l Hl. eapply is_inv_ext; [|apply (HQ l Hl)].
    unfold shift. apply mminus_proper; [reflexivity|]. rewrite Hd. apply scaled_diag.
  Qed.
  Lemma op_diag1 q h P : contour_of p 1 q h P -> oeq dom (mdot n P) (dfun h d (mph (p_cfg p) 1 q)).
  Proof.
    intros H v v' Hv i Hi. rewrite (mdot_diagm P _ (contour_diag 1 q h P H) v v' Hv i Hi). unfold dfun, mph.
    rewrite fact1. rewrite Rinv_1. ring.
  Qed.
  Lemma op_diag r q h P c : c = / INR (fact r) -> contour_of p r q h P -> oeq dom (oscal c (mdot n P)) (dfun h d (mph (p_cfg p) r q)).
  Proof.
    intros -> H v v' Hv i Hi. unfold oscal, cscal. rewrite (mdot_diagm P _ (contour_diag r q h P H) v v' Hv i Hi). unfold dfun, mph. ring.
  Qed.
  Lemma op_exp q h E : exp_series p -> p_expm p (scaled q h (p_mat p)) = inr E -> oeq dom (mdot n E) (dE h d q).
  Proof.
    intros HE H. apply HE in H. rewrite Hd in H.
    assert (G : is_psi n 0 (scaled q h (diagm d)) (diagm (fun i => psi_exact 0 (RtoC q * (RtoC h * d i))%C))).
    { eapply psi_ext; [symmetry; apply scaled_diag|reflexivity|apply diagm_psi]. }
    assert (E2 := psi_unique _ _ _ _ _ H G). intros v v' Hv i Hi. rewrite (mdot_diagm E _ E2 v v' Hv i Hi).
    unfold dE, dfun, psi_exact. cbn [fact INR]. cbn [phi]. ring.
  Qed.
End Diag.

(** The two codes run the same methods; the functions they use differ by at most the sum of the
    two quadrature errors at every [|z| <= x < R]. *)
Definition d_method4 (h : R) (d : cvec) (f : nat -> R -> C -> C) : erk :=
  krogstad (dE h d (1/2)) (dE h d 1) (dfun h d (f 1%nat (1/2))) (dfun h d (f 2%nat (1/2)))
    (dfun h d (f 1%nat 1)) (dfun h d (f 2%nat 1)) (dfun h d (f 3%nat 1)).
Definition d_method4e (h : R) (d : cvec) (f : nat -> R -> C -> C) : erk :=
  krogstad_embedded (dE h d (1/2)) (dE h d 1) (dfun h d (f 1%nat (1/2))) (dfun h d (f 2%nat (1/2)))
    (dfun h d (f 1%nat 1)) (dfun h d (f 2%nat 1)) (dfun h d (f 3%nat 1)).
Definition d_method5 (h : R) (d : cvec) (f : nat -> R -> C -> C) : erk :=
  etd5_method (dE h d (1/4)) (dE h d (1/2)) (dE h d (3/4)) (dE h d 1) (dfun h d (f 1%nat (1/4))) (dfun h d (f 2%nat (1/4)))
    (dfun h d (f 1%nat (1/2))) (dfun h d (f 2%nat (1/2))) (dfun h d (f 1%nat (3/4))) (dfun h d (f 2%nat (3/4)))
    (dfun h d (f 1%nat 1)) (dfun h d (f 2%nat 1)) (dfun h d (f 3%nat 1)).
Definition d_method5e (h : R) (d : cvec) (f : nat -> R -> C -> C) : erk :=
  etd5_embedded (dE h d (1/4)) (dE h d (1/2)) (dE h d (3/4)) (dE h d 1) (dfun h d (f 1%nat (1/4))) (dfun h d (f 2%nat (1/4)))
    (dfun h d (f 1%nat (1/2))) (dfun h d (f 2%nat (1/2))) (dfun h d (f 1%nat (3/4))) (dfun h d (f 2%nat (3/4)))
    (dfun h d (f 1%nat 1)) (dfun h d (f 2%nat 1)) (dfun h d (f 3%nat 1)).
Definition runs_method (n : nat) (N : cvec -> cvec) (m e : erk) (h : R) (u : cvec) (c : cvec) (ce : cvec * cvec) : Prop :=
  forall i, (i < n)%nat -> c i = erk_step m N h u i /\ fst ce i = erk_step m N h u i /\
                           snd ce i = (erk_step m N h u i - erk_step e N h u i)%C.

Lemma mph_error (cfg : etdcfg Rops) x r q z : (0 < contour_points cfg)%nat -> 0 <= x < contour_radius cfg ->
  (1 <= r <= 3)%nat -> 0 < q <= 1 -> Cmod z <= x ->
  Cmod (mph cfg r q z - phi r (RtoC q * z))%C <= merr cfg x / INR (fact r).
Proof.
  intros HM Hx Hr Hq Hz. unfold mph.
  assert (F := INR_fact_lt_0 r).
  replace (phi r (RtoC q * z))%C with (RtoC (/ INR (fact r)) * psi_exact r (RtoC q * z))%C.
  2: { unfold psi_exact. rewrite Cmult_assoc, <- RtoC_mult, Rinv_l by lra. ring. }
  replace (RtoC (/ INR (fact r)) * cscalar cfg (psi_code r) (RtoC q * z) - RtoC (/ INR (fact r)) * psi_exact r (RtoC q * z))%C
    with (RtoC (/ INR (fact r)) * (cscalar cfg (psi_code r) (RtoC q * z) - psi_exact r (RtoC q * z)))%C by ring.
  rewrite Cmod_mult, Cmod_R, Rabs_pos_eq by (left; apply Rinv_0_lt_compat; exact F).
  unfold Rdiv. rewrite Rmult_comm. apply Rmult_le_compat_r; [left; apply Rinv_0_lt_compat; exact F|].
  assert (Z := Cmod_ge_0 z).
  assert (QZ : Cmod (RtoC q * z)%C <= x).
  { rewrite Cmod_mult, Cmod_R, Rabs_pos_eq by lra. apply Rle_trans with (1 * Cmod z); [apply Rmult_le_compat_r|]; lra. }
  apply scalar_error; [exact HM|lra| |lra|exact Hr].
  intros l Hl E. assert (G := Cmod_rho cfg HM l). rewrite <- E, (Rabs_pos_eq (contour_radius cfg)) in G by lra. lra.
Qed.

Theorem C46_same_method :
  forall (W : Type) (p : problem Cops W) (N : vec Cops -> vec Cops) (x : R),
    let cfg := p_cfg p in
    p_mat p = diagm (p_vec p) -> inv_ok p -> exp_series p -> respects (fun i => (i < p_size p)%nat) N ->
    0 < modecutoff cfg <= contour_radius cfg -> (0 < contour_points cfg)%nat -> 0 <= x < contour_radius cfg ->
    exists f g : nat -> R -> C -> C,
      (forall r q z, (1 <= r <= 3)%nat -> 0 < q <= 1 -> Cmod z <= x ->
         Cmod (f r q z - g r q z)%C <=
         (exp (x + contour_radius cfg) * contour_radius cfg ^ contour_points cfg / INR (fact (contour_points cfg)) + merr cfg x)
           / INR (fact r)) /\
      forall h u, coeffs_computed p h ->
        runs_method (p_size p) N (d_method4 h (p_vec p) f) (d_method4e h (p_vec p) f) h u (cs_Phi p N ETD4d h u) (as_Phi p N ETD34d h u) /\
        runs_method (p_size p) N (d_method4 h (p_vec p) g) (d_method4e h (p_vec p) g) h u (cs_Phi p N ETD4n h u) (as_Phi p N ETD34n h u) /\
        runs_method (p_size p) N (d_method5 h (p_vec p) f) (d_method5e h (p_vec p) f) h u (cs_Phi p N ETD5d h u) (as_Phi p N ETD35d h u) /\
        runs_method (p_size p) N (d_method5 h (p_vec p) g) (d_method5e h (p_vec p) g) h u (cs_Phi p N ETD5n h u) (as_Phi p N ETD35n h u).
Proof.
  intros W p N x cfg Hd HI HE HN [H0 HR] HM Hx. exists (ph cfg), (mph cfg). split.
  - intros r q z Hr Hq Hz. assert (F := INR_fact_lt_0 r).
    replace (ph cfg r q z - mph cfg r q z)%C
      with ((ph cfg r q z - phi r (RtoC q * z)) + - (mph cfg r q z - phi r (RtoC q * z)))%C by ring.
    eapply Rle_trans; [apply Cmod_triangle|]. rewrite Cmod_opp. unfold Rdiv at 1. rewrite Rmult_plus_distr_r.
    apply Rplus_le_compat.
    + eapply Rle_trans; [apply (ph_error cfg H0 HM HR r q z Hr Hq)|]. unfold quad_err, Rdiv. unfold Rdiv.
      repeat apply Rmult_le_compat_r; try (left; apply Rinv_0_lt_compat, INR_fact_lt_0); [apply pow_le; lra|].
      destruct (Req_dec (Cmod z) x) as [->|]; [lra|]. left. apply exp_increasing. lra.
    + apply mph_error; assumption.
  - intros h u [H4 H5]. destruct (inr_of _ H4) as [c4 Hc4]. destruct (inr_of _ H5) as [c5 Hc5].
    assert (G2 : forall r : nat, r = 2%nat -> 1/2 = / INR (fact r)) by (intros r ->; rewrite fact2; lra).
    assert (G3 : forall r : nat, r = 3%nat -> 1/6 = / INR (fact r)) by (intros r ->; rewrite fact3; lra).
    destruct (etd4n_stored W p HI h _ c4 Hc4) as (E1 & E12 & P1h & P2h & P1 & P2 & P3 & HE1 & HE12 & K1 & K2 & K3 & K4 & K5 & Hok).
    destruct (etd4n_steps p N h u c4 _ _ _ _ _ _ _ Hc4 Hok) as [S1 S2].
    destruct (etd5n_stored W p HI h _ c5 Hc5) as (F14 & F12 & F34 & F1 & P1q' & P2q' & P1h' & P2h' & P1t' & P2t' & P1' & P2' & P3'
      & HF14 & HF12 & HF34 & HF1 & J1 & J2 & J3 & J4 & J5 & J6 & J7 & J8 & J9 & Hok5).
    destruct (etd5n_steps p N h u c5 _ _ _ _ _ _ _ _ _ _ _ _ _ Hc5 Hok5) as [S3 S4].
    destruct (krogstad_ext _ N HN _ _ _ _ _ _ _ _ _ _ _ _ _ _ h u
      (op_exp W p Hd _ h _ HE HE12) (op_exp W p Hd _ h _ HE HE1) (op_diag1 W p Hd _ h _ K1) (op_diag W p Hd 2 _ h _ _ (G2 _ eq_refl) K2)
      (op_diag1 W p Hd _ h _ K3) (op_diag W p Hd 2 _ h _ _ (G2 _ eq_refl) K4) (op_diag W p Hd 3 _ h _ _ (G3 _ eq_refl) K5)) as [X1 X2].
    destruct (etd5_ext _ N HN _ _ _ _ _ _ _ _ _ _ _ _ _ _ _ _ _ _ _ _ _ _ _ _ _ _ h u
      (op_exp W p Hd _ h _ HE HF14) (op_exp W p Hd _ h _ HE HF12) (op_exp W p Hd _ h _ HE HF34) (op_exp W p Hd _ h _ HE HF1)
      (op_diag1 W p Hd _ h _ J1) (op_diag W p Hd 2 _ h _ _ (G2 _ eq_refl) J2)
      (op_diag1 W p Hd _ h _ J3) (op_diag W p Hd 2 _ h _ _ (G2 _ eq_refl) J4)
      (op_diag1 W p Hd _ h _ J5) (op_diag W p Hd 2 _ h _ _ (G2 _ eq_refl) J6)
      (op_diag1 W p Hd _ h _ J7) (op_diag W p Hd 2 _ h _ _ (G2 _ eq_refl) J8) (op_diag W p Hd 3 _ h _ _ (G3 _ eq_refl) J9)) as [X3 X4].
    split; [|split; [|split]]; intros i Hi.
    + rewrite etd4d_erk, etd34d_erk. repeat split.
    + rewrite S1, S2. cbn [pair_of fst snd]. rewrite (X1 i Hi), (X2 i Hi). repeat split.
    + rewrite etd5d_erk, etd35d_erk. repeat split.
    + rewrite S3, S4. cbn [pair_of fst snd]. rewrite (X3 i Hi), (X4 i Hi). repeat split.
Qed.

(** *** Outside the contour *)

Lemma etd4_contour_runs cfg iv (z : mat Cops) : forall ns p0,
  Forall (fun pt => (exists Q, iv (shift pt z) = inr Q) /\ (exists Q, iv (shift pt (mdivz (A := Cops) z 2)) = inr Q)) ns ->
  exists p, etd4_contour Rops Cops cfg iv z ns p0 = inr p.
Proof.
  induction ns as [|pt ns IH]; intros p0 H; [eexists; reflexivity|].
  inversion H as [|? ? [[Q1 H1] [Q2 H2]] Hn]; subst. cbn [etd4_contour].
  change (msub (A := Cops) (mscale (A := Cops) pt (eye Cops)) z) with (shift pt z).
  change (msub (A := Cops) (mscale (A := Cops) pt (eye Cops)) (mdivz (A := Cops) z 2)) with (shift pt (mdivz (A := Cops) z 2)).
  rewrite H1, H2. apply IH. exact Hn.
Qed.
Lemma etd5_contour_runs cfg iv (z : mat Cops) : forall ns p0,
  Forall (fun pt => (exists Q, iv (shift pt z) = inr Q) /\ (exists Q, iv (shift pt (mdivz (A := Cops) z 4)) = inr Q) /\
                    (exists Q, iv (shift pt (mdivz (A := Cops) z 2)) = inr Q) /\
                    (exists Q, iv (shift pt (mdivz (A := Cops) (mscalz (A := Cops) 3 z) 4)) = inr Q)) ns ->
  exists p, etd5_contour Rops Cops cfg iv z ns p0 = inr p.
Proof.
  induction ns as [|pt ns IH]; intros p0 H; [eexists; reflexivity|].
  inversion H as [|? ? ([Q1 H1] & [Q2 H2] & [Q3 H3] & [Q4 H4]) Hn]; subst. cbn [etd5_contour].
  change (msub (A := Cops) (mscale (A := Cops) pt (eye Cops)) z) with (shift pt z).
  change (msub (A := Cops) (mscale (A := Cops) pt (eye Cops)) (mdivz (A := Cops) z 4)) with (shift pt (mdivz (A := Cops) z 4)).
  change (msub (A := Cops) (mscale (A := Cops) pt (eye Cops)) (mdivz (A := Cops) z 2)) with (shift pt (mdivz (A := Cops) z 2)).
  change (msub (A := Cops) (mscale (A := Cops) pt (eye Cops)) (mdivz (A := Cops) (mscalz (A := Cops) 3 z) 4)) with (shift pt (mdivz (A := Cops) (mscalz (A := Cops) 3 z) 4)).
  rewrite H1, H2, H3, H4. apply IH. exact Hn.
Qed.

(** If no eigenvalue of [hL/4], [hL/2], [3hL/4], [hL] lies on a node, the coefficients are computed. *)
Lemma coeffs_run {W} (p : problem Cops W) (h : R) :
  (forall m, exists e, p_expm p m = inr e) ->
  (forall l q, (l < contour_points (p_cfg p))%nat -> q = 1/4 \/ q = 1/2 \/ q = 3/4 \/ q = 1 ->
     exists Q, p_inv p (shift (rho (p_cfg p) l) (scaled q h (p_mat p))) = inr Q) ->
  coeffs_computed p h.
Proof.
  intros He Hi.
  assert (Hq : mdivz (A := Cops) (mscal (A := Cops) h (p_mat p)) 4 = scaled (1/4) h (p_mat p)).
  { rewrite scaled_div. f_equal. lra. }
  assert (Hh : mdivz (A := Cops) (mscal (A := Cops) h (p_mat p)) 2 = scaled (1/2) h (p_mat p)).
  { rewrite scaled_div. f_equal. lra. }
  assert (HF : forall P : C -> Prop, (forall l, (l < contour_points (p_cfg p))%nat -> P (rho (p_cfg p) l)) -> Forall P (nodes Cops (p_cfg p))).
  { intros P HP. unfold nodes. apply Forall_forall. intros x Hx. apply in_map_iff in Hx. destruct Hx as (l & <- & Hl).
    apply in_seq in Hl. apply HP. lia. }
  split; cbn [cs_uc].
  - unfold etd4n_coeffs. cbv zeta. rewrite Hh.
    destruct (He (mscal (A := Cops) h (p_mat p))) as [E ->]. destruct (He (scaled (1/2) h (p_mat p))) as [E' ->].
    match goal with |- context [etd4_contour Rops Cops ?c ?iv ?z ?ns ?p0] =>
      destruct (etd4_contour_runs c iv z ns p0) as [r Hr] end.
    { apply HF. intros l Hl. rewrite Hh, scaled_1. split; apply Hi; auto. }
    rewrite Hr. destruct r. reflexivity.
  - unfold etd5n_coeffs. cbv zeta. rewrite Hh, Hq, scaled_34.
    destruct (He (scaled (1/4) h (p_mat p))) as [E1 ->]. destruct (He (scaled (1/2) h (p_mat p))) as [E2 ->].
    destruct (He (scaled (3/4) h (p_mat p))) as [E3 ->]. destruct (He (mscal (A := Cops) h (p_mat p))) as [E4 ->].
    match goal with |- context [etd5_contour Rops Cops ?c ?iv ?z ?ns ?p0] =>
      destruct (etd5_contour_runs c iv z ns p0) as [r Hr] end.
    { apply HF. intros l Hl. rewrite Hh, Hq, scaled_34, scaled_1. repeat split; apply Hi; auto. }
    rewrite Hr. destruct r. reflexivity.
Qed.

Lemma inr_same {A B} (a b : B) : @inr A B a = inr b -> a = b.
Proof. intros H. injection H. auto. Qed.

(** One equation: [v' = L v + 1] with the default configuration, [L] given as 1x1 matrix and as
    vector. *)
Definition inv1 (m : mat Cops) : exn + mat Cops :=
  if Ceq_dec (m O O) 0 then inl LinAlgError else inr (fun _ _ => / m O O)%C.
Definition single (L : C) : problem Cops unit :=
  mk_problem (pure_nl (fun _ : vec Cops => const_vec 1)) 1 (fun _ => L) (diagm (fun _ => L)) default_etdcfg
    (fun m => inr (fun i j => Cexp (m i j))) inv1 (eye Cops) (eye Cops) (fun _ => L).

Lemma single_inv_ok L : inv_ok (single L).
Proof.
  intros m q H. cbn [p_inv single p_size] in *. unfold inv1 in H. destruct (Ceq_dec (m O O) 0) as [|NZ]; [discriminate|].
  apply inr_same in H. subst q.
  split; intros i j Hi Hj; assert (i = O) by lia; assert (j = O) by lia; subst; unfold mprod, mident; cbn [csum Nat.eqb]; ceq; field; exact NZ.
Qed.
Lemma single_exp L : exp_series (single L).
Proof.
  intros m e H. cbn [p_expm single p_size] in *. apply inr_same in H. subst e.
  apply (psi_ext 1 0 (diagm (fun _ => m O O)) m (diagm (fun _ => psi_exact 0 (m O O)))).
  - intros i j Hi Hj. assert (i = O) by lia. assert (j = O) by lia. subst. reflexivity.
  - intros i j Hi Hj. assert (i = O) by lia. assert (j = O) by lia. subst. unfold diagm, psi_exact. cbn [Nat.eqb fact INR phi]. ceq. ring.
  - apply diagm_psi.
Qed.
Lemma single_runs L h : (forall q, 1/4 <= q <= 1 -> q * Rabs h * Cmod L <> 1) \/ Rabs h * Cmod L < 1 \/ 4 < Rabs h * Cmod L ->
  coeffs_computed (single L) h.
Proof.
  intros HL. apply coeffs_run.
  - intros m. eexists. reflexivity.
  - intros l q Hl Hq. cbn [p_inv single]. unfold inv1. 
    destruct (Ceq_dec _ 0) as [E|]; [exfalso|eexists; reflexivity].
    cbn [p_mat p_cfg single] in E. unfold shift, mminus, mtimes, mident, scaled, diagm in E. cbn [Nat.eqb] in E.
    assert (E2 : rho default_etdcfg l = (RtoC (q * h) * L)%C).
    { replace (rho default_etdcfg l) with ((rho default_etdcfg l * RtoC 1 - RtoC (q * h) * L) + RtoC (q * h) * L)%C by ring.
      rewrite E. ring. }
    apply (f_equal Cmod) in E2. rewrite Cmod_rho, Cmod_mult, Cmod_R, Rabs_mult in E2 by (cbn; lia).
    cbn [contour_radius default_etdcfg] in E2. rewrite Rabs_R1 in E2.
    assert (Q : 1/4 <= q <= 1) by (destruct Hq as [->|[->|[->| ->]]]; lra).
    rewrite (Rabs_pos_eq q) in E2 by lra.
    destruct HL as [HL|HL]; [apply (HL q Q); lra|].
    assert (P : 0 <= Rabs h * Cmod L) by (apply Rmult_le_pos; [apply Rabs_pos|apply Cmod_ge_0]).
    rewrite Rmult_assoc in E2. destruct HL as [HL|HL]; nra.
Qed.

Lemma exp10_le : exp 10 <= 59049.
Proof.
  replace 10 with (1 + (1 + (1 + (1 + (1 + (1 + (1 + (1 + (1 + 1))))))))) by ring. rewrite !exp_plus.
  assert (E := exp_le_3). assert (P := exp_pos 1). set (a := exp 1) in *. clearbody a.
  assert (A2 : 0 <= a * a <= 9) by nra. assert (A4 : 0 <= (a * a) * (a * a) <= 81) by nra.
  assert (A8 : 0 <= ((a * a) * (a * a)) * ((a * a) * (a * a)) <= 6561) by nra.
  replace (a * (a * (a * (a * (a * (a * (a * (a * (a * a)))))))))  with ((((a * a) * (a * a)) * ((a * a) * (a * a))) * (a * a)) by ring.
  nra.
Qed.
Lemma contour_at_ten : Cmod (cscalar default_etdcfg (psi_code 1) (RtoC (-10))) <= 1/100.
Proof.
  set (cfg := default_etdcfg).
  assert (HM : (0 < contour_points cfg)%nat) by (cbn; lia). assert (HR : 0 < contour_radius cfg) by (cbn; lra).
  assert (Hw : forall l, (l < contour_points cfg)%nat -> RtoC (-10) <> rho cfg l).
  { intros l Hl E. apply (f_equal Cmod) in E. rewrite Cmod_rho, Cmod_R in E by exact HM. cbn [contour_radius cfg default_etdcfg] in E.
    rewrite Rabs_R1, Rabs_left in E by lra. lra. }
  assert (I := scalar_identity cfg HM (RtoC (-10)) Hw (psi_code 1)).
  assert (D : (cpow (RtoC (contour_radius cfg)) (contour_points cfg) + cpow (RtoC (-10)) (contour_points cfg))%C = RtoC (1 + 10 ^ 32)).
  { cbn [cfg default_etdcfg contour_radius contour_points]. 
    assert (P : forall (a : R) k, cpow (RtoC a) k = RtoC (a ^ k)) by (intros a; induction k as [|k IH]; cbn [cpow pow]; [reflexivity|rewrite IH, RtoC_mult; ring]).
    rewrite !P, <- RtoC_plus, pow1. do 2 f_equal. replace (-10) with (-1 * 10) by ring. rewrite Rpow_mult_distr.
    replace ((-1) ^ 32) with 1; [ring|]. change 32%nat with (2 * 16)%nat. rewrite pow_mult. replace ((-1) ^ 2) with 1 by ring. symmetry. apply pow1. }
  rewrite D in I. apply (f_equal Cmod) in I. rewrite Cmod_mult, Cmod_R in I.
  assert (T : 0 < 10 ^ 32) by (apply pow_lt; lra). rewrite Rabs_pos_eq in I by lra.
  set (c := Cmod (cscalar cfg (psi_code 1) (RtoC (-10)))) in *.
  assert (B : Cmod (csum (contour_points cfg) (fun k => dcoef cfg (psi_code 1) k * cpow (RtoC (-10)) k)%C)
              <= sumf 32 (fun k => / INR (fact k) * 10 ^ k) + sumf 32 (fun k => rembound cfg * 10 ^ 32)).
  { eapply Rle_trans; [apply Cmod_csum|]. rewrite <- sumf_add. apply sumf_le. intros k Hk.
    rewrite (dcoef_psi cfg HM 1 k Hk), Cmod_mult, Cmod_cpow, Cmod_R.
    replace (Rabs (-10)) with 10 by (rewrite Rabs_left; lra).
    assert (Pk : 0 <= 10 ^ k) by (apply pow_le; lra).
    assert (Lk : 10 ^ k <= 10 ^ 32) by (apply Rle_pow; [lra|cbn in Hk; lia]).
    assert (RB := rembound_pos cfg HR).
    assert (B1 : Cmod (dcoef cfg (prem cfg 1) k) <= rembound cfg).
    { eapply Rle_trans; [apply (dcoef_bound cfg HM (prem cfg 1) k (rembound cfg)); [cbn in Hk |- *; lia|]|].
      - intros l Hl. apply prem_bound; try assumption. lia.
      - cbn [cfg default_etdcfg contour_radius]. rewrite Rabs_R1, pow1, Rmult_1_r. lra. }
    assert (B2 : Cmod (cpow (RtoC (contour_radius cfg)) (contour_points cfg) * RtoC (pcoef 1 k))%C <= / INR (fact k)).
    { rewrite Cmod_mult, Cmod_cpow, !Cmod_R. cbn [cfg default_etdcfg contour_radius contour_points]. rewrite Rabs_R1, pow1, Rmult_1_l.
      rewrite Rabs_pos_eq; [apply pcoef_le|]. unfold pcoef. apply Rmult_le_pos; [apply pos_INR|left; apply Rinv_0_lt_compat, INR_fact_lt_0]. }
    eapply Rle_trans; [apply Rmult_le_compat_r; [exact Pk|apply Cmod_triangle]|]. rewrite Rmult_plus_distr_r.
    apply Rplus_le_compat; [apply Rmult_le_compat_r; assumption|]. apply Rmult_le_compat; try assumption; try lra. apply Cmod_ge_0. }
  assert (B3 := exp_partial 10 32 ltac:(lra)). assert (B4 := exp10_le).
  assert (B5 : sumf 32 (fun _ => rembound cfg * 10 ^ 32) <= 32 * (1/8000 * 10 ^ 32)).
  { assert (RB : rembound cfg <= 1/8000).
    { unfold rembound. cbn [cfg default_etdcfg contour_radius contour_points]. rewrite pow1.
      assert (F : INR (fact 9) <= INR (fact 32)) by (apply le_INR, fact_le; lia).
      assert (F9 : INR (fact 9) = 362880) by (cbn [fact]; rewrite INR_IZR_INZ; reflexivity).
      rewrite F9 in F. assert (E := exp_le_3). assert (X : 1 / INR (fact 32) <= 1 / 362880) by (apply Rmult_le_compat_l; [lra|]; apply Rinv_le_contravar; lra).
      assert (P := exp_pos 1). assert (X0 : 0 <= 1 / INR (fact 32)) by (apply Rmult_le_pos; [lra|]; left; apply Rinv_0_lt_compat; lra).
      apply Rle_trans with (1 / 362880 * 3); [|lra]. apply Rmult_le_compat; lra. }
    rewrite sumf_const. replace (INR 32) with 32 by (rewrite INR_IZR_INZ; reflexivity).
    apply Rmult_le_compat_l; [lra|]. apply Rmult_le_compat_r; lra. }
  assert (T2 : 10 ^ 32 >= 10 ^ 10) by (apply Rle_ge, Rle_pow; [lra|lia]).
  assert (T3 : 10 ^ 10 = 10000000000) by ring.
  assert (c0 : 0 <= c) by apply Cmod_ge_0.
  assert (F : c * (1 + 10 ^ 32) <= 1/100 * (1 + 10 ^ 32)) by lra.
  apply Rmult_le_reg_r with (1 + 10 ^ 32); lra.
Qed.

(** [L = -10], [h = 1]: the matrix codes lose the forcing term. *)
Lemma ten_matrix u : (forall i, u i = RtoC 0) ->
  Forall (fun c : vec Cops => Cmod (c O) <= 1/100) (etd_candidates_n (single (RtoC (-10))) (fun _ => const_vec 1) 1 u).
Proof.
  intros Hu. set (p := single (RtoC (-10))).
  assert (HC : coeffs_computed p 1).
  { apply single_runs. right. right. rewrite Rabs_R1, Cmod_R, Rabs_left by lra. lra. }
  eapply Forall_impl; [|apply (candidates_n_const p (const_vec 1) u 1 (single_inv_ok _) HC)]. cbn beta.
  intros c (E1 & P1 & _ & HP & Hc). rewrite Hc. cbn [p_size p single]. unfold mdot. cbn [csum]. rewrite Hu.
  assert (G := contour_diag unit p eq_refl 1 1 1 P1 HP O O ltac:(cbn; lia) ltac:(cbn; lia)).
  unfold diagm in G. cbn [Nat.eqb p_vec p_cfg p single] in G. rewrite G. unfold const_vec.
  replace (RtoC 1 * (RtoC 1 * RtoC (-10)))%C with (RtoC (-10)) by ring.
  set (w := cscalar _ _ _). replace (RtoC 0 + E1 O O * RtoC 0 + RtoC 1 * (RtoC 0 + w * RtoC 1))%C with w by ring.
  apply contour_at_ten.
Qed.
Lemma ten_vector u : (forall i, u i = RtoC 0) ->
  Forall (fun c : vec Cops => c O = RtoC ((1 - exp (-10)) / 10)) (etd_candidates (single (RtoC (-10))) (fun _ => const_vec 1) 1 u).
Proof.
  intros Hu. set (p := single (RtoC (-10))).
  eapply Forall_impl; [|apply (candidates_const p (const_vec 1) 1 u O)]. cbn beta. intros c ->. rewrite Hu.
  cbn [p_vec p_cfg p single]. replace (RtoC 1 * RtoC (-10))%C with (RtoC (-10)) by ring.
  rewrite ph_big; [|cbn; lra|lia|lra|cbn [modecutoff default_etdcfg]; rewrite Cmod_R, Rabs_left by lra; lra].
  replace (RtoC 1 * RtoC (-10))%C with (RtoC (-10)) by ring. assert (P := phi1_id (RtoC (-10))). unfold const_vec.
  replace (phi 1 (RtoC (-10))) with ((Cexp (RtoC (-10)) - 1) / RtoC (-10))%C.
  - rewrite Cexp_R. apply injective_projections; cbn; field.
  - rewrite <- P. field. intros X. injection X. lra.
Qed.
Lemma ten_gap : exp (-10) <= 1/10.
Proof.
  change (-10) with (Ropp 10); rewrite exp_Ropp. assert (E := exp_ineq1 10 ltac:(lra)). apply Rle_trans with (/ 10); [apply Rinv_le_contravar; lra|lra].
Qed.

Lemma Forall2_both {A B} (P : A -> Prop) (Q : B -> Prop) (R : A -> B -> Prop) l l' : Forall P l -> Forall Q l' ->
  length l = length l' -> (forall a b, P a -> Q b -> R a b) -> Forall2 R l l'.
Proof.
  intros HP. revert l'. induction HP as [|a l Ha HP IH]; intros l' HQ E HR; destruct HQ as [|b l' Hb HQ]; try discriminate.
  - constructor.
  - constructor; [apply HR; assumption|]. apply IH; auto.
Qed.

(** Passing [np.diag(d)] instead of [d] can change the step by more than 0.08 for a step whose
    exact value is below 0.1: a single stiff mode under the default configuration. *)
Theorem C46_refuted :
  exists (p : problem Cops unit) (N : vec Cops -> vec Cops) (h : R) (u : vec Cops),
    p_mat p = diagm (p_vec p) /\ p_cfg p = default_etdcfg /\ inv_ok p /\ exp_series p /\ coeffs_computed p h /\
    Forall2 (fun a b : vec Cops => 8/100 <= Cmod (a O - b O)%C) (etd_candidates p N h u) (etd_candidates_n p N h u).
Proof.
  exists (single (RtoC (-10))), (fun _ => const_vec 1), 1, (fun _ => RtoC 0).
  split; [reflexivity|]. split; [reflexivity|]. split; [apply single_inv_ok|]. split; [apply single_exp|].
  split; [apply single_runs; right; right; rewrite Rabs_R1, Cmod_R, Rabs_left by lra; lra|].
  assert (A := ten_vector (fun _ => RtoC 0) (fun _ => eq_refl)). assert (B := ten_matrix (fun _ => RtoC 0) (fun _ => eq_refl)).
  assert (G : forall a b : C, a = RtoC ((1 - exp (-10)) / 10) -> Cmod b <= 1/100 -> 8/100 <= Cmod (a - b)%C).
  { intros a b -> Hb. assert (T := Cmod_triangle (RtoC ((1 - exp (-10)) / 10) - b)%C b).
    replace (RtoC ((1 - exp (-10)) / 10) - b + b)%C with (RtoC ((1 - exp (-10)) / 10)) in T by ring.
    assert (E := ten_gap). rewrite Cmod_R, Rabs_pos_eq in T by lra. lra. }
  apply (Forall2_both _ _ _ _ _ A B eq_refl). intros a b. apply G.
Qed.

(** For the same reason constant forcing is not handled accurately by the matrix codes outside
    the contour: the exact solution is at 0.0999..., the computed values are below 0.01. *)
Theorem C38_matrix_refuted :
  exists (p : problem Cops unit) (g u : vec Cops) (h : R) (w : R -> cvec),
    p_cfg p = default_etdcfg /\ inv_ok p /\ exp_series p /\ coeffs_computed p h /\ w 0 = u /\
    (forall r i, (i < p_size p)%nat -> is_Cder (fun r => w r i) r (mdot (p_size p) (p_mat p) (w r) i + g i)%C) /\
    9/100 <= Cmod (w h O) /\ Forall (fun c : vec Cops => Cmod (c O) <= 1/100) (etd_candidates_n p (fun _ => g) h u).
Proof.
  exists (single (RtoC (-10))), (const_vec 1), (fun _ => RtoC 0), 1, (fun t _ => RtoC ((1 - exp (-10 * t)) / 10)).
  split; [reflexivity|]. split; [apply single_inv_ok|]. split; [apply single_exp|].
  split; [apply single_runs; right; right; rewrite Rabs_R1, Cmod_R, Rabs_left by lra; lra|].
  split; [apply functional_extensionality; intros i; f_equal; rewrite Rmult_0_r, exp_0; field|].
  split; [|split].
  - intros r i Hi. cbn [p_size single] in Hi. assert (i = O) by lia. subst i.
    assert (D : is_derive (fun t : R => (1 - exp (-10 * t)) / 10) r (exp (-10 * r))) by (AutoDerive.auto_derive; [exact I|field]).
    eapply is_Cder_eq; [reflexivity| |apply is_Cder_R; exact D].
    cbn [p_size p_mat single]. unfold mdot, diagm, const_vec. cbn [csum Nat.eqb]. apply injective_projections; cbn; field.
  - rewrite Cmod_R. replace (-10 * 1) with (-10) by ring. assert (E := ten_gap). rewrite Rabs_pos_eq; lra.
  - apply ten_matrix. reflexivity.
Qed.

(** ** Concrete cases *)

Lemma ident_inv n : is_inv n mident mident.
Proof. split; apply mprod_ident_l. Qed.

(** [L = 1/2], [h = 1], default configuration: the hypotheses of all theorems above. *)
Example C36_C38_C45_C46_matrix_not_vacuous :
  let p := single (RtoC (1/2)) in
  inv_ok p /\ exp_series p /\ fits p mident mident (1/2) 1 /\ coeffs_computed p 1 /\
  (forall i, (i < p_size p)%nat -> rown (p_size p) mident i <= 1) /\
  (forall i, (i < p_size p)%nat -> (mdot (p_size p) (p_mat p) (const_vec (-2)) i + const_vec 1 i)%C = 0) /\
  p_mat p = diagm (p_vec p) /\ respects (fun i => (i < p_size p)%nat) (fun v i => v i * v i)%C /\
  0 < modecutoff (p_cfg p) <= contour_radius (p_cfg p) /\ (0 < contour_points (p_cfg p))%nat.
Proof.
  cbv zeta. split; [apply single_inv_ok|]. split; [apply single_exp|].
  split; [|split; [|split; [|split; [|split; [|split; [|split]]]]]].
  - split; [cbn; lia|]. split; [apply ident_inv|]. split; [cbn; lra|].
    intros i Hi. cbn [p_size single] in *. assert (i = O) by lia. subst i.
    unfold rown, simto, mprod, mident, scaled, diagm. cbn [sumf csum Nat.eqb p_mat single]. unfold diagm. cbn [Nat.eqb].
    replace (RtoC 0 + RtoC 1 * (RtoC 0 + RtoC (1 * 1) * RtoC (1/2) * RtoC 1))%C with (RtoC (1/2)) by (apply injective_projections; cbn; field).
    rewrite Cmod_R, Rabs_pos_eq; lra.
  - apply single_runs. right. left. rewrite Rabs_R1, Cmod_R, Rabs_pos_eq; lra.
  - intros i Hi. rewrite rown_ident by exact Hi. lra.
  - intros i Hi. cbn [p_size single] in *. assert (i = O) by lia. subst i. unfold mdot, diagm, const_vec. cbn [csum p_mat single].
    unfold diagm. cbn [Nat.eqb]. apply injective_projections; cbn; field.
  - reflexivity.
  - intros a b H i Hi. rewrite (H i Hi). reflexivity.
  - cbn. lra.
  - cbn. lia.
Qed.

(** A matrix of norm 10 that fits the contour of radius 1 after a change of basis. *)
Definition jordan : problem Cops unit :=
  mk_problem (pure_nl (fun _ : vec Cops => const_vec 1)) 2 (const_vec 0)
    (fun i j => if Nat.eqb i 0 then if Nat.eqb j 1 then RtoC 10 else RtoC 0 else RtoC 0) default_etdcfg
    (fun m => inr m) (fun _ => inl LinAlgError) (eye Cops) (eye Cops) (const_vec 0).
Example fits_similar :
  fits jordan (diagm (fun i => RtoC (if Nat.eqb i 0 then 1 else 1/100))) (diagm (fun i => RtoC (if Nat.eqb i 0 then 1 else 100))) (1/10) 1.
Proof.
  split; [cbn; lia|]. split; [|split; [cbn; lra|]].
  - split; rewrite diagm_prod; intros i j Hi Hj; cbn [p_size jordan] in *; unfold diagm, mident; destruct (Nat.eqb_spec i j) as [->|]; try reflexivity;
      destruct (Nat.eqb j 0); apply injective_projections; cbn; field.
  - intros i Hi. cbn [p_size jordan] in *. destruct i as [|[|i]]; [| |lia];
      unfold rown, simto, mprod, scaled, diagm; cbn [sumf csum Nat.eqb p_mat jordan].
    + match goal with |- 0 + Cmod ?a + Cmod ?b <= _ =>
        replace a with (RtoC 0) by (apply injective_projections; cbn; field);
        replace b with (RtoC (1/10)) by (apply injective_projections; cbn; field) end.
      rewrite Cmod_0, Cmod_R, Rabs_pos_eq; lra.
    + match goal with |- 0 + Cmod ?a + Cmod ?b <= _ =>
        replace a with (RtoC 0) by (apply injective_projections; cbn; field);
        replace b with (RtoC 0) by (apply injective_projections; cbn; field) end.
      rewrite Cmod_0. lra.
Qed.

Print Assumptions C45_polynomials.
Print Assumptions C45_accuracy.
Print Assumptions C36_matrix_operators.
Print Assumptions C37_matrix_operators.
Print Assumptions C38_matrix_constant_forcing.
Print Assumptions C38_matrix_equilibria.
Print Assumptions C38_matrix_refuted.
Print Assumptions C46_same_method.
Print Assumptions C46_refuted.
