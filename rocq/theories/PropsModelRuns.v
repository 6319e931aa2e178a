(** * C83: the equations of models.py have smooth solutions, and the runs converge to them

    For the KdV, Burgers and Allen-Cahn operators of rkstiff/models.py: the system of ordinary differential equations they
    define has, from every initial vector, exactly one solution on a short interval; every solution on a bounded interval is
    smooth in the sense required by C71 to C82; and the runs of the solvers converge to it. *)

From Coq Require Import ZArith List Bool Reals Lra Lia FunctionalExtensionality.
From Coquelicot Require Import Hierarchy Derive Complex.
From Coquelicot Require AutoDerive.
From Verif Require Import Scalars Control ControlCS ControlCSReal ControlAS ControlASReal Arrays SchemeBase SchemeIF SchemeETD4 SchemeETD5 Solvers
     CInst SpecRK SchemeIFReal SpecPhi SpecPoly ContourReal PropsPsi PropsETD ContourMatrix MatrixFlow PropsMatrix Config Grids Derivatives Fourier PropsGrids PropsDeriv Models PropsModels PropsSpectral PropsMean
     Asym Solution OrderWords OrderLocal LocalRK4 Stable Converge Voc LocalKro MatExp ConvRuns ConvMethods PropsConverge PropsOrder5 Polynomial ModelPoly Picard.
Import ListNotations.
Local Open Scope R_scope.

(** [u] solves the system with linear operator [L] (matrix entries) and nonlinear function [f] on arrays of [n] entries. *)
Definition solves (n : nat) (L : nat -> nat -> C) (f : list C -> exn + list C) (t0 t1 : R) (u : R -> cvec) : Prop :=
  forall t, t0 <= t <= t1 -> exists r, f (tab n (u t)) = inr r /\
    forall i, (i < n)%nat -> is_Cder (fun s => u s i) t (csum n (fun j => L i j * u t j) + nth i r (RtoC 0))%C.
(** The problem given to the solver uses [f] (it may raise, for instance when interrupted). *)
Definition uses {W} (p : problem Cops W) (f : list C -> exn + list C) (n : nat) : Prop :=
  forall v w y w', p_nl p v w = (inr y, w') -> applied f n v = inr y.
(** 1-D operators and 2-D operators. *)
Definition diag_of (l : list C) : nat -> nat -> C := fun i j => if Nat.eqb i j then nth i l (RtoC 0) else RtoC 0.
Definition mat_of (m : marr) : nat -> nat -> C := fun i j => RtoC (m_at m i j).

(** The functions of models.py on arrays of [n] entries. *)
Inductive model : (list C -> exn + list C) -> nat -> Prop :=
| Mkdv kx : (2 <= length kx)%nat -> model (kdv_nl kx) (length kx)
| Mburgers kx : (2 <= length kx)%nat -> model (burgers_nl kx) (length kx)
| Mallen_cahn x : model (allen_cahn_nl x) (length (inner x)).

Definition poly_model (n : nat) (f : list C -> exn + list C) (E : nat -> pexp) : Prop :=
  forall v, exists r, f (tab n v) = inr r /\ length r = n /\ forall k, (k < n)%nat -> at_ (RtoC 0) r k = pev n (E k) v.
Lemma model_poly f n : model f n -> exists E, poly_model n f E.
Proof.
  intros [kx H|kx H|x].
  - exists (padv (-6) kx (length kx)). intros v. apply advection_poly; [exact H|reflexivity].
  - exists (padv (-1) kx (length kx)). intros v. apply advection_poly; [exact H|reflexivity].
  - exists (pcube x). intros v. apply allen_cahn_poly. reflexivity.
Qed.
Definition nl_of (f : list C -> exn + list C) (n : nat) (v : cvec) : cvec := match applied f n v with inr y => y | inl _ => fun _ => RtoC 0 end.
Section Bridge.
  Variable n : nat.
  Variable f : list C -> exn + list C.
  Variable E : nat -> pexp.
  Hypothesis HE : poly_model n f E.
  Lemma nl_applied v : applied f n v = inr (nl_of f n v).
  Proof. unfold nl_of, applied. destruct (HE v) as (r & -> & _). reflexivity. Qed.
  Lemma nl_poly v i : (i < n)%nat -> nl_of f n v i = pev n (E i) v.
  Proof. intros Hi. unfold nl_of, applied. destruct (HE v) as (r & -> & _ & H). apply (H i Hi). Qed.
  Lemma uses_computes {W} (p : problem Cops W) : uses p f n -> PropsConverge.computes p (nl_of f n).
  Proof. intros H v w y w' Ep. assert (X := H v w y w' Ep). rewrite nl_applied in X. injection X as X. symmetry. exact X. Qed.
  Lemma solves_iff L t0 t1 u : solves n L f t0 t1 u <->
    (forall t i, t0 <= t <= t1 -> (i < n)%nat -> is_Cder (fun s => u s i) t (mdot n L (u t) i + nl_of f n (u t) i)%C).
  Proof.
    split.
    - intros H t i Ht Hi. destruct (H t Ht) as (r & Er & D). unfold nl_of, applied. rewrite Er. exact (D i Hi).
    - intros H t Ht. destruct (HE (u t)) as (r & Er & _). exists r. split; [exact Er|]. intros i Hi. specialize (H t i Ht Hi). unfold nl_of, applied in H. rewrite Er in H. exact H.
  Qed.
End Bridge.
Lemma diag_of_dmat l : diag_of l = dmat (of_list l).
Proof. reflexivity. Qed.

(** From every vector a solution starts, and there is only one. *)
Theorem C83_existence : forall f n L, model f n -> forall t0 v, exists t1 u, t0 < t1 /\ (forall i, (i < n)%nat -> u t0 i = v i) /\ solves n L f t0 t1 u.
Proof.
  intros f n L Hm t0 v. destruct (model_poly f n Hm) as [E HE]. destruct (polynomial_exists n L E (nl_of f n) (nl_poly n f E HE) t0 v) as (T & u & HT & H0 & H).
  exists (t0 + T), u. split; [lra|]. split; [exact H0|]. apply (solves_iff n f E HE). exact H.
Qed.
Theorem C83_uniqueness : forall f n L t0 t1 u w, model f n -> t0 < t1 -> solves n L f t0 t1 u -> solves n L f t0 t1 w ->
  (forall i, (i < n)%nat -> u t0 i = w t0 i) -> forall t i, t0 <= t <= t1 -> (i < n)%nat -> u t i = w t i.
Proof.
  intros f n L t0 t1 u w Hm Ht Hu Hw H0 t i Hin Hi. destruct (model_poly f n Hm) as [E HE].
  apply (polynomial_unique n L E (nl_of f n) (nl_poly n f E HE) t0 t1 u w Ht); try assumption; apply (solves_iff n f E HE); assumption.
Qed.
(** Every solution is smooth, with any number of derivatives. *)
Theorem C83_smooth : forall f n L t0 t1 u q, model f n -> t0 < t1 -> solves n L f t0 t1 u ->
  exists N rho K g J J1, (forall v, applied f n v = inr (N v)) /\ smooth n q L N t0 t1 rho K u g J /\ Jsmooth n t0 t1 K J J1.
Proof.
  intros f n L t0 t1 u q Hm Ht Hu. destruct (model_poly f n Hm) as [E HE].
  destruct (polynomial_smooth n q L E (nl_of f n) t0 t1 u (nl_poly n f E HE) Ht (proj1 (solves_iff n f E HE L t0 t1 u) Hu)) as (rho & K & g & J & J1 & H1 & H2).
  exists (nl_of f n), rho, K, g, J, J1. split; [apply (nl_applied n f E HE)|]. split; assumption.
Qed.
Lemma applied_computes {W} (p : problem Cops W) f n N : (forall v, applied f n v = inr (N v)) -> uses p f n -> PropsConverge.computes p N.
Proof. intros HN H v w y w' Ep. assert (X := H v w y w' Ep). rewrite HN in X. injection X as X. symmetry. exact X. Qed.

(** Claims with larger constants are weaker. *)
Lemma claim_le (C C' x : R) : 0 <= x -> C <= C' -> C * x <= C' * x.
Proof. intros Hx HC. apply Rmult_le_compat_r; assumption. Qed.
Lemma accurate_mono n u e e' ts vs : e <= e' -> accurate n u e ts vs -> accurate n u e' ts vs.
Proof. intros H A. induction A as [|t v ts vs H1 H2 IH]; constructor; [|exact IH]. eapply vle_mono; [exact H1|exact H]. Qed.
Lemma cs_mono {W} n t0 t1 u ord C h0 r0 C' h0' r0' (p : problem Cops W) k e : 0 <= e -> C <= C' -> h0' <= h0 -> r0' <= r0 ->
  cs_claim n t0 t1 u ord C h0 r0 p k e -> cs_claim n t0 t1 u ord C' h0' r0' p k e.
Proof.
  intros He HC Hh Hr H fuel v s0 sf h o w r o' w' d A1 A2 A3 A4 A5 A6 A7 A8.
  destruct (H fuel v s0 sf h o w r o' w' d A1 A2 A3 ltac:(split; [apply A4|eapply Rle_trans; [apply A4|exact Hh]]) A5 (Rle_trans _ _ _ A6 Hr) A7 A8) as [G1 G2].
  assert (P : 0 <= d + e + val h ^ ord) by (assert (0 <= (val h : R) ^ ord) by (apply pow_le; left; apply A4); lra).
  split; [eapply accurate_mono; [|exact G1]; apply claim_le; assumption|]. intros v' Ev. destruct (G2 v' Ev) as (t & Ht & Hv). exists t. split; [exact Ht|].
  eapply vle_mono; [exact Hv|]. apply claim_le; assumption.
Qed.
Lemma as_mono {W} n t0 t1 u ord C h0 r0 C' h0' r0' (p : problem Cops W) k e : 0 <= e -> C <= C' -> h0' <= h0 -> r0' <= r0 ->
  as_claim n t0 t1 u ord C h0 r0 p k e -> as_claim n t0 t1 u ord C' h0' r0' p k e.
Proof.
  intros He HC Hh Hr H ks cfg cs fuel v s0 sf hi o w r o' w' d X A1 A2 A3 A4 A5 A6 A7 A8 A9 A10 A11 A12.
  destruct (H ks cfg cs fuel v s0 sf hi o w r o' w' d X A1 A2 A3 A4 A5 A6 A7 (Rle_trans _ _ _ A8 Hr) A9 A10 A11 (conj (proj1 A12) (Rle_trans _ _ _ (proj2 A12) Hh))) as [G1 G2].
  assert (P : 0 <= d + e + X ^ ord) by (assert (0 <= X ^ ord) by (apply pow_le; apply A12); lra).
  split; [eapply accurate_mono; [|exact G1]; apply claim_le; assumption|]. intros v' Ev. eapply vle_mono; [exact (G2 v' Ev)|]. apply claim_le; assumption.
Qed.

(** What is claimed of the runs with a 1-D operator [lin]: order four, order five for IF45DP; ETD coefficients add the error of
    their contour sums. *)
Definition converge_1d (f : list C -> exn + list C) (n : nat) (lin : list C) (t0 t1 : R) (u : R -> cvec) : Prop :=
  exists C h0 r0, 0 <= C /\ 0 < h0 /\ 0 < r0 /\
    forall W (p : problem Cops W), uses p f n -> p_vec p = of_list lin ->
      cs_claim n t0 t1 u 4 C h0 r0 p IF4d 0 /\ as_claim n t0 t1 u 4 C h0 r0 p IF34d 0 /\ as_claim n t0 t1 u 5 C h0 r0 p IF45DPd 0 /\
      (0 < modecutoff (p_cfg p) <= contour_radius (p_cfg p) -> (0 < contour_points (p_cfg p))%nat ->
        cs_claim n t0 t1 u 4 C h0 r0 p ETD4d (8 * quad_error (p_cfg p)) /\ as_claim n t0 t1 u 4 C h0 r0 p ETD34d (8 * quad_error (p_cfg p)) /\
        cs_claim n t0 t1 u 4 C h0 r0 p ETD5d (12 * quad_error (p_cfg p)) /\ as_claim n t0 t1 u 4 C h0 r0 p ETD35d (12 * quad_error (p_cfg p))).
(** The same with a matrix. *)
Definition converge_2d (f : list C -> exn + list C) (n : nat) (L : nat -> nat -> C) (t0 t1 : R) (u : R -> cvec) : Prop :=
  exists C h0 r0, 0 <= C /\ 0 < h0 /\ 0 < r0 /\
    forall W (p : problem Cops W), uses p f n -> p_size p = n -> p_mat p = L ->
      (exp_series p -> (forall m e, p_expm p m <> inl e) -> cs_claim n t0 t1 u 4 C h0 r0 p IF4n 0 /\ as_claim n t0 t1 u 4 C h0 r0 p IF34n 0) /\
      (diagonalizes p -> as_claim n t0 t1 u 4 C h0 r0 p IF34z 0 /\
        forall s t, 0 < modecutoff (p_cfg p) <= contour_radius (p_cfg p) -> (0 < contour_points (p_cfg p))%nat ->
        (forall i, (i < n)%nat -> rown n (p_S p) i <= s) -> (forall i, (i < n)%nat -> rown n (p_Sinv p) i <= t) -> 0 <= s -> 0 <= t ->
        as_claim n t0 t1 u 4 C h0 r0 p ETD34z (8 * (s * (quad_error (p_cfg p) * t))) /\ as_claim n t0 t1 u 4 C h0 r0 p ETD35z (12 * (s * (quad_error (p_cfg p) * t)))) /\
      (forall S T x s t hb, exp_series p -> inv_ok p -> fits p S T x hb -> 0 < hb <= h0 ->
        (forall i, (i < n)%nat -> rown n S i <= s) -> (forall i, (i < n)%nat -> rown n T i <= t) -> 0 <= s -> 0 <= t ->
        cs_claim n t0 t1 u 4 C hb r0 p ETD4n (8 * (s * (merr (p_cfg p) x * t))) /\ as_claim n t0 t1 u 4 C hb r0 p ETD34n (8 * (s * (merr (p_cfg p) x * t))) /\
        cs_claim n t0 t1 u 4 C hb r0 p ETD5n (12 * (s * (merr (p_cfg p) x * t))) /\ as_claim n t0 t1 u 4 C hb r0 p ETD35n (12 * (s * (merr (p_cfg p) x * t)))).

(** 1-D operators: [lin] is [kdv_lin kx] or [burgers_lin kx mu] or any other array. *)
Theorem C83_runs : forall f n lin t0 t1 u, model f n -> t0 < t1 -> solves n (diag_of lin) f t0 t1 u -> converge_1d f n lin t0 t1 u.
Proof.
  intros f n lin t0 t1 u Hm Ht Hu. destruct (C83_smooth f n (diag_of lin) t0 t1 u 5 Hm Ht Hu) as (N & rho & K & g & J & J1 & HN & HS & HJ).
  assert (HS4 := smooth_weak n 5 4 _ _ _ _ _ _ _ _ _ ltac:(lia) HS). rewrite diag_of_dmat in *.
  destruct (C71_if4_if34_diagonal n (of_list lin) N t0 t1 rho K u g J HS4) as (C1 & h1 & r1 & P1 & Q1 & R1 & G1).
  destruct (C74_if45dp n (of_list lin) N t0 t1 rho K u g J J1 HS HJ) as (C2 & h2 & r2 & P2 & Q2 & R2 & G2).
  destruct (C71_etd4_etd34_diagonal n (of_list lin) N t0 t1 rho K u g J HS4) as (C3 & h3 & r3 & P3 & Q3 & R3 & G3).
  destruct (C73_order_four_diagonal n (of_list lin) N t0 t1 rho K u g J J1 HS4 HJ) as (C4 & h4 & r4 & P4 & Q4 & R4 & G4).
  set (Cx := C1 + C2 + C3 + C4). set (hx := Rmin (Rmin h1 h2) (Rmin h3 h4)). set (rx := Rmin (Rmin r1 r2) (Rmin r3 r4)).
  assert (Hh : hx <= h1 /\ hx <= h2 /\ hx <= h3 /\ hx <= h4).
  { assert (A := Rmin_l (Rmin h1 h2) (Rmin h3 h4)). assert (B := Rmin_r (Rmin h1 h2) (Rmin h3 h4)).
    assert (A1 := Rmin_l h1 h2). assert (A2 := Rmin_r h1 h2). assert (A3 := Rmin_l h3 h4). assert (A4 := Rmin_r h3 h4). unfold hx. repeat split; lra. }
  assert (Hr : rx <= r1 /\ rx <= r2 /\ rx <= r3 /\ rx <= r4).
  { assert (A := Rmin_l (Rmin r1 r2) (Rmin r3 r4)). assert (B := Rmin_r (Rmin r1 r2) (Rmin r3 r4)).
    assert (A1 := Rmin_l r1 r2). assert (A2 := Rmin_r r1 r2). assert (A3 := Rmin_l r3 r4). assert (A4 := Rmin_r r3 r4). unfold rx. repeat split; lra. }
  destruct Hh as (Hh1 & Hh2 & Hh3 & Hh4). destruct Hr as (Hr1 & Hr2 & Hr3 & Hr4).
  assert (HC : C1 <= Cx /\ C2 <= Cx /\ C3 <= Cx /\ C4 <= Cx) by (unfold Cx; repeat split; lra). destruct HC as (HC1 & HC2 & HC3 & HC4).
  exists Cx, hx, rx. split; [unfold Cx; lra|]. split; [unfold hx; repeat apply Rmin_glb_lt; assumption|]. split; [unfold rx; repeat apply Rmin_glb_lt; assumption|].
  intros W p Hp EL. assert (Hc := applied_computes p f n N HN Hp). destruct (G1 W p Hc EL) as [X1 X2].
  split; [exact (cs_mono n t0 t1 u 4 C1 h1 r1 Cx hx rx p IF4d 0 (Rle_refl 0) HC1 Hh1 Hr1 X1)|].
  split; [exact (as_mono n t0 t1 u 4 C1 h1 r1 Cx hx rx p IF34d 0 (Rle_refl 0) HC1 Hh1 Hr1 X2)|].
  split; [exact (as_mono n t0 t1 u 5 C2 h2 r2 Cx hx rx p IF45DPd 0 (Rle_refl 0) HC2 Hh2 Hr2 (G2 W p Hc EL))|].
  intros Hcut Hpts. destruct (G3 W p Hc EL Hcut Hpts) as [X3 X4]. destruct (G4 W p Hc EL Hcut Hpts) as [X5 X6].
  assert (Qe := quad_error_pos (p_cfg p) ltac:(lra)).
  assert (Q8 : 0 <= 8 * quad_error (p_cfg p)) by lra. assert (Q12 : 0 <= 12 * quad_error (p_cfg p)) by lra.
  split; [exact (cs_mono n t0 t1 u 4 C3 h3 r3 Cx hx rx p ETD4d _ Q8 HC3 Hh3 Hr3 X3)|]. split; [exact (as_mono n t0 t1 u 4 C3 h3 r3 Cx hx rx p ETD34d _ Q8 HC3 Hh3 Hr3 X4)|].
  split; [exact (cs_mono n t0 t1 u 4 C4 h4 r4 Cx hx rx p ETD5d _ Q12 HC4 Hh4 Hr4 X5)|exact (as_mono n t0 t1 u 4 C4 h4 r4 Cx hx rx p ETD35d _ Q12 HC4 Hh4 Hr4 X6)].
Qed.

Theorem C83_runs_matrix : forall f n L t0 t1 u, model f n -> t0 < t1 -> solves n L f t0 t1 u -> converge_2d f n L t0 t1 u.
Proof.
  intros f n L t0 t1 u Hm Ht Hu. destruct (C83_smooth f n L t0 t1 u 4 Hm Ht Hu) as (N & rho & K & g & J & J1 & HN & HS & HJ).
  destruct (C71_if4_if34_matrix n L N t0 t1 rho K u g J HS) as (C1 & h1 & r1 & P1 & Q1 & R1 & G1).
  destruct (C72_etd34_eigenbasis n L N t0 t1 rho K u g J HS) as (C2 & h2 & r2 & P2 & Q2 & R2 & G2).
  destruct (C71_etd4_etd34_matrix n L N t0 t1 rho K u g J HS) as (C3 & h3 & r3 & P3 & Q3 & R3 & G3).
  destruct (C73_order_four_matrix n L N t0 t1 rho K u g J J1 HS HJ) as (C4 & h4 & r4 & P4 & Q4 & R4 & G4 & G5).
  set (Cx := C1 + C2 + C3 + C4). set (hx := Rmin (Rmin h1 h2) (Rmin h3 h4)). set (rx := Rmin (Rmin r1 r2) (Rmin r3 r4)).
  assert (Hh : hx <= h1 /\ hx <= h2 /\ hx <= h3 /\ hx <= h4).
  { assert (A := Rmin_l (Rmin h1 h2) (Rmin h3 h4)). assert (B := Rmin_r (Rmin h1 h2) (Rmin h3 h4)).
    assert (A1 := Rmin_l h1 h2). assert (A2 := Rmin_r h1 h2). assert (A3 := Rmin_l h3 h4). assert (A4 := Rmin_r h3 h4). unfold hx. repeat split; lra. }
  assert (Hr : rx <= r1 /\ rx <= r2 /\ rx <= r3 /\ rx <= r4).
  { assert (A := Rmin_l (Rmin r1 r2) (Rmin r3 r4)). assert (B := Rmin_r (Rmin r1 r2) (Rmin r3 r4)).
    assert (A1 := Rmin_l r1 r2). assert (A2 := Rmin_r r1 r2). assert (A3 := Rmin_l r3 r4). assert (A4 := Rmin_r r3 r4). unfold rx. repeat split; lra. }
  destruct Hh as (Hh1 & Hh2 & Hh3 & Hh4). destruct Hr as (Hr1 & Hr2 & Hr3 & Hr4).
  assert (HC : C1 <= Cx /\ C2 <= Cx /\ C3 <= Cx /\ C4 <= Cx) by (unfold Cx; repeat split; lra). destruct HC as (HC1 & HC2 & HC3 & HC4).
  exists Cx, hx, rx. split; [unfold Cx; lra|]. split; [unfold hx; repeat apply Rmin_glb_lt; assumption|]. split; [unfold rx; repeat apply Rmin_glb_lt; assumption|].
  intros W p Hp En EL. assert (Hc := applied_computes p f n N HN Hp). destruct (G1 W p Hc En EL) as [X1 X2]. split; [|split].
  - intros He Het. destruct (X1 He Het) as [Y1 Y2].
    split; [exact (cs_mono n t0 t1 u 4 C1 h1 r1 Cx hx rx p IF4n 0 (Rle_refl 0) HC1 Hh1 Hr1 Y1)|exact (as_mono n t0 t1 u 4 C1 h1 r1 Cx hx rx p IF34n 0 (Rle_refl 0) HC1 Hh1 Hr1 Y2)].
  - intros Hd. split; [exact (as_mono n t0 t1 u 4 C1 h1 r1 Cx hx rx p IF34z 0 (Rle_refl 0) HC1 Hh1 Hr1 (X2 Hd))|].
    intros s t Hcut Hpts Hs Ht' Ps Pt. assert (Qe := quad_error_pos (p_cfg p) ltac:(lra)).
    assert (Q : 0 <= s * (quad_error (p_cfg p) * t)) by (apply Rmult_le_pos; [exact Ps|apply Rmult_le_pos; assumption]).
    assert (Q8 : 0 <= 8 * (s * (quad_error (p_cfg p) * t))) by lra. assert (Q12 : 0 <= 12 * (s * (quad_error (p_cfg p) * t))) by lra.
    split; [exact (as_mono n t0 t1 u 4 C2 h2 r2 Cx hx rx p ETD34z _ Q8 HC2 Hh2 Hr2 (G2 W p s t Hc En EL Hd Hcut Hpts Hs Ht' Ps Pt))|].
    exact (as_mono n t0 t1 u 4 C4 h4 r4 Cx hx rx p ETD35z _ Q12 HC4 Hh4 Hr4 (G5 W p s t Hc En EL Hd Hcut Hpts Hs Ht' Ps Pt)).
  - intros S T x s t hb He Hi Hf Hhb Hs Ht' Ps Pt.
    assert (Hb3 : 0 < hb <= h3) by lra. assert (Hb4 : 0 < hb <= h4) by lra.
    assert (Q : 0 <= s * (merr (p_cfg p) x * t)).
    { apply Rmult_le_pos; [exact Ps|apply Rmult_le_pos; [|exact Pt]]. destruct Hf as (F1 & _ & F3 & _). apply merr_pos; [exact F1|lra|exact F3]. }
    assert (Q8 : 0 <= 8 * (s * (merr (p_cfg p) x * t))) by lra. assert (Q12 : 0 <= 12 * (s * (merr (p_cfg p) x * t))) by lra.
    destruct (G3 W p S T x s t hb Hc En EL He Hi Hf Hb3 Hs Ht' Ps Pt) as [Y3 Y4]. destruct (G4 W p S T x s t hb Hc En EL He Hi Hf Hb4 Hs Ht' Ps Pt) as [Y5 Y6].
    split; [exact (cs_mono n t0 t1 u 4 C3 hb r3 Cx hb rx p ETD4n _ Q8 HC3 (Rle_refl hb) Hr3 Y3)|]. split; [exact (as_mono n t0 t1 u 4 C3 hb r3 Cx hb rx p ETD34n _ Q8 HC3 (Rle_refl hb) Hr3 Y4)|].
    split; [exact (cs_mono n t0 t1 u 4 C4 hb r4 Cx hb rx p ETD5n _ Q12 HC4 (Rle_refl hb) Hr4 Y5)|exact (as_mono n t0 t1 u 4 C4 hb r4 Cx hb rx p ETD35n _ Q12 HC4 (Rle_refl hb) Hr4 Y6)].
Qed.

(** KdV and Burgers: from every initial array there is exactly one solution on some interval, and the runs converge to it. *)
Theorem C83_kdv (kx : list R) (t0 : R) (v : cvec) : (2 <= length kx)%nat ->
  exists t1 u, t0 < t1 /\ (forall i, (i < length kx)%nat -> u t0 i = v i) /\ solves (length kx) (diag_of (kdv_lin kx)) (kdv_nl kx) t0 t1 u /\
    converge_1d (kdv_nl kx) (length kx) (kdv_lin kx) t0 t1 u.
Proof.
  intros H. destruct (C83_existence _ _ (diag_of (kdv_lin kx)) (Mkdv kx H) t0 v) as (t1 & u & Ht & H0 & Hu). exists t1, u. split; [exact Ht|]. split; [exact H0|]. split; [exact Hu|].
  exact (C83_runs _ _ _ t0 t1 u (Mkdv kx H) Ht Hu).
Qed.
Theorem C83_burgers (kx : list R) (mu t0 : R) (v : cvec) : (2 <= length kx)%nat ->
  exists t1 u, t0 < t1 /\ (forall i, (i < length kx)%nat -> u t0 i = v i) /\ solves (length kx) (diag_of (burgers_lin kx mu)) (burgers_nl kx) t0 t1 u /\
    converge_1d (burgers_nl kx) (length kx) (burgers_lin kx mu) t0 t1 u.
Proof.
  intros H. destruct (C83_existence _ _ (diag_of (burgers_lin kx mu)) (Mburgers kx H) t0 v) as (t1 & u & Ht & H0 & Hu). exists t1, u. split; [exact Ht|]. split; [exact H0|]. split; [exact Hu|].
  exact (C83_runs _ _ _ t0 t1 u (Mburgers kx H) Ht Hu).
Qed.
(** Allen-Cahn, with the matrix returned by [allen_cahn_ops]. *)
Theorem C83_allen_cahn (x : list R) (d m : marr) (epsilon t0 : R) (v : cvec) : allen_cahn_lin d epsilon = inr m -> m_rows d = length x ->
  m_rows m = length (inner x) /\ m_cols m = length (inner x) /\
  exists t1 u, t0 < t1 /\ (forall i, (i < length (inner x))%nat -> u t0 i = v i) /\ solves (length (inner x)) (mat_of m) (allen_cahn_nl x) t0 t1 u /\
    converge_2d (allen_cahn_nl x) (length (inner x)) (mat_of m) t0 t1 u.
Proof.
  intros Em Hd. unfold allen_cahn_lin in Em. destruct (Nat.eqb_spec (m_cols d) (m_rows d)) as [Hsq|]; [|discriminate]. injection Em as Em.
  split; [rewrite <- Em; cbn [inner_mat mplus Models.mtimes mmul m_rows m_cols]; rewrite Hd, inner_len; reflexivity|].
  split; [rewrite <- Em; cbn [inner_mat mplus Models.mtimes mmul m_rows m_cols]; rewrite Hsq, Hd, inner_len; reflexivity|].
  destruct (C83_existence _ _ (mat_of m) (Mallen_cahn x) t0 v) as (t1 & u & Ht & H0 & Hu). exists t1, u. split; [exact Ht|]. split; [exact H0|]. split; [exact Hu|].
  exact (C83_runs_matrix _ _ _ t0 t1 u (Mallen_cahn x) Ht Hu).
Qed.

(** The hypotheses hold in concrete cases. The Burgers equation with wave numbers 0 and 1 has a solution that can be written down:
    the mean is constant and the other mode decays. *)
Definition two_modes : list R := [0; 1].
Definition decay (t : R) : cvec := fun i => match i with O => RtoC 3 | _ => RtoC (exp (- t)) end.
Definition burgers2 : problem Cops unit :=
  mk_problem (A := Cops) (fun (v : cvec) w => (applied (burgers_nl two_modes) 2 v, w)) 2 (of_list (burgers_lin two_modes 1)) (diag_of (burgers_lin two_modes 1)) default_etdcfg
    (fun m => inr m) (fun m => inr m) (eye Cops) (eye Cops) (of_list (burgers_lin two_modes 1)).
Example C83_not_vacuous : solves 2 (diag_of (burgers_lin two_modes 1)) (burgers_nl two_modes) 0 1 decay /\ model (burgers_nl two_modes) 2 /\ decay 0 1%nat <> decay 1 1%nat /\
  uses burgers2 (burgers_nl two_modes) 2 /\ p_vec burgers2 = of_list (burgers_lin two_modes 1) /\
  0 < modecutoff (p_cfg burgers2) <= contour_radius (p_cfg burgers2) /\ (0 < contour_points (p_cfg burgers2))%nat.
Proof.
  split; [|split; [exact (Mburgers two_modes (le_n 2))|split; [|split; [|split; [reflexivity|split; [cbn; lra|cbn; lia]]]]]].
  - intros t Ht. destruct (C61_zero_mode two_modes (tab 2 (decay t)) 1 eq_refl (tab_len 2 (decay t)) (le_n 1)) as (r1 & r & _ & Er & _ & Lr & _).
    exists r. split; [exact Er|].
    assert (Z : forall i, (i < 2)%nat -> nth i r (RtoC 0) = RtoC 0).
    { intros i Hi. rewrite (advection_at (-1) two_modes (tab 2 (decay t)) r 1 i eq_refl (tab_len 2 (decay t)) (le_n 1) ltac:(lia) Er).
      replace (dft (2 * 1) (fun j => RtoC (prod_samples two_modes (tab 2 (decay t)) 1 j)) i) with (RtoC 0); [ring|].
      symmetry. unfold dft. apply csum_0. intros j _. rewrite two_modes_prod; [|lia|intros k Hk; lia|reflexivity].
      replace (- _ / INR (2 * 1) ^ 2 * _) with 0; [ring|]. cbn [tab map seq nth decay RtoC snd]. unfold Rdiv. ring. }
    intros i Hi. rewrite (Z i Hi). destruct i as [|[|i]]; [| |lia].
    + apply (is_Cder_eq (fun _ => RtoC 3) _ t (RtoC 0)); [reflexivity| |apply is_Cder_const]. cbn [csum diag_of burgers_lin two_modes map nth Nat.eqb decay]. rewrite <- !RtoC_mult, <- !RtoC_plus. f_equal. ring.
    + apply (is_Cder_eq (fun s => RtoC (exp (- s))) _ t (RtoC (- exp (- t)))); [reflexivity| |].
      * cbn [csum diag_of burgers_lin two_modes map nth Nat.eqb decay]. rewrite <- !RtoC_mult, <- !RtoC_plus. f_equal. ring.
      * apply is_Cder_R. AutoDerive.auto_derive; [exact I|ring].
  - cbn [decay]. intros X. injection X as X. apply exp_inv in X. lra.
  - intros v w y w' X. exact (f_equal fst X).
Qed.

Print Assumptions C83_existence.
Print Assumptions C83_uniqueness.
Print Assumptions C83_smooth.
Print Assumptions C83_runs.
Print Assumptions C83_runs_matrix.
Print Assumptions C83_kdv.
Print Assumptions C83_burgers.
Print Assumptions C83_allen_cahn.
