(** * The nonlinear functions of models.py are polynomials

    The functions returned by [kdv_ops], [burgers_ops] and [allen_cahn_ops] (rkstiff/models.py:140-143, 189-192, 243-245) as
    polynomials in the entries of the array and their conjugates. *)

From Coq Require Import ZArith List Bool Reals Lra Lia.
From Coquelicot Require Import Complex.
From Verif Require Import Scalars CInst SpecRK SchemeIFReal SpecPhi SpecPoly ContourReal Config Grids Derivatives Fourier PropsGrids PropsDeriv Models PropsModels PropsSpectral PropsMean Asym Solution Polynomial.
Import ListNotations.
Local Open Scope R_scope.

(** Real parts, Hermitian extension, transforms. *)
Definition pre (e : pexp) : pexp := PMul (PC (RtoC (/ 2))) (PAdd e (pconj e)).
Definition pherm (n : nat) (f : nat -> pexp) (k : nat) : pexp :=
  if Nat.eqb k 0 || Nat.eqb (2 * k) n then pre (f k) else if Nat.ltb (2 * k) n then f k else pconj (f (n - k)%nat).
Definition pidft (n : nat) (f : nat -> pexp) (j : nat) : pexp :=
  PMul (PC (RtoC (/ INR n))) (psum n (fun k => PMul (f k) (PC (Cexp (0, 2 * PI * INR j * INR k / INR n)%R)))).
Definition pdft (n : nat) (f : nat -> pexp) (k : nat) : pexp :=
  psum n (fun j => PMul (f j) (PC (Cexp (0, - (2 * PI * INR j * INR k / INR n))%R))).
(** Entry [k] of [c * rfft(irfft(u) * irfft(1j * kx * u))] for arrays of [m] entries. *)
Definition padv (c : R) (kx : list R) (m k : nat) : pexp :=
  let n := (2 * (m - 1))%nat in
  PMul (PC (RtoC c)) (pdft n (fun j => PMul (pre (pidft n (pherm n PV) j)) (pre (pidft n (pherm n (fun k => PMul (PC (0, at_ 0 kx k)%R) (PV k))) j))) k).
(** Entry [k] of [x - (u + x)**3]. *)
Definition pcube (x : list R) (k : nat) : pexp :=
  let a := PC (RtoC (at_ 0 (inner x) k)) in let b := PAdd (PV k) a in PAdd a (PMul (PC (RtoC (-1))) (PMul b (PMul b b))).

Section Values.
  Variable m : nat.
  Variable v : cvec.
  Notation ev e := (pev m e v).
  Lemma pev_pre e : ev (pre e) = RtoC (fst (ev e)).
  Proof. unfold pre. cbn [pev]. rewrite pev_conj. destruct (ev e) as [a b]. unfold Cconj, Cplus, Cmult, RtoC. cbn [fst snd]. apply C_eq; cbn [fst snd]; field. Qed.
  Lemma pev_herm n f k : ev (pherm n f k) = hermitian n (fun k => ev (f k)) k.
  Proof. unfold pherm, hermitian. destruct (Nat.eqb k 0 || Nat.eqb (2 * k) n); [apply pev_pre|]. destruct (Nat.ltb (2 * k) n); [reflexivity|apply pev_conj]. Qed.
  Lemma pev_idft n f j : ev (pidft n f j) = idft n (fun k => ev (f k)) j.
  Proof. unfold pidft, idft. cbn [pev]. rewrite pev_psum. reflexivity. Qed.
  Lemma pev_dft n f k : ev (pdft n f k) = dft n (fun j => ev (f j)) k.
  Proof. unfold pdft, dft. rewrite pev_psum. reflexivity. Qed.
  Lemma pev_PV k : ev (PV k) = at_ (RtoC 0) (tab m v) k.
  Proof.
    cbn [pev]. destruct (Nat.ltb_spec k m) as [H|H]; [rewrite tab_nth by exact H; reflexivity|].
    unfold at_. rewrite nth_overflow; [reflexivity|]. rewrite tab_len. exact H.
  Qed.
End Values.
Lemma hermitian_ext n f g k : (forall k, f k = g k) -> hermitian n f k = hermitian n g k.
Proof. intros H. unfold hermitian. rewrite !H. reflexivity. Qed.
Lemma idft_ext n f g j : (forall k, f k = g k) -> idft n f j = idft n g j.
Proof. intros H. unfold idft. f_equal. apply csum_ext. intros k _. rewrite H. reflexivity. Qed.

(** The products of models.py with 1j, the transforms and the cube are these polynomials. *)
Theorem advection_poly c kx m v : (2 <= m)%nat -> length kx = m ->
  exists r, advection c kx (tab m v) = inr r /\ length r = m /\ forall k, (k < m)%nat -> at_ (RtoC 0) r k = pev m (padv c kx m k) v.
Proof.
  intros Hm Hk. unfold advection, irfft_default, ik_times. rewrite !tab_len, Hk, Nat.eqb_refl. cbn [orb].
  replace (Nat.eqb (2 * (m - 1)) 0) with false by (symmetry; apply Nat.eqb_neq; lia). rewrite !tab_len.
  replace (Nat.eqb m 1) with false by (symmetry; apply Nat.eqb_neq; lia).
  replace (Nat.eqb (2 * (m - 1)) 0) with false by (symmetry; apply Nat.eqb_neq; lia).
  set (n := (2 * (m - 1))%nat). assert (Hn : (n / 2 + 1)%nat = m).
  { unfold n. rewrite Nat.mul_comm, Nat.div_mul by lia. lia. }
  eexists. split; [reflexivity|]. split.
  - rewrite map_length. unfold rfft, irfft. rewrite !tab_len. exact Hn.
  - intros k Hkm. unfold rfft, irfft. rewrite !tab_len, Hn. unfold at_ at 1.
    rewrite (nth_indep _ _ (Cmult (RtoC c) (RtoC 0))) by (rewrite map_length, tab_len; exact Hkm).
    rewrite map_nth. fold (at_ (B := C)). unfold padv. fold n. cbn [pev]. f_equal.
    change (nth k (tab m ?f) ?d) with (at_ d (tab m f) k). rewrite tab_nth by exact Hkm. rewrite pev_dft.
    unfold dft. apply csum_ext. intros j Hj. f_equal. rewrite tab_nth by exact Hj. rewrite !tab_nth by exact Hj.
    cbn [pev]. rewrite !pev_pre, RtoC_mult. f_equal; f_equal; f_equal; rewrite pev_idft; apply idft_ext; intros i; rewrite pev_herm; apply hermitian_ext; intros l.
    + symmetry. apply pev_PV.
    + cbn [pev]. destruct (Nat.ltb_spec l m) as [Hl|Hl].
      * rewrite !tab_nth by exact Hl. reflexivity.
      * unfold at_. rewrite nth_overflow by (rewrite tab_len; exact Hl). ring.
Qed.
Theorem allen_cahn_poly x m v : length (inner x) = m -> 
  exists r, allen_cahn_nl x (tab m v) = inr r /\ length r = m /\ forall k, (k < m)%nat -> at_ (RtoC 0) r k = pev m (pcube x k) v.
Proof.
  intros Hx. unfold allen_cahn_nl. rewrite tab_len, Hx, Nat.eqb_refl. eexists. split; [reflexivity|]. split; [apply tab_len|].
  intros k Hk. rewrite tab_nth by exact Hk. unfold pcube. cbn [pev cpow]. destruct (Nat.ltb_spec k m); [|lia].
  rewrite RtoC_m1. destruct (Nat.eqb_spec m 1) as [E|E].
  - assert (k = 0)%nat by lia. subst k. rewrite !tab_nth by lia. ring.
  - rewrite !tab_nth by lia. ring.
Qed.
