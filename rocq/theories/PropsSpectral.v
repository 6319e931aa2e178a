(** * The spectral operators of the KdV and Burgers equations (C61) *)

From Coq Require Import ZArith List Bool Reals Lra Lia FunctionalExtensionality.
From Coquelicot Require Import Hierarchy Derive Complex.
From Verif Require Import Scalars Config CInst SpecPhi ContourReal Grids Derivatives Fourier PropsGrids PropsDeriv Models.
Import ListNotations.
Local Open Scope R_scope.

(** ** Inversion of [rfft] *)
Lemma idft_dft n u j : (0 < n)%nat -> (j < n)%nat -> idft n (dft n u) j = u j.
Proof.
  intros Hn Hj. rewrite idft_w by exact Hn.
  rewrite (csum_ext _ _ (fun k => csum n (fun l => u l * w n (Z.of_nat k * (Z.of_nat j - Z.of_nat l))))%C).
  2:{ intros k _. rewrite dft_w, <- csum_scal_r by exact Hn. apply csum_ext. intros l _.
      rewrite <- Cmult_assoc, <- w_add by exact Hn. f_equal. f_equal. lia. }
  rewrite csum_swap, (csum_ext _ _ (fun l => RtoC (INR n) * (u l * delta n (Z.of_nat j - Z.of_nat l)))%C).
  2:{ intros l _. rewrite csum_scal, w_sum by exact Hn. ring. }
  rewrite csum_scal, Cmult_assoc, RtoC_inv_n by exact Hn. rewrite (csum_one n j _ Hj).
  - rewrite delta_small, Nat.eqb_refl by assumption. ring.
  - intros l Hl Q. rewrite delta_small by assumption. rewrite (proj2 (Nat.eqb_neq j l)) by congruence. ring.
Qed.
Lemma hermitian_dft n u k : (0 < n)%nat -> (k < n)%nat -> (forall j, (j < n)%nat -> snd (u j) = 0) ->
  hermitian n (dft n u) k = dft n u k.
Proof.
  intros Hn Hk Hu. unfold hermitian. destruct (Nat.eqb_spec k 0) as [->|Q]; cbn [orb].
  - symmetry. apply Creal_R. now apply dft_real_0.
  - destruct (Nat.eqb_spec (2 * k) n) as [E|E]; [symmetry; apply Creal_R; now apply dft_real_half|].
    destruct (Nat.ltb_spec (2 * k) n); [reflexivity|]. rewrite <- dft_conj by (auto; lia). f_equal. lia.
Qed.
Lemma rfft_at u k : (2 * k <= length u)%nat -> at_ (RtoC 0) (rfft u) k = dft (length u) (re u) k.
Proof. intros H. unfold rfft. rewrite tab_nth by now apply half_lt. reflexivity. Qed.
Lemma irfft_rfft u : (0 < length u)%nat -> irfft (rfft u) (length u) = u.
Proof.
  intros Hn. unfold irfft. transitivity (tab (length u) (at_ 0 u)); [|apply tab_at]. apply tab_ext. intros j Hj.
  rewrite (idft_ext _ _ (dft (length u) (re u))).
  - rewrite idft_dft by assumption. reflexivity.
  - intros k Hk. rewrite (hermitian_ext _ _ (dft (length u) (re u))) by (try assumption; intros; now apply rfft_at).
    apply hermitian_dft; [assumption|assumption|reflexivity].
Qed.
Lemma even_default n : Nat.even n = true -> (0 < n)%nat -> (2 * ((n / 2 + 1) - 1) = n)%nat.
Proof. intros He Hn. apply Nat.even_spec in He. destruct He as [q ->]. rewrite (Nat.mul_comm 2 q), Nat.div_mul by lia. lia. Qed.
Lemma irfft_default_eq v n : (2 * (length v - 1) = n)%nat -> (0 < n)%nat -> irfft_default v = inr (irfft v n).
Proof. intros E Hn. unfold irfft_default. rewrite E. destruct (Nat.eqb_spec n 0); [lia|reflexivity]. Qed.
Lemma ik_times_eq kx v : length kx = length v -> (1 < length v)%nat ->
  ik_times kx v = inr (tab (length v) (fun k => (0, at_ 0 kx k)%R * at_ (RtoC 0) v k)%C).
Proof.
  intros E H. unfold ik_times. rewrite E, Nat.eqb_refl. cbn [orb]. destruct (Nat.eqb_spec (length v) 1); [lia|reflexivity].
Qed.

(** [advection] for arrays of matching length: [c rfft(u ux)]. *)
Lemma advection_eq c kx v h : length kx = length v -> length v = S h -> (0 < h)%nat ->
  advection c kx v = inr (map (Cmult (RtoC c)) (rfft (tab (2 * h) (fun j =>
    fst (idft (2 * h) (hermitian (2 * h) (at_ (RtoC 0) v)) j) *
    fst (idft (2 * h) (hermitian (2 * h) (fun k => (0, at_ 0 kx k)%R * at_ (RtoC 0) v k)%C) j))))).
Proof.
  intros Hk Hv Hh. unfold advection. rewrite (irfft_default_eq v (2 * h)) by lia.
  rewrite ik_times_eq by lia. rewrite (irfft_default_eq _ (2 * h)) by (rewrite ?tab_len; lia).
  do 3 f_equal. unfold irfft at 1. rewrite tab_len. apply tab_ext. intros j Hj. unfold irfft. rewrite !tab_nth by exact Hj.
  f_equal. f_equal. apply idft_ext. intros k Hkk. apply hermitian_ext; [exact Hkk|]. intros l Hl. rewrite tab_nth by lia. reflexivity.
Qed.
Lemma advection_len c kx v r h : length kx = length v -> length v = S h -> (0 < h)%nat -> advection c kx v = inr r -> length r = S h.
Proof.
  intros Hk Hv Hh E. rewrite (advection_eq c kx v h) in E by assumption. injection E as <-. change (h + (h + 0))%nat with (2 * h)%nat.
  assert (H2 : (2 * h / 2 = h)%nat) by (rewrite Nat.mul_comm, Nat.div_mul; lia).
  rewrite map_length, rfft_len, tab_len, H2. lia.
Qed.
(** Entry [k] of the result. *)
Definition prod_samples (kx : list R) (v : list C) (h j : nat) : R :=
  fst (idft (2 * h) (hermitian (2 * h) (at_ (RtoC 0) v)) j) *
  fst (idft (2 * h) (hermitian (2 * h) (fun k => (0, at_ 0 kx k)%R * at_ (RtoC 0) v k)%C) j).
Lemma nth_map_mult c l k : (k < length l)%nat -> nth k (map (Cmult c) l) (RtoC 0) = (c * nth k l (RtoC 0))%C.
Proof. intros H. rewrite (nth_indep _ _ (Cmult c (RtoC 0))) by (rewrite map_length; exact H). apply map_nth. Qed.
Lemma advection_at c kx v r h k : length kx = length v -> length v = S h -> (0 < h)%nat -> (k <= h)%nat ->
  advection c kx v = inr r -> nth k r (RtoC 0) = (RtoC c * dft (2 * h) (fun j => RtoC (prod_samples kx v h j)) k)%C.
Proof.
  intros Hk Hv Hh Hkh E. rewrite (advection_eq c kx v h) in E by assumption. injection E as <-. change (h + (h + 0))%nat with (2 * h)%nat.
  assert (H2 : (2 * h / 2 = h)%nat) by (rewrite Nat.mul_comm, Nat.div_mul; lia).
  rewrite nth_map_mult by (rewrite rfft_len, tab_len, H2; lia). f_equal.
  change (at_ (RtoC 0) (rfft (tab (2 * h) (prod_samples kx v h))) k = dft (2 * h) (fun j => RtoC (prod_samples kx v h j)) k).
  rewrite rfft_at by (rewrite tab_len; lia). rewrite tab_len. apply dft_ext. intros j Hj. unfold re. now rewrite tab_nth.
Qed.

(** ** The zero mode *)
Lemma rsum_two n i j f : (i < n)%nat -> (j < n)%nat -> i <> j -> (forall k, (k < n)%nat -> k <> i -> k <> j -> f k = 0) ->
  rsum n f = f i + f j.
Proof.
  assert (Z : forall n f, (forall k, (k < n)%nat -> f k = 0) -> rsum n f = 0).
  { induction n0; intros g H; cbn; [reflexivity|]. rewrite IHn0 by (intros; apply H; lia). rewrite H by lia. ring. }
  assert (O : forall n i f, (i < n)%nat -> (forall k, (k < n)%nat -> k <> i -> f k = 0) -> rsum n f = f i).
  { induction n0; intros a g Ha H; [lia|]. cbn. destruct (Nat.eq_dec a n0) as [->|Q].
    - rewrite Z by (intros; apply H; lia). ring.
    - rewrite (IHn0 a) by (try lia; intros; apply H; lia). rewrite (H n0) by lia. ring. }
  revert i j. induction n; intros i j Hi Hj Q H; [lia|]. cbn.
  destruct (Nat.eq_dec i n) as [->|Qi]; [rewrite (O n j) by (try lia; intros; apply H; lia); ring|].
  destruct (Nat.eq_dec j n) as [->|Qj]; [rewrite (O n i) by (try lia; intros; apply H; lia); ring|].
  rewrite (IHn i j) by (try lia; intros; apply H; lia). rewrite (H n) by lia. ring.
Qed.
(** Parseval for a real second factor. *)
Lemma parseval n U W : (0 < n)%nat -> herm n W ->
  csum n (fun j => idft n U j * idft n W j)%C = (RtoC (/ INR n) * csum n (fun k => U k * Cconj (W k)))%C.
Proof.
  intros Hn HW.
  rewrite (csum_ext _ _ (fun j => csum n (fun k => RtoC (/ INR n) * (U k * (idft n W j * w n (Z.of_nat j * Z.of_nat k)))))%C).
  2:{ intros j _. rewrite (idft_w n Hn U). rewrite <- csum_scal, <- csum_scal_r. apply csum_ext. intros k _. ring. }
  rewrite csum_swap, <- csum_scal. apply csum_ext. intros k Hk. rewrite csum_scal. f_equal. rewrite csum_scal. f_equal.
  rewrite <- (dft_idft n Hn W k Hk). rewrite dft_w, csum_conj by exact Hn. apply csum_ext. intros j _.
  rewrite Cmult_conj. f_equal.
  - symmetry. apply Creal. now apply herm_real.
  - rewrite <- w_opp by exact Hn. f_equal. lia.
Qed.
Lemma mean_product kx v h : (0 < h)%nat ->
  rsum (2 * h) (prod_samples kx v h) = - / (2 * INR h) * (at_ 0 kx 0 * (fst (at_ (RtoC 0) v 0) * snd (at_ (RtoC 0) v 0))
     + at_ 0 kx h * (fst (at_ (RtoC 0) v h) * snd (at_ (RtoC 0) v h))).
Proof.
  intros Hh. assert (Hn : (0 < 2 * h)%nat) by lia. set (V := at_ (RtoC 0) v). set (K := at_ 0 kx).
  set (U := hermitian (2 * h) V). set (W := hermitian (2 * h) (fun k => (0, K k)%R * V k)%C).
  assert (P := parseval (2 * h) U W Hn (hermitian_herm _ Hn _)).
  assert (E : csum (2 * h) (fun j => idft (2 * h) U j * idft (2 * h) W j)%C = RtoC (rsum (2 * h) (prod_samples kx v h))).
  { assert (Q : forall n f, csum n (fun j => RtoC (f j)) = RtoC (rsum n f)).
    { induction n; intros f; cbn; [reflexivity|]. now rewrite IHn, RtoC_plus. }
    rewrite <- Q. apply csum_ext. intros j _. unfold prod_samples. fold V K U W. rewrite RtoC_mult.
    rewrite <- !Creal_R; [reflexivity|apply herm_real; [exact Hn|apply hermitian_herm; exact Hn]..]. }
  rewrite E in P. apply (f_equal fst) in P. cbn [RtoC fst] in P. rewrite P. unfold Cmult at 1. cbn [fst snd RtoC].
  rewrite csum_fst. rewrite (rsum_two (2 * h) 0 h); [|lia|lia|lia|].
  - unfold U, W, hermitian. cbn [Nat.eqb orb]. replace (Nat.eqb h 0) with false by (symmetry; apply Nat.eqb_neq; lia).
    rewrite Nat.eqb_refl. cbn [orb]. unfold Cmult, Cconj, RtoC. cbn [fst snd]. rewrite mult_INR. cbn [INR].
    assert (INR h <> 0) by (apply not_0_INR; lia). field. assumption.
  - intros k Hk Q0 Qh. unfold U, W, hermitian.
    replace (Nat.eqb k 0) with false by (symmetry; apply Nat.eqb_neq; lia).
    replace (Nat.eqb (2 * k) (2 * h)) with false by (symmetry; apply Nat.eqb_neq; lia). cbn [orb].
    destruct (Nat.ltb (2 * k) (2 * h)); unfold Cmult, Cconj; cbn [fst snd]; ring.
Qed.

(** C61, zero mode: for arrays of [h + 1] entries (2 h grid points) the mean of the nonlinear term is
    determined by the products of real and imaginary part of the entries 0 and [h]. *)
Theorem C61_zero_mode (kx : list R) (v : list C) (h : nat) : length kx = S h -> length v = S h -> (0 < h)%nat ->
  exists r1 r2, kdv_nl kx v = inr r1 /\ burgers_nl kx v = inr r2 /\ length r1 = S h /\ length r2 = S h /\
    let s := / (2 * INR h) * (nth 0 kx 0 * (fst (nth 0 v (RtoC 0)) * snd (nth 0 v (RtoC 0)))
                              + nth h kx 0 * (fst (nth h v (RtoC 0)) * snd (nth h v (RtoC 0)))) in
    nth 0 r1 (RtoC 0) = RtoC (6 * s) /\ nth 0 r2 (RtoC 0) = RtoC s /\
    snd (nth h r1 (RtoC 0)) = 0 /\ snd (nth h r2 (RtoC 0)) = 0.
Proof.
  intros Hk Hv Hh. unfold kdv_nl, burgers_nl.
  destruct (advection (-6) kx v) as [e|r1] eqn:E1; [rewrite (advection_eq _ _ _ h) in E1 by lia; discriminate|].
  destruct (advection (-1) kx v) as [e|r2] eqn:E2; [rewrite (advection_eq _ _ _ h) in E2 by lia; discriminate|].
  exists r1, r2. split; [reflexivity|]. split; [reflexivity|].
  split; [apply (advection_len (-6) kx v r1 h); (assumption || lia)|]. split; [apply (advection_len (-1) kx v r2 h); (assumption || lia)|].
  assert (Z : dft (2 * h) (fun j => RtoC (prod_samples kx v h j)) 0 = RtoC (rsum (2 * h) (prod_samples kx v h))).
  { rewrite dft_w by lia. assert (Q : forall n f, csum n (fun j => RtoC (f j)) = RtoC (rsum n f)).
    { induction n; intros f; cbn; [reflexivity|]. now rewrite IHn, RtoC_plus. }
    rewrite <- Q. apply csum_ext. intros j _. replace (- (Z.of_nat j * Z.of_nat 0))%Z with 0%Z by lia. rewrite w_0 by lia. ring. }
  cbv zeta. assert (Hkv : length kx = length v) by lia.
  rewrite (advection_at (-6) kx v r1 h 0 Hkv Hv Hh (Nat.le_0_l h) E1), (advection_at (-1) kx v r2 h 0 Hkv Hv Hh (Nat.le_0_l h) E2).
  rewrite (advection_at (-6) kx v r1 h h Hkv Hv Hh (le_n h) E1), (advection_at (-1) kx v r2 h h Hkv Hv Hh (le_n h) E2).
  rewrite Z, mean_product by exact Hh. rewrite <- !RtoC_mult. unfold at_.
  assert (Rh : snd (dft (2 * h) (fun j => RtoC (prod_samples kx v h j)) h) = 0) by (apply dft_real_half; [lia|reflexivity|reflexivity]).
  split; [f_equal; ring|]. split; [f_equal; ring|]. split; unfold Cmult; cbn [fst snd]; rewrite Rh; cbn [RtoC fst snd]; ring.
Qed.

(** ** The operators implement the equations *)
Lemma trig_real M c kap a : exists c', forall t, trig M c' kap a t = RtoC (fst (trig M c kap a t)).
Proof.
  exists (fun m => (RtoC (1 / 2) * (c m + Cconj (c (- m)%Z)))%C). intros t.
  assert (P : trig M (fun m => Cconj (c (- m)%Z)) kap a t = Cconj (trig M c kap a t)).
  { unfold trig. rewrite csum_conj, csum_rev. apply csum_ext. intros p Hp. cbv zeta. rewrite Cmult_conj.
    replace (Z.of_nat (2 * M + 1 - 1 - p) - Z.of_nat M)%Z with (- (Z.of_nat p - Z.of_nat M))%Z by lia.
    rewrite Z.opp_involutive. f_equal. unfold Cexp, Cconj. cbn [fst snd]. rewrite opp_IZR.
    replace (- IZR (Z.of_nat p - Z.of_nat M) * kap * (t - a)) with (- (IZR (Z.of_nat p - Z.of_nat M) * kap * (t - a))) by ring.
    rewrite cos_neg, sin_neg. apply C_eq; ring. }
  transitivity (RtoC (1 / 2) * (trig M c kap a t + trig M (fun m => Cconj (c (- m)%Z)) kap a t))%C.
  - unfold trig. rewrite <- csum_plus, <- csum_scal. apply csum_ext. intros p _. cbv zeta. ring.
  - rewrite P. unfold Cmult, Cplus, Cconj, RtoC. cbn [fst snd]. apply C_eq; field.
Qed.
Lemma nth_Cder_Im k f g : nth_Cder k f g -> forall t, Derive_n (fun t => snd (f t)) k t = snd (g t).
Proof.
  intros [h [H0 [H1 H2]]] t. rewrite <- H1.
  assert (G : forall i, (i <= k)%nat -> forall t, Derive_n (fun t => snd (f t)) i t = snd (h i t)).
  { induction i as [|i IH]; intros Hi s; [cbn; now rewrite H0|]. cbn [Derive_n].
    rewrite (Derive_ext _ (fun t => snd (h i t))) by (intros; apply IH; lia). apply is_derive_unique. apply (H2 i). lia. }
  now apply G.
Qed.
(** Derivatives of a real-valued trigonometric polynomial. *)
Lemma trig_n_real K M c kap a (f : R -> R) : (forall t, trig M c kap a t = RtoC (f t)) ->
  forall t, trig_n K M c kap a t = RtoC (Derive_n f K t).
Proof.
  intros H t. assert (A := nth_Cder_Re K _ _ (trig_nth K M c kap a) t). assert (B := nth_Cder_Im K _ _ (trig_nth K M c kap a) t).
  rewrite (Derive_n_ext _ f) in A by (intros; now rewrite H).
  assert (B' : Derive_n (fun t => snd (trig M c kap a t)) K t = 0).
  { rewrite (Derive_n_ext _ (fun _ => 0)) by (intros; now rewrite H). destruct K; [reflexivity|]. apply Derive_n_const. }
  rewrite B' in B. rewrite A. destruct (trig_n K M c kap a t) as [p q]. cbn [fst snd] in *. subst q. reflexivity.
Qed.
(** Coefficients of the derivatives on the grid. *)
Lemma dft_derivative n M K a b x kx c (f : R -> R) k : (2 < n)%nat -> Nat.even n = true -> a <> b -> (2 * M < n)%nat ->
  rfft_grid (PInt (Z.of_nat n)) (num a) (num b) = inr (x, kx) -> (2 * k <= n)%nat ->
  (forall t, trig M c (2 * PI / (b - a)) a t = RtoC (f t)) ->
  dft n (re (map (Derive_n f K) x)) k = (cpow (0, at_ 0 kx k)%R K * dft n (re (map f x)) k)%C.
Proof.
  intros Hn He Hab HM E Hk Hf.
  destruct (C49_uniform_grid n (num a) (num b) Hn He Hab) as (x' & kx' & k' & E0 & E' & Lx & Hx & _).
  rewrite E in E'. injection E' as <- <-.
  destruct (C50_rfft_wavenumbers n (num a) (num b) Hn He Hab) as (x' & k' & E' & Lr & Hr).
  rewrite E in E'. injection E' as <- <-. cbn [val] in Hx, Hr. change (T Rops) with R in *.
  assert (N0 : INR n <> 0) by (apply not_0_INR; lia).
  assert (Sm : forall c j, (j < n)%nat -> trig M c (2 * PI / (b - a)) a (nth j x 0)
      = csum (2 * M + 1) (fun p => c (Z.of_nat p - Z.of_nat M)%Z * w n (Z.of_nat j * (Z.of_nat p - Z.of_nat M)))%C).
  { intros c' j Hj. apply csum_ext. intros p _. cbv zeta. f_equal. unfold w. f_equal. rewrite Hx by exact Hj.
    apply C_eq; [reflexivity|]. rewrite mult_IZR, <- INR_IZR_INZ. field. split; lra. }
  assert (D : forall c (g : R -> R), (forall t, trig M c (2 * PI / (b - a)) a t = RtoC (g t)) -> dft n (re (map g x)) k
     = csum (2 * M + 1) (fun p => c (Z.of_nat p - Z.of_nat M)%Z * (RtoC (INR n) * delta n (Z.of_nat p - Z.of_nat M - Z.of_nat k)))%C).
  { intros c' g Hg. rewrite dft_w by lia.
    rewrite (csum_ext _ _ (fun i => csum (2 * M + 1) (fun p => c' (Z.of_nat p - Z.of_nat M)%Z * w n (Z.of_nat i * (Z.of_nat p - Z.of_nat M - Z.of_nat k))))%C).
    - rewrite csum_swap. apply csum_ext. intros p _. rewrite csum_scal, w_sum by lia. reflexivity.
    - intros i Hi. unfold re, at_. rewrite (nth_indep _ 0 (g 0)) by (rewrite map_length; lia). rewrite map_nth, <- Hg.
      rewrite Sm by exact Hi. rewrite <- csum_scal_r. apply csum_ext. intros p _.
      rewrite <- Cmult_assoc, <- w_add by lia. f_equal. f_equal. lia. }
  rewrite (D c f Hf), (D (fun m => c m * cpow (0, IZR m * (2 * PI / (b - a)))%R K)%C (Derive_n f K)).
  2:{ intros t. apply (trig_n_real K M c (2 * PI / (b - a)) a f Hf t). }
  rewrite <- csum_scal. apply csum_ext. intros p Hp. set (m := (Z.of_nat p - Z.of_nat M)%Z).
  unfold delta. destruct (Z.eqb_spec ((m - Z.of_nat k) mod Z.of_nat n) 0) as [A|A]; [|ring].
  assert (Hm : m = Z.of_nat k).
  { apply Z.mod_divide in A; [|lia]. destruct A as [q A]. assert (q = 0 \/ q >= 1 \/ q <= -1)%Z by lia. unfold m in *. nia. }
  assert (Kx : at_ 0 kx k = IZR m * (2 * PI / (b - a))).
  { unfold at_. destruct (even_half n Hn He) as [Q1 Q2]. rewrite Hr by lia. rewrite Hm, <- INR_IZR_INZ. field. lra. }
  rewrite Kx. ring.
Qed.

Lemma inr_inj {A B} (a b : B) : @inr A B a = inr b -> a = b.
Proof. congruence. Qed.
Lemma map_tab {B D} (d : B) (f : B -> D) l : map f l = tab (length l) (fun j => f (at_ d l j)).
Proof. unfold tab. rewrite <- (tab_at d l) at 1. unfold tab. now rewrite map_map. Qed.
(** The nonlinear term at the transform of the samples. *)
Lemma advection_samples c n M a b x kx cf (f : R -> R) : (2 < n)%nat -> Nat.even n = true -> a <> b -> (2 * M < n)%nat ->
  rfft_grid (PInt (Z.of_nat n)) (num a) (num b) = inr (x, kx) ->
  (forall t, trig M cf (2 * PI / (b - a)) a t = RtoC (f t)) ->
  advection c kx (rfft (map f x)) = inr (map (Cmult (RtoC c)) (rfft (map (fun t => f t * Derive f t) x))).
Proof.
  intros Hn He Hab HM E Hf.
  destruct (C49_uniform_grid n (num a) (num b) Hn He Hab) as (x' & kx' & k' & E0 & E' & Lx & _).
  rewrite E in E'. injection E' as <- <-.
  destruct (grid_layouts n a b x kx' x kx Hn He Hab E0 E) as (_ & Lk & Lr & _ & _). change (T Rops) with R in *.
  assert (Q := even_default n He ltac:(lia)).
  assert (Lf : length (map f x) = n) by (rewrite map_length; exact Lx).
  unfold advection. rewrite (irfft_default_eq _ n) by (rewrite ?rfft_len, ?Lf; lia).
  assert (I : irfft (rfft (map f x)) n = map f x). { transitivity (irfft (rfft (map f x)) (length (map f x))); [now rewrite Lf|]. apply irfft_rfft. rewrite Lf. lia. }
  rewrite I. rewrite ik_times_eq by (rewrite rfft_len, Lf; lia).
  rewrite (irfft_default_eq _ n) by (rewrite ?tab_len, ?rfft_len, ?Lf; lia).
  (* the derivative *)
  assert (X := C53_rfft_exact n M 1 a b cf Hn He Hab HM). destruct X as (x1 & kx1 & E1 & X).
  assert (E2 := eq_trans (eq_sym E) E1). injection E2 as <- <-. change (T Rops) with R in X.
  assert (Ff : forall t, fst (trig M cf (2 * PI / (b - a)) a t) = f t) by (intros t; now rewrite Hf).
  rewrite (map_ext _ f Ff) in X.
  replace (map (Derive_n (fun x => fst (trig M cf (2 * PI / (b - a)) a x)) 1) x) with (map (Derive f) x) in X.
  2:{ apply map_ext. intros t. cbn [Derive_n]. apply Derive_ext. intros s. symmetry. apply Ff. }
  rewrite dx_rfft_eq in X by (rewrite ?map_length, ?Lx; lia). rewrite Lf in X. apply inr_inj in X.
  assert (J : irfft (tab (length (rfft (map f x))) (fun k => (0, at_ 0 kx k)%R * at_ (RtoC 0) (rfft (map f x)) k)%C) n = map (Derive f) x).
  { rewrite <- X. unfold irfft. apply tab_ext. intros j Hj. f_equal. apply idft_ext. intros k Hk. apply hermitian_ext; [exact Hk|].
    intros l Hl. rewrite tab_nth by (rewrite rfft_len, Lf; now apply half_lt). rewrite rfft_at, Lf by (rewrite Lf; exact Hl).
    unfold ik_hat. cbn [cpow]. ring. }
  rewrite J. do 3 f_equal. rewrite map_length, (map_tab 0 (fun t => f t * Derive f t) x). apply tab_ext. intros j Hj. unfold at_.
  rewrite (nth_indep (map f x) 0 (f 0)), (nth_indep (map (Derive f) x) 0 (Derive f 0)) by (rewrite map_length; exact Hj).
  now rewrite (map_nth f), (map_nth (Derive f)).
Qed.
Lemma dft_lin n k u v (p q : C) : dft n (fun j => p * u j + q * v j)%C k = (p * dft n u k + q * dft n v k)%C.
Proof. unfold dft. rewrite <- !csum_scal, <- csum_plus. apply csum_ext. intros j _. ring. Qed.
Lemma re_map (f : R -> R) x j : (j < length x)%nat -> re (map f x) j = RtoC (f (at_ 0 x j)).
Proof. intros H. unfold re, at_. rewrite (nth_indep _ 0 (f 0)) by (rewrite map_length; exact H). now rewrite map_nth. Qed.

(** C61, signs and factors: on the grid of [construct_x_kx_rfft], for every real trigonometric polynomial [f] of
    degree below [n / 2], the sum of the two parts is the transform of the samples of the right-hand side. *)
Theorem C61_operators (n M : nat) (a b mu : R) (c : Z -> C) : (2 < n)%nat -> Nat.even n = true -> a <> b -> (2 * M < n)%nat ->
  let f := fun x => fst (trig M c (2 * PI / (b - a)) a x) in
  exists x kx v1 v2, rfft_grid (PInt (Z.of_nat n)) (num a) (num b) = inr (x, kx) /\
    kdv_nl kx (rfft (map f x)) = inr v1 /\ burgers_nl kx (rfft (map f x)) = inr v2 /\
    forall k, (k <= n / 2)%nat ->
      (nth k (kdv_lin kx) (RtoC 0) * nth k (rfft (map f x)) (RtoC 0) + nth k v1 (RtoC 0))%C
        = nth k (rfft (map (fun t => - 6 * f t * Derive f t - Derive_n f 3 t) x)) (RtoC 0) /\
      (nth k (burgers_lin kx mu) (RtoC 0) * nth k (rfft (map f x)) (RtoC 0) + nth k v2 (RtoC 0))%C
        = nth k (rfft (map (fun t => - f t * Derive f t + mu * Derive_n f 2 t) x)) (RtoC 0).
Proof.
  intros Hn He Hab HM f.
  destruct (C49_uniform_grid n (num a) (num b) Hn He Hab) as (x & kx' & kx & E0 & E & Lx & _).
  destruct (grid_layouts n a b x kx' x kx Hn He Hab E0 E) as (_ & _ & Lr & _ & _). change (T Rops) with R in *.
  destruct (trig_real M c (2 * PI / (b - a)) a) as [c' Hc]. fold f in Hc.
  change (forall t, trig M c' (2 * PI / (b - a)) a t = RtoC (f t)) in Hc.
  exists x, kx. eexists _, _. split; [exact E|].
  split; [apply (advection_samples (-6) n M a b x kx c' f Hn He Hab HM E Hc)|].
  split; [apply (advection_samples (-1) n M a b x kx c' f Hn He Hab HM E Hc)|].
  intros k Hk. destruct (even_half n Hn He) as [Q1 Q2].
  assert (Hk2 : (2 * k <= n)%nat) by lia.
  assert (Lm : forall g : R -> R, length (map g x) = n) by (intros; rewrite map_length; exact Lx).
  assert (At : forall g : R -> R, nth k (rfft (map g x)) (RtoC 0) = dft n (re (map g x)) k).
  { intros g. change (at_ (RtoC 0) (rfft (map g x)) k = dft n (re (map g x)) k). rewrite rfft_at by (rewrite Lm; exact Hk2). now rewrite Lm. }
  rewrite !nth_map_mult by (rewrite rfft_len, Lm; lia). rewrite !At.
  assert (D2 := dft_derivative n M 2 a b x kx c' f k Hn He Hab HM E Hk2 Hc).
  assert (D3 := dft_derivative n M 3 a b x kx c' f k Hn He Hab HM E Hk2 Hc).
  unfold kdv_lin, burgers_lin.
  rewrite (nth_indep (map (fun k => (0, 1)%R * RtoC (k ^ 3))%C kx) (RtoC 0) ((0, 1)%R * RtoC (0 ^ 3))%C) by (rewrite map_length, Lr; lia).
  rewrite (nth_indep (map (fun k => RtoC (- mu * k ^ 2)) kx) (RtoC 0) (RtoC (- mu * 0 ^ 2))) by (rewrite map_length, Lr; lia).
  rewrite (map_nth (fun k => (0, 1)%R * RtoC (k ^ 3))%C), (map_nth (fun k => RtoC (- mu * k ^ 2))). fold (at_ 0 kx k).
  split.
  - rewrite (dft_ext n (re (map (fun t => - 6 * f t * Derive f t - Derive_n f 3 t) x))
      (fun j => RtoC (-6) * re (map (fun t => f t * Derive f t)%R x) j + RtoC (-1) * re (map (Derive_n f 3) x) j)%C).
    + rewrite dft_lin, D3. set (d := dft n (re (map f x)) k). set (e := dft n _ k). clearbody d e. set (q := at_ 0 kx k).
      replace (cpow (0, q)%R 3) with (0, - q ^ 3)%R by (cbn [cpow]; unfold Cmult, RtoC; cbn [fst snd]; apply C_eq; ring).
      unfold Cmult, Cplus, RtoC. cbn [fst snd]. apply C_eq; ring.
    + intros j Hj. rewrite !re_map by (rewrite Lx; exact Hj). rewrite <- !RtoC_mult, <- RtoC_plus. f_equal. ring.
  - rewrite (dft_ext n (re (map (fun t => - f t * Derive f t + mu * Derive_n f 2 t) x))
      (fun j => RtoC (-1) * re (map (fun t => f t * Derive f t)%R x) j + RtoC mu * re (map (Derive_n f 2) x) j)%C).
    + rewrite dft_lin, D2. set (d := dft n (re (map f x)) k). set (e := dft n _ k). clearbody d e. set (q := at_ 0 kx k).
      replace (cpow (0, q)%R 2) with (- q ^ 2, 0)%R by (cbn [cpow]; unfold Cmult, RtoC; cbn [fst snd]; apply C_eq; ring).
      unfold Cmult, Cplus, RtoC. cbn [fst snd]. apply C_eq; ring.
    + intros j Hj. rewrite !re_map by (rewrite Lx; exact Hj). rewrite <- !RtoC_mult, <- RtoC_plus. f_equal. ring.
Qed.
Print Assumptions C61_operators.
Example C61_case : exists x kx v1 v2, rfft_grid (PInt 4) (num 0) (num (2 * PI)) = inr (x, kx) /\
    kdv_nl kx (rfft (map cos x)) = inr v1 /\ burgers_nl kx (rfft (map cos x)) = inr v2 /\
    (nth 1 (kdv_lin kx) (RtoC 0) * nth 1 (rfft (map cos x)) (RtoC 0) + nth 1 v1 (RtoC 0))%C
      = nth 1 (rfft (map (fun t => - 6 * cos t * - sin t - sin t) x)) (RtoC 0).
Proof.
  assert (P0 := PI_RGT_0).
  assert (F : forall x, fst (trig 1 (fun m => if Z.eqb m 1 then RtoC 1 else RtoC 0) (2 * PI / (2 * PI - 0)) 0 x) = cos x).
  { intros x. unfold trig. cbn [Nat.mul Nat.add csum Z.of_nat Pos.of_succ_nat Z.sub Z.add Z.opp Pos.succ Z.pos_sub Pos.pred_double Z.eqb Pos.eqb].
    replace (1 * (2 * PI / (2 * PI - 0)) * (x - 0)) with x by (field; lra).
    unfold Cexp, Cmult, Cplus, RtoC. cbn [fst snd]. rewrite exp_0. ring. }
  destruct (C61_operators 4 1 0 (2 * PI) 0 (fun m => if Z.eqb m 1 then RtoC 1 else RtoC 0) ltac:(lia) eq_refl ltac:(lra) ltac:(lia))
    as (x & kx & v1 & v2 & E & E1 & E2 & H).
  cbv zeta in E1, E2, H. rewrite (map_ext _ cos F) in E1, E2. exists x, kx, v1, v2. split; [exact E|]. split; [exact E1|]. split; [exact E2|].
  specialize (H 1%nat ltac:(cbn; lia)). destruct H as [H _]. rewrite (map_ext _ cos F) in H. rewrite H. f_equal. f_equal. apply map_ext. intros t. rewrite F.
  rewrite (Derive_ext _ cos t F), (Derive_n_ext _ cos 3 t F).
  assert (D1 : forall t, Derive cos t = - sin t) by (intros; apply is_derive_unique, is_derive_Reals, derivable_pt_lim_cos).
  assert (D2 : forall t, Derive (fun t => - sin t) t = - cos t).
  { intros s. apply is_derive_unique. apply (is_derive_opp sin s (cos s)). apply is_derive_Reals, derivable_pt_lim_sin. }
  assert (D3 : forall t, Derive (fun t => - cos t) t = sin t).
  { intros s. apply is_derive_unique. replace (sin s) with (- - sin s) by ring. apply (is_derive_opp cos s (- sin s)). apply is_derive_Reals, derivable_pt_lim_cos. }
  rewrite D1. cbn [Derive_n]. rewrite (Derive_ext _ (fun t => - cos t)), D3; [reflexivity|].
  intros s. refine (eq_trans (Derive_ext _ (fun t => - sin t) s D1) (D2 s)).
Qed.

(** Exceptions of the nonlinear functions. *)
Theorem C61_errors (kx : list R) (v : list C) :
  let bad := (length v <= 1)%nat \/ (length kx <> length v /\ length kx <> 1%nat) in
  (bad -> kdv_nl kx v = inl ValueError /\ burgers_nl kx v = inl ValueError) /\
  (~ bad -> exists r1 r2, kdv_nl kx v = inr r1 /\ burgers_nl kx v = inr r2 /\ length r1 = length v /\ length r2 = length v).
Proof.
  cbv zeta. unfold kdv_nl, burgers_nl, advection, irfft_default. split.
  - intros [H|[H1 H2]].
    + replace (Nat.eqb (2 * (length v - 1)) 0) with true by (symmetry; apply Nat.eqb_eq; lia). split; reflexivity.
    + destruct (Nat.eqb (2 * (length v - 1)) 0); [split; reflexivity|]. unfold ik_times.
      rewrite (proj2 (Nat.eqb_neq _ _) H1), (proj2 (Nat.eqb_neq _ _) H2). split; reflexivity.
  - intros H. assert (Lv : (1 < length v)%nat) by lia.
    replace (Nat.eqb (2 * (length v - 1)) 0) with false by (symmetry; apply Nat.eqb_neq; lia). unfold ik_times.
    replace (Nat.eqb (length kx) (length v) || Nat.eqb (length kx) 1) with true.
    + rewrite tab_len. replace (Nat.eqb (2 * (length v - 1)) 0) with false by (symmetry; apply Nat.eqb_neq; lia).
      eexists _, _. split; [reflexivity|]. split; [reflexivity|]. rewrite !map_length, !rfft_len, !tab_len. unfold irfft. rewrite tab_len.
      assert (Q : (2 * (length v - 1) / 2 = length v - 1)%nat) by (rewrite Nat.mul_comm, Nat.div_mul; lia). rewrite Q. lia.
    + symmetry. apply orb_true_iff. rewrite !Nat.eqb_eq. lia.
Qed.
