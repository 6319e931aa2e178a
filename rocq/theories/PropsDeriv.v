(** * Spectral derivatives (C53 - C56) *)

From Coq Require Import ZArith List Bool Reals Lra Lia.
From Coquelicot Require Import Hierarchy Derive Complex.
From Verif Require Import Scalars Config CInst SpecPhi ContourReal Grids Derivatives Fourier PropsGrids.
Import ListNotations.
Local Open Scope R_scope.

(** ** Specification: trigonometric polynomials and repeated derivatives *)

(** [sum over -M <= m <= M of c m exp(i m kap (x - a))]. *)
Definition trig (M : nat) (c : Z -> C) (kap a x : R) : C :=
  csum (2 * M + 1) (fun p => let m := (Z.of_nat p - Z.of_nat M)%Z in c m * Cexp (0, IZR m * kap * (x - a))%R)%C.
(** [g] is the [k]-th derivative of [f]. *)
Definition nth_Cder (k : nat) (f g : R -> C) : Prop :=
  exists h : nat -> R -> C, (forall t, h O t = f t) /\ (forall t, h k t = g t) /\
    forall i, (i < k)%nat -> forall t, is_Cder (h i) t (h (S i) t).

Lemma trig_der M c kap a x : is_Cder (trig M c kap a) x (trig M (fun m => c m * (0, IZR m * kap)%R)%C kap a x).
Proof.
  unfold trig. apply (is_Cder_csum (2 * M + 1) (fun p x => let m := (Z.of_nat p - Z.of_nat M)%Z in c m * Cexp (0, IZR m * kap * (x - a))%R)%C).
  intros p _. cbv zeta. set (m := (Z.of_nat p - Z.of_nat M)%Z).
  eapply is_Cder_eq; [| |apply (is_Cder_mult (fun _ => c m) (fun t => Cexp ((0, - (IZR m * kap * a))%R + RtoC t * (0, IZR m * kap)%R))%C x);
    [apply is_Cder_const|apply is_Cder_exp]].
  - intros t. cbv beta. f_equal. f_equal. unfold Cplus, Cmult, RtoC. cbn. apply C_eq; ring.
  - cbv beta. replace ((0, - (IZR m * kap * a))%R + RtoC x * (0, IZR m * kap)%R)%C with (0, IZR m * kap * (x - a))%R.
    + ring.
    + unfold Cplus, Cmult, RtoC. cbn. apply C_eq; ring.
Qed.
Definition trig_n (k M : nat) (c : Z -> C) (kap a : R) : R -> C := trig M (fun m => c m * cpow (0, IZR m * kap)%R k)%C kap a.
Lemma trig_ext M c c' kap a x : (forall m, c m = c' m) -> trig M c kap a x = trig M c' kap a x.
Proof. intros H. apply csum_ext. intros p _. cbv zeta. now rewrite H. Qed.
Lemma trig_nth k M c kap a : nth_Cder k (trig M c kap a) (trig_n k M c kap a).
Proof.
  exists (fun i => trig_n i M c kap a). split; [intros t; apply trig_ext; intros; cbn; ring|]. split; [reflexivity|].
  intros i _ t. eapply is_Cder_eq; [reflexivity| |apply trig_der]. apply trig_ext. intros m. cbn [cpow]. ring.
Qed.
Lemma is_Cder_unique f t a b : is_Cder f t a -> is_Cder f t b -> a = b.
Proof.
  intros [A1 A2] [B1 B2]. destruct a, b. apply is_derive_unique in A1, A2, B1, B2. cbn in *. congruence.
Qed.
Lemma nth_Cder_unique k f g g' : nth_Cder k f g -> nth_Cder k f g' -> forall t, g t = g' t.
Proof.
  intros [h [H0 [H1 H2]]] [h' [H0' [H1' H2']]] t. rewrite <- H1, <- H1'.
  assert (G : forall i, (i <= k)%nat -> forall t, h i t = h' i t).
  { induction i as [|i IH]; intros Hi s; [now rewrite H0, H0'|].
    apply (is_Cder_unique (h' i) s); [|apply H2'; lia]. eapply is_Cder_eq; [|reflexivity|apply (H2 i); lia].
    intros; apply IH; lia. }
  now apply G.
Qed.
(** The real part is differentiated in the usual sense. *)
Lemma nth_Cder_Re k f g : nth_Cder k f g -> forall t, Derive_n (fun t => fst (f t)) k t = fst (g t).
Proof.
  intros [h [H0 [H1 H2]]] t. rewrite <- H1.
  assert (G : forall i, (i <= k)%nat -> forall t, Derive_n (fun t => fst (f t)) i t = fst (h i t)).
  { induction i as [|i IH]; intros Hi s; [cbn; now rewrite H0|]. cbn [Derive_n].
    rewrite (Derive_ext _ (fun t => fst (h i t))) by (intros; apply IH; lia). apply is_derive_unique. apply (H2 i). lia. }
  now apply G.
Qed.

(** ** The result of [dx_fft] *)
Lemma check_order_nat k : check_order (PInt (Z.of_nat k)) = inr k.
Proof. cbn. replace (Z.of_nat k <? 0)%Z with false by (symmetry; apply Z.ltb_ge; lia). now rewrite Nat2Z.id. Qed.
Lemma fft_len u : length (fft u) = length u.
Proof. apply tab_len. Qed.
Lemma apply_ik_len kx k v : length (apply_ik kx k v) = length v.
Proof. apply tab_len. Qed.
Lemma idft_ext n v v' j : (forall k, (k < n)%nat -> v k = v' k) -> idft n v j = idft n v' j.
Proof. intros H. unfold idft. f_equal. apply csum_ext. intros k Hk. now rewrite H. Qed.
Lemma dft_ext n u u' k : (forall j, (j < n)%nat -> u j = u' j) -> dft n u k = dft n u' k.
Proof. intros H. unfold dft. apply csum_ext. intros j Hj. now rewrite H. Qed.

Definition ik_hat (n : nat) (kx : nat -> R) (K : nat) (u : nat -> C) (k : nat) : C := (cpow (0, kx k)%R K * dft n u k)%C.
Lemma dx_fft_eq kx u K : length kx = length u -> (0 < length u)%nat -> (0 < K)%nat ->
  dx_fft kx u (PInt (Z.of_nat K)) = inr (tab (length u) (idft (length u) (ik_hat (length u) (at_ 0 kx) K (at_ (RtoC 0) u)))).
Proof.
  intros Hl Hu HK. unfold dx_fft. rewrite check_order_nat. destruct K as [|K]; [lia|].
  replace (Nat.eqb (length u) 0) with false by (symmetry; apply Nat.eqb_neq; lia).
  rewrite fft_len, Hl, Nat.eqb_refl. f_equal. unfold ifft. rewrite apply_ik_len, fft_len. apply tab_ext. intros j _.
  apply idft_ext. intros k Hk. unfold apply_ik. rewrite tab_nth by (rewrite fft_len; exact Hk). unfold ik_hat. f_equal.
  unfold fft. now rewrite tab_nth.
Qed.

(** C53 for [dx_fft]. *)
Theorem C53_fft_exact (n M K : nat) (a b : R) (c : Z -> C) : (2 < n)%nat -> Nat.even n = true -> a <> b -> (2 * M < n)%nat ->
  let f := trig M c (2 * PI / (b - a)) a in
  exists x kx g, fft_grid (PInt (Z.of_nat n)) (num a) (num b) = inr (x, kx) /\ nth_Cder K f g /\
    dx_fft kx (map f x) (PInt (Z.of_nat K)) = inr (map g x).
Proof.
  intros Hn He Hab HM f.
  destruct (C49_uniform_grid n (num a) (num b) Hn He Hab) as (x & kx & k' & E & _ & Lx & Hx & _).
  destruct (C50_fft_wavenumbers n (num a) (num b) Hn He Hab) as (x' & k2 & E' & Lk & Hk1 & Hk2 & _).
  rewrite E in E'. injection E' as <- <-. cbn [val] in Hx, Hk1, Hk2. change (T Rops) with R in *.
  exists x, kx, (trig_n K M c (2 * PI / (b - a)) a). split; [exact E|]. split; [apply trig_nth|].
  assert (N0 : INR n <> 0) by (apply not_0_INR; lia).
  (* samples *)
  assert (Sm : forall c j, (j < n)%nat -> trig M c (2 * PI / (b - a)) a (nth j x 0)
      = csum (2 * M + 1) (fun p => c (Z.of_nat p - Z.of_nat M)%Z * w n (Z.of_nat j * (Z.of_nat p - Z.of_nat M)))%C).
  { intros c' j Hj. apply csum_ext. intros p _. cbv zeta. f_equal. unfold w. f_equal. rewrite Hx by exact Hj.
    apply C_eq; [reflexivity|]. rewrite mult_IZR, <- INR_IZR_INZ. field. split; lra. }
  destruct K as [|K].
  { unfold dx_fft. rewrite check_order_nat. f_equal. apply map_ext. intros t. apply trig_ext. intros; cbn; ring. }
  rewrite dx_fft_eq by (rewrite ?map_length; lia). rewrite map_length, Lx. f_equal.
  apply (nth_ext _ _ (RtoC 0) (RtoC 0)); [now rewrite tab_len, map_length|]. rewrite tab_len. intros j Hj.
  change (at_ (RtoC 0) (tab n (idft n (ik_hat n (at_ 0 kx) (S K) (at_ (RtoC 0) (map f x))))) j
    = nth j (map (trig_n (S K) M c (2 * PI / (b - a)) a) x) (RtoC 0)).
  rewrite tab_nth by exact Hj.
  rewrite (nth_indep _ (RtoC 0) (trig_n (S K) M c (2 * PI / (b - a)) a 0)) by (rewrite map_length; lia).
  rewrite map_nth. unfold trig_n. rewrite Sm by exact Hj. set (KK := S K).
  assert (D : forall k, (k < n)%nat -> dft n (at_ (RtoC 0) (map f x)) k
     = csum (2 * M + 1) (fun p => c (Z.of_nat p - Z.of_nat M)%Z * (RtoC (INR n) * delta n (Z.of_nat p - Z.of_nat M - Z.of_nat k)))%C).
  { intros k Hk. rewrite dft_w by lia.
    rewrite (csum_ext _ _ (fun i => csum (2 * M + 1) (fun p => c (Z.of_nat p - Z.of_nat M)%Z * w n (Z.of_nat i * (Z.of_nat p - Z.of_nat M - Z.of_nat k))))%C).
    - rewrite csum_swap. apply csum_ext. intros p _. rewrite csum_scal, w_sum by lia. reflexivity.
    - intros i Hi. unfold at_. rewrite (nth_indep _ (RtoC 0) (f 0)) by (rewrite map_length; lia). rewrite map_nth. unfold f.
      rewrite Sm by exact Hi. rewrite <- csum_scal_r. apply csum_ext. intros p _.
      rewrite <- Cmult_assoc, <- w_add by lia. f_equal. f_equal. lia. }
  rewrite idft_w by lia.
  rewrite (csum_ext n _ (fun k => csum (2 * M + 1) (fun p => RtoC (INR n) * c (Z.of_nat p - Z.of_nat M)%Z *
      (delta n (Z.of_nat p - Z.of_nat M - Z.of_nat k) * (cpow (0, at_ 0 kx k)%R KK * w n (Z.of_nat j * Z.of_nat k)))))%C).
  2:{ intros k Hk. unfold ik_hat. rewrite D by exact Hk. rewrite <- csum_scal, <- csum_scal_r. apply csum_ext. intros p _. ring. }
  rewrite csum_swap, <- csum_scal. apply csum_ext. intros p Hp. set (m := (Z.of_nat p - Z.of_nat M)%Z).
  rewrite csum_scal.
  (* the only surviving mode *)
  set (k := Z.to_nat (m mod Z.of_nat n)).
  assert (Bm := Z.mod_pos_bound m (Z.of_nat n) ltac:(lia)).
  assert (Hkn : (k < n)%nat) by (unfold k; lia).
  assert (Zk : Z.of_nat k = (m mod Z.of_nat n)%Z) by (unfold k; rewrite Z2Nat.id; lia).
  rewrite (csum_one n k _ Hkn).
  - replace (delta n (m - Z.of_nat k)) with (RtoC 1).
    2:{ unfold delta. rewrite Zk, Zminus_mod_idemp_r, Z.sub_diag, Z.mod_0_l by lia. reflexivity. }
    replace (at_ 0 kx k) with (IZR m * (2 * PI / (b - a))).
    + replace (w n (Z.of_nat j * Z.of_nat k)) with (w n (Z.of_nat j * m)).
      * set (q := cpow _ KK). set (W := w n _).
        replace (RtoC (/ INR n) * (RtoC (INR n) * c m * (RtoC 1 * (q * W))))%C with ((RtoC (/ INR n) * RtoC (INR n)) * (c m * q * W))%C by ring.
        rewrite RtoC_inv_n by lia. ring.
      * apply w_mod; [lia|]. rewrite Zk. now rewrite Zmult_mod_idemp_r.
    + unfold at_. assert (Hm : (m = Z.of_nat k \/ m = Z.of_nat k - Z.of_nat n)%Z).
      { assert (Q := Z.div_mod m (Z.of_nat n) ltac:(lia)). rewrite <- Zk in Q. unfold m in *. 
        assert ((Z.of_nat p - Z.of_nat M) / Z.of_nat n = 0 \/ (Z.of_nat p - Z.of_nat M) / Z.of_nat n = -1)%Z by nia. nia. }
      destruct (even_half n Hn He) as [Q1 Q2]. destruct Hm as [Hm|Hm].
      * rewrite Hk1 by (unfold m in Hm; lia). rewrite Hm, <- INR_IZR_INZ. field. lra.
      * rewrite Hk2 by (unfold m in Hm; lia). rewrite Hm, minus_IZR, <- !INR_IZR_INZ, minus_INR by lia. field. lra.
  - intros l Hl Ql. replace (delta n (m - Z.of_nat l)) with (RtoC 0); [ring|].
    unfold delta. destruct (Z.eqb_spec ((m - Z.of_nat l) mod Z.of_nat n) 0) as [A|A]; [exfalso|reflexivity].
    apply Ql. apply Nat2Z.inj. rewrite Zk. rewrite <- (Z.mod_small (Z.of_nat l) (Z.of_nat n)) by lia.
    apply Z.mod_divide in A; [|lia]. destruct A as [q A]. replace m with (Z.of_nat l + q * Z.of_nat n)%Z by lia.
    now rewrite Z.mod_add by lia.
Qed.

(** ** The result of [dx_rfft] *)
Lemma rfft_len u : length (rfft u) = (length u / 2 + 1)%nat.
Proof. apply tab_len. Qed.
Lemma half_lt k n : (2 * k <= n)%nat -> (k < n / 2 + 1)%nat.
Proof. intros H. assert (k <= n / 2)%nat; [|lia]. apply Nat.div_le_lower_bound; lia. Qed.
Lemma hermitian_ext n v v' k : (k < n)%nat -> (forall l, (2 * l <= n)%nat -> v l = v' l) -> hermitian n v k = hermitian n v' k.
Proof.
  intros Hk H. unfold hermitian. destruct (Nat.eqb_spec k 0) as [->|Q]; cbn [orb]; [rewrite H by lia; reflexivity|].
  destruct (Nat.eqb_spec (2 * k) n); [rewrite H by lia; reflexivity|].
  destruct (Nat.ltb_spec (2 * k) n); rewrite H by lia; reflexivity.
Qed.
Definition re (u : list R) (j : nat) : C := RtoC (at_ 0 u j).
Lemma dx_rfft_eq kx u K : length kx = (length u / 2 + 1)%nat -> (0 < length u)%nat -> (0 < K)%nat ->
  dx_rfft kx (URe u) (PInt (Z.of_nat K))
  = inr (tab (length u) (fun j => fst (idft (length u) (hermitian (length u) (ik_hat (length u) (at_ 0 kx) K (re u))) j))).
Proof.
  intros Hl Hu HK. unfold dx_rfft. rewrite check_order_nat.
  replace (Nat.eqb (length u) 0) with false by (symmetry; apply Nat.eqb_neq; lia).
  destruct K as [|K]; [lia|]. rewrite rfft_len, Hl, Nat.eqb_refl. f_equal. unfold irfft. apply tab_ext. intros j _. f_equal.
  apply idft_ext. intros k Hk. apply hermitian_ext; [exact Hk|]. intros l L. unfold apply_ik.
  rewrite tab_nth by (rewrite rfft_len; now apply half_lt). unfold ik_hat. f_equal. unfold rfft.
  rewrite tab_nth by (now apply half_lt). reflexivity.
Qed.

Lemma idft_fst n v j : (0 < n)%nat ->
  fst (idft n v j) = / INR n * rsum n (fun k => fst (v k * w n (Z.of_nat j * Z.of_nat k))%C).
Proof. intros H. rewrite idft_w by exact H. unfold RtoC, Cmult at 1. cbn [fst snd]. rewrite csum_fst. ring. Qed.

(** The symmetry of the two wavenumber layouts. *)
Definition layouts (n : nat) (kr kx : nat -> R) : Prop :=
  kx O = 0 /\ (forall k, (2 * k < n)%nat -> kx k = kr k) /\ (forall k, (k < n)%nat -> (n <= 2 * k)%nat -> kx k = - kr (n - k)%nat).

(** On real data [dx_rfft] is the real part of [dx_fft]. *)
Lemma rfft_real_part n kr kx K (u : nat -> C) j : (0 < n)%nat -> layouts n kr kx -> (forall j, (j < n)%nat -> snd (u j) = 0) ->
  fst (idft n (hermitian n (ik_hat n kr K u)) j) = fst (idft n (ik_hat n kx K u) j).
Proof.
  intros Hn [L0 [L1 L2]] Hu. rewrite !idft_fst by exact Hn. f_equal. apply rsum_ext. intros k Hk.
  unfold hermitian. destruct (Nat.eqb_spec k 0) as [->|Q]; cbn [orb].
  - f_equal. f_equal. rewrite <- Creal_R; unfold ik_hat; [now rewrite <- L1, L0 by lia|].
    rewrite <- L1, L0 by lia. assert (A := cpow_zero_im K). assert (B := dft_real_0 n Hn u Hu).
    unfold Cmult. cbn [snd]. rewrite A, B. ring.
  - destruct (Nat.eqb_spec (2 * k) n) as [E|E].
    + assert (B := dft_real_half n Hn u k Hu E). unfold ik_hat. rewrite L2 by lia. replace (n - k)%nat with k by lia.
      rewrite cpow_conj_im. set (q := cpow (0, kr k) K). set (d := dft n u k) in *.
      assert (W : snd (w n (Z.of_nat j * Z.of_nat k)) = 0).
      { apply Creal. rewrite <- w_opp by exact Hn. apply w_mod; [exact Hn|].
        replace (- (Z.of_nat j * Z.of_nat k))%Z with (Z.of_nat j * Z.of_nat k + (- Z.of_nat j) * Z.of_nat n)%Z by nia.
        now rewrite Z.mod_add by lia. }
      unfold Cmult, Cconj, RtoC. cbn [fst snd]. rewrite B, W. ring.
    + destruct (Nat.ltb_spec (2 * k) n) as [L|L]; unfold ik_hat.
      * now rewrite <- L1 by lia.
      * rewrite Cmult_conj, <- dft_conj by (auto; lia). replace (n - (n - k))%nat with k by lia.
        rewrite L2 by lia. now rewrite cpow_conj_im.
Qed.

Lemma grid_layouts n a b x kx x' kr : (2 < n)%nat -> Nat.even n = true -> a <> b ->
  fft_grid (PInt (Z.of_nat n)) (num a) (num b) = inr (x, kx) -> rfft_grid (PInt (Z.of_nat n)) (num a) (num b) = inr (x', kr) ->
  x' = x /\ length kx = n /\ length kr = (n / 2 + 1)%nat /\ length x = n /\ layouts n (at_ 0 kr) (at_ 0 kx) /\ at_ 0 kr 0 = 0.
Proof.
  intros Hn He Hab E E'.
  destruct (C49_uniform_grid n (num a) (num b) Hn He Hab) as (y & k1 & k1' & F & F' & Lx & _).
  rewrite E in F. rewrite E' in F'. injection F as <- <-. injection F' as <- <-.
  destruct (C50_fft_wavenumbers n (num a) (num b) Hn He Hab) as (y & k2 & F & Lk & Hk1 & Hk2 & _).
  rewrite E in F. injection F as <- <-.
  destruct (C50_rfft_wavenumbers n (num a) (num b) Hn He Hab) as (y & k3 & F & Lr & Hr).
  rewrite E' in F. injection F as <- <-. cbn [val] in *. change (T Rops) with R in *.
  destruct (even_half n Hn He) as [Q1 Q2].
  split; [reflexivity|]. split; [exact Lk|]. split; [exact Lr|]. split; [exact Lx|]. unfold at_, layouts. repeat split.
  - rewrite Hk1 by lia. cbn. field. lra.
  - intros k Hk. rewrite Hk1, Hr by lia. reflexivity.
  - intros k Hk L. rewrite Hk2, Hr by lia. reflexivity.
  - rewrite Hr by lia. cbn. field. lra.
Qed.

(** C53 for [dx_rfft]: the real parts of trigonometric polynomials are the real trigonometric polynomials. *)
Theorem C53_rfft_exact (n M K : nat) (a b : R) (c : Z -> C) : (2 < n)%nat -> Nat.even n = true -> a <> b -> (2 * M < n)%nat ->
  let f := fun x => fst (trig M c (2 * PI / (b - a)) a x) in
  exists x kx, rfft_grid (PInt (Z.of_nat n)) (num a) (num b) = inr (x, kx) /\
    dx_rfft kx (URe (map f x)) (PInt (Z.of_nat K)) = inr (map (Derive_n f K) x).
Proof.
  intros Hn He Hab HM f.
  destruct (C49_uniform_grid n (num a) (num b) Hn He Hab) as (x & kx & kr & E & E' & _).
  destruct (grid_layouts n a b x kx x kr Hn He Hab E E') as (_ & Lk & Lr & Lx & HL & H0). change (T Rops) with R in *.
  exists x, kr. split; [exact E'|].
  destruct K as [|K].
  { unfold dx_rfft. rewrite check_order_nat. rewrite map_length, Lx.
    replace (Nat.eqb n 0) with false by (symmetry; apply Nat.eqb_neq; lia). reflexivity. }
  (* c is replaced by the Hermitian coefficients of the real part *)
  set (c' := fun m => (RtoC (1 / 2) * (c m + Cconj (c (- m)%Z)))%C).
  assert (Re : forall x, trig M c' (2 * PI / (b - a)) a x = RtoC (f x)).
  { intros t. set (kap := 2 * PI / (b - a)). unfold f. fold kap.
    assert (P : trig M (fun m => Cconj (c (- m)%Z)) kap a t = Cconj (trig M c kap a t)).
    { unfold trig. rewrite csum_conj, csum_rev. apply csum_ext. intros p Hp. cbv zeta. rewrite Cmult_conj.
      replace (Z.of_nat (2 * M + 1 - 1 - p) - Z.of_nat M)%Z with (- (Z.of_nat p - Z.of_nat M))%Z by lia.
      rewrite Z.opp_involutive. f_equal. unfold Cexp, Cconj. cbn [fst snd]. rewrite opp_IZR.
      replace (- IZR (Z.of_nat p - Z.of_nat M) * kap * (t - a)) with (- (IZR (Z.of_nat p - Z.of_nat M) * kap * (t - a))) by ring.
      rewrite cos_neg, sin_neg. apply C_eq; ring. }
    transitivity (RtoC (1 / 2) * (trig M c kap a t + trig M (fun m => Cconj (c (- m)%Z)) kap a t))%C.
    - unfold trig. rewrite <- csum_plus, <- csum_scal. apply csum_ext. intros p _. unfold c'. cbv zeta. ring.
    - rewrite P. unfold Cmult, Cplus, Cconj, RtoC. cbn [fst snd]. apply C_eq; field. }
  assert (X : exists g, nth_Cder (S K) (trig M c' (2 * PI / (b - a)) a) g /\
    dx_fft kx (map (trig M c' (2 * PI / (b - a)) a) x) (PInt (Z.of_nat (S K))) = inr (map g x)).
  { destruct (C53_fft_exact n M (S K) a b c' Hn He Hab HM) as (x1 & kx1 & g & E1 & Hg & X).
    exists g. split; [exact Hg|]. assert (E2 := eq_trans (eq_sym E) E1). injection E2 as <- <-. exact X. }
  destruct X as (g & Hg & X).
  rewrite dx_rfft_eq by (rewrite ?map_length, ?Lx; assumption || lia). rewrite map_length, Lx. f_equal.
  rewrite dx_fft_eq in X by (rewrite ?map_length; lia). rewrite map_length, Lx in X. injection X as X.
  assert (G : forall t, Derive_n f (S K) t = fst (g t)).
  { intros t. rewrite <- (nth_Cder_Re _ _ _ Hg t). apply Derive_n_ext. intros s. cbv beta. now rewrite Re. }
  rewrite (map_ext _ _ G), <- (map_map g fst x), <- X. unfold tab. rewrite map_map. apply map_ext_in. intros j Hj. apply in_seq in Hj.
  rewrite (rfft_real_part n (at_ 0 kr) (at_ 0 kx)); [|lia|exact HL|reflexivity].
  f_equal. apply idft_ext. intros k Hk. unfold ik_hat. f_equal. apply dft_ext. intros i Hi. unfold re, at_.
  rewrite (nth_indep (map f x) 0 (f 0)), (nth_indep (map _ x) (RtoC 0) (trig M c' (2 * PI / (b - a)) a 0)) by (rewrite map_length; lia).
  rewrite (map_nth f), (map_nth (trig M c' (2 * PI / (b - a)) a)). symmetry. apply Re.
Qed.

(** ** Composition (C54) *)
Theorem C54_fft_composes (kx : list R) (u v : list C) (m k : nat) :
  dx_fft kx u (PInt (Z.of_nat m)) = inr v ->
  dx_fft kx v (PInt (Z.of_nat k)) = dx_fft kx u (PInt (Z.of_nat (m + k))).
Proof.
  intros H. destruct m as [|m].
  { unfold dx_fft in H. rewrite check_order_nat in H. injection H as <-. reflexivity. }
  destruct k as [|k].
  { rewrite Nat.add_0_r, H. unfold dx_fft. rewrite check_order_nat. reflexivity. }
  assert (L : length kx = length u /\ (0 < length u)%nat).
  { unfold dx_fft in H. rewrite check_order_nat in H. destruct (Nat.eqb_spec (length u) 0); [discriminate|].
    rewrite fft_len in H. destruct (Nat.eqb_spec (length kx) (length u)); [split; [assumption|lia]|discriminate]. }
  destruct L as [L1 L2]. rewrite dx_fft_eq in H by (assumption || lia). injection H as <-.
  rewrite !dx_fft_eq; rewrite ?tab_len; try assumption; try lia. f_equal. apply tab_ext. intros j _. apply idft_ext.
  intros i Hi. unfold ik_hat at 1. rewrite (dft_ext _ _ (idft (length u) (ik_hat (length u) (at_ 0 kx) (S m) (at_ (RtoC 0) u)))).
  2:{ intros l Hl. now rewrite tab_nth. }
  rewrite dft_idft by assumption. unfold ik_hat. rewrite cpow_add. ring.
Qed.

(** Alternating sum: the coefficient at the Nyquist frequency. *)
Lemma dft_half n (u : nat -> R) k : (0 < n)%nat -> (2 * k = n)%nat -> dft n (fun j => RtoC (u j)) k = RtoC (rsum n (fun j => (-1) ^ j * u j)).
Proof.
  intros Hn Hk. unfold dft.
  rewrite (csum_ext _ _ (fun j => RtoC ((-1) ^ j * u j))).
  - generalize n. intros l. induction l; [reflexivity|]. cbn [csum rsum]. now rewrite IHl, RtoC_plus.
  - intros j _. assert (INR k <> 0) by (apply not_0_INR; lia). rewrite RtoC_mult, Cmult_comm. f_equal.
    replace (- (2 * PI * INR j * INR k / INR n)) with (- (INR j * PI)) by (rewrite <- Hk, mult_INR; cbn; field; assumption).
    unfold Cexp. cbn [fst snd]. rewrite exp_0, cos_neg, sin_neg.
    assert (G : cos (INR j * PI) = (-1) ^ j /\ sin (INR j * PI) = 0).
    { clear. induction j as [|j [I1 I2]]; [cbn; rewrite Rmult_0_l, cos_0, sin_0; split; reflexivity|].
      rewrite S_INR, Rmult_plus_distr_r, Rmult_1_l, neg_cos, neg_sin, I1, I2. cbn. split; ring. }
    destruct G as [-> ->]. unfold RtoC. apply C_eq; ring.
Qed.

Theorem C54_rfft_composes (kx u v : list R) (m k : nat) :
  nth 0 kx 0 = 0 ->
  (Nat.even (length u) = true -> Nat.even m = true \/ rsum (length u) (fun j => (-1) ^ j * nth j u 0) = 0) ->
  dx_rfft kx (URe u) (PInt (Z.of_nat m)) = inr v ->
  dx_rfft kx (URe v) (PInt (Z.of_nat k)) = dx_rfft kx (URe u) (PInt (Z.of_nat (m + k))).
Proof.
  intros K0 Ny H.
  destruct (Nat.eq_dec (length u) 0) as [Z|Z].
  { destruct u; [|discriminate]. unfold dx_rfft in *. rewrite check_order_nat in *. cbn in H. injection H as <-.
    now rewrite check_order_nat. }
  assert (Lu : Nat.eqb (length u) 0 = false) by (now apply Nat.eqb_neq).
  destruct m as [|m].
  { unfold dx_rfft in H. rewrite check_order_nat, Lu in H. injection H as <-. reflexivity. }
  destruct k as [|k].
  { rewrite Nat.add_0_r, H. unfold dx_rfft in *. rewrite check_order_nat in *. rewrite Lu in H.
    destruct (Nat.eqb (length kx) (length (rfft u))); [|discriminate]. injection H as <-.
    unfold irfft. rewrite tab_len, Lu. reflexivity. }
  assert (L1 : length kx = (length u / 2 + 1)%nat).
  { unfold dx_rfft in H. rewrite check_order_nat, Lu, rfft_len in H.
    destruct (Nat.eqb_spec (length kx) (length u / 2 + 1)); [assumption|discriminate]. }
  assert (L2 : (0 < length u)%nat) by lia.
  rewrite dx_rfft_eq in H by (assumption || lia). injection H as <-.
  rewrite !dx_rfft_eq; rewrite ?tab_len; try assumption; try lia. f_equal. apply tab_ext. intros j _. f_equal. apply idft_ext.
  intros i Hi. apply hermitian_ext; [exact Hi|]. intros l Hl. unfold ik_hat at 1. set (n := length u) in *.
  rewrite (dft_ext _ _ (fun j => RtoC (fst (idft n (hermitian n (ik_hat n (at_ 0 kx) (S m) (re u))) j)))).
  2:{ intros p Hp. unfold re. now rewrite tab_nth. }
  rewrite rfft_irfft; try assumption.
  - unfold ik_hat. rewrite cpow_add. ring.
  - unfold ik_hat. change (at_ 0 kx 0) with (nth 0 kx 0). rewrite K0.
    assert (A := cpow_zero_im (S m)). assert (B := dft_real_0 n L2 (re u) (fun _ _ => eq_refl)). unfold Cmult. cbn [snd]. rewrite A, B. ring.
  - intros q Hq. unfold ik_hat. assert (B := dft_real_half n L2 (re u) q (fun _ _ => eq_refl) Hq).
    assert (E : Nat.even n = true) by (rewrite <- Hq, Nat.even_mul; reflexivity).
    destruct (Ny E) as [M|M].
    + apply Nat.even_spec in M. destruct M as [r M]. rewrite M. assert (A := cpow_im_even (at_ 0 kx q) r).
      unfold Cmult. cbn [snd]. rewrite A, B. ring.
    + unfold re. rewrite (dft_half n (at_ 0 u) q L2 Hq). change (fun j => (-1) ^ j * at_ 0 u j) with (fun j => (-1) ^ j * nth j u 0). rewrite M.
      unfold Cmult, RtoC. cbn [snd fst]. ring.
Qed.

(** ** Real data (C55) *)
Theorem C55_real_data (n K : nat) (a b : R) (u : list R) x kx v : (2 < n)%nat -> Nat.even n = true -> a <> b ->
  fft_grid (PInt (Z.of_nat n)) (num a) (num b) = inr (x, kx) -> length u = n ->
  (Nat.even K = true \/ rsum n (fun j => (-1) ^ j * nth j u 0) = 0) ->
  dx_fft kx (map RtoC u) (PInt (Z.of_nat K)) = inr v -> forall z, In z v -> snd z = 0.
Proof.
  intros Hn He Hab E Lu Ny H z Hz. destruct K as [|K].
  { unfold dx_fft in H. rewrite check_order_nat in H. injection H as <-. apply in_map_iff in Hz. destruct Hz as [r [<- _]]. reflexivity. }
  destruct (C49_uniform_grid n (num a) (num b) Hn He Hab) as (x1 & kx1 & kr & E1 & E' & _). rewrite E in E1. injection E1 as <- <-.
  destruct (grid_layouts n a b x kx x kr Hn He Hab E E') as (_ & Lk & Lr & Lx & [L0 [HL1 HL2]] & H0). change (T Rops) with R in *.
  rewrite dx_fft_eq in H by (rewrite ?map_length; lia). rewrite map_length, Lu in H. injection H as <-.
  apply in_map_iff in Hz. destruct Hz as [j [<- Hj]].
  assert (Hu : forall i, (i < n)%nat -> snd (at_ (RtoC 0) (map RtoC u) i) = 0).
  { intros i Hi. unfold at_. rewrite map_nth. reflexivity. }
  apply herm_real; [lia|]. split.
  - unfold ik_hat. rewrite L0. assert (A := cpow_zero_im (S K)). assert (B := dft_real_0 n ltac:(lia) _ Hu).
    unfold Cmult. cbn [snd]. rewrite A, B. ring.
  - intros k Hk. unfold ik_hat. rewrite Cmult_conj, <- dft_conj by (auto; lia).
    destruct (even_half n Hn He) as [Q1 Q2].
    destruct (lt_eq_lt_dec (2 * k) n) as [[L|L]|L].
    + f_equal. rewrite HL2, HL1 by lia. replace (n - (n - k))%nat with k by lia. apply cpow_conj_im.
    + replace (n - k)%nat with k by lia. destruct Ny as [M|M].
      * f_equal. apply Nat.even_spec in M. destruct M as [r M]. rewrite M. symmetry. apply Creal, cpow_im_even.
      * rewrite (dft_ext n _ (fun j => RtoC (at_ 0 u j))) by (intros i Hi; unfold at_; now rewrite map_nth).
        rewrite dft_half by lia. change (fun j => (-1) ^ j * at_ 0 u j) with (fun j => (-1) ^ j * nth j u 0). rewrite M. ring.
    + f_equal. rewrite HL1, HL2 by lia. rewrite cpow_conj_im. now rewrite Cconj_conj.
Qed.

(** ** The sawtooth [(-1)^j]: the Nyquist mode *)
Definition saw (n : nat) : list R := tab n (fun j => (-1) ^ j).

Lemma w_half n (Hn : (0 < n)%nat) h j : (2 * h = n)%nat -> w n (Z.of_nat j * Z.of_nat h) = RtoC ((-1) ^ j).
Proof.
  intros Hh. rewrite <- w_pow by exact Hn.
  assert (E : w n (Z.of_nat h) = RtoC (-1)).
  { unfold w. rewrite <- INR_IZR_INZ. assert (INR h <> 0) by (apply not_0_INR; lia).
    replace (2 * PI * INR h / INR n) with PI by (rewrite <- Hh, mult_INR; cbn; field; assumption).
    unfold Cexp, RtoC. cbn [fst snd]. rewrite exp_0, cos_PI, sin_PI. apply C_eq; ring. }
  rewrite E. apply cpow_R.
Qed.
Lemma dft_saw n h k : (0 < n)%nat -> (2 * h = n)%nat -> (k < n)%nat ->
  dft n (fun j => RtoC ((-1) ^ j)) k = if Nat.eqb k h then RtoC (INR n) else RtoC 0.
Proof.
  intros Hn Hh Hk. rewrite dft_w by exact Hn.
  rewrite (csum_ext _ _ (fun j => w n (Z.of_nat j * (Z.of_nat h - Z.of_nat k)))).
  2:{ intros j _. rewrite <- (w_half n Hn h j Hh), <- w_add by exact Hn. f_equal. lia. }
  rewrite w_sum, delta_small by lia. rewrite Nat.eqb_sym. destruct (Nat.eqb k h); ring.
Qed.

Lemma saw_len n : length (saw n) = n.
Proof. apply tab_len. Qed.
Lemma re_saw n j : (j < n)%nat -> re (saw n) j = RtoC ((-1) ^ j).
Proof. intros H. unfold re, saw. now rewrite tab_nth. Qed.

(** C54 fails for [dx_rfft] on every grid: the first derivative of the sawtooth is zero, its second derivative is not. *)
Theorem C54_rfft_nyquist_refuted (n : nat) (a b : R) : (2 < n)%nat -> Nat.even n = true -> a <> b ->
  exists x kx zero v, rfft_grid (PInt (Z.of_nat n)) (num a) (num b) = inr (x, kx) /\
    dx_rfft kx (URe (saw n)) (PInt 1) = inr zero /\ dx_rfft kx (URe zero) (PInt 1) = inr zero /\
    dx_rfft kx (URe (saw n)) (PInt 2) = inr v /\ (forall z, In z zero -> z = 0) /\ nth 0 v 0 = - (PI * INR n / (b - a)) ^ 2 /\ v <> zero.
Proof.
  intros Hn He Hab.
  destruct (C49_uniform_grid n (num a) (num b) Hn He Hab) as (x & kx & kr & E & E' & _).
  destruct (grid_layouts n a b x kx x kr Hn He Hab E E') as (_ & Lk & Lr & Lx & HL & H0).
  destruct (C50_rfft_wavenumbers n (num a) (num b) Hn He Hab) as (y & k3 & F & _ & Hr). rewrite E' in F. injection F as <- <-.
  cbn [val] in Hr. change (T Rops) with R in *.
  destruct (even_half n Hn He) as [Q1 _]. set (h := (n / 2)%nat) in *. assert (N0 : INR n <> 0) by (apply not_0_INR; lia).
  exists x, kr, (tab n (fun _ => 0)), (tab n (fun j => - (at_ 0 kr h) ^ 2 * (-1) ^ j)). split; [exact E'|].
  change 1%Z with (Z.of_nat 1). change 2%Z with (Z.of_nat 2).
  assert (D : forall K k, (k < n)%nat -> ik_hat n (at_ 0 kr) K (re (saw n)) k = if Nat.eqb k h then (cpow (0, at_ 0 kr h) K * RtoC (INR n))%C else RtoC 0).
  { intros K k Hk. unfold ik_hat. rewrite (dft_ext n _ (fun j => RtoC ((-1) ^ j))) by (intros; now apply re_saw).
    rewrite (dft_saw n h k) by lia. destruct (Nat.eqb_spec k h) as [->|]; [reflexivity|ring]. }
  assert (Hm : forall K k, (k < n)%nat -> hermitian n (ik_hat n (at_ 0 kr) K (re (saw n))) k
     = if Nat.eqb k h then RtoC (fst (cpow (0, at_ 0 kr h) K) * INR n) else RtoC 0).
  { intros K k Hk. unfold hermitian. destruct (Nat.eqb_spec k 0) as [->|Q]; cbn [orb].
    - rewrite D by lia. destruct (Nat.eqb_spec 0 h); [lia|reflexivity].
    - destruct (Nat.eqb_spec (2 * k) n) as [Ek|Ek].
      + replace k with h by lia. rewrite D, Nat.eqb_refl by lia. f_equal. unfold Cmult, RtoC. cbn [fst snd]. ring.
      + destruct (Nat.eqb_spec k h); [lia|]. destruct (Nat.ltb_spec (2 * k) n); rewrite D by lia.
        * now rewrite (proj2 (Nat.eqb_neq k h)) by assumption.
        * rewrite (proj2 (Nat.eqb_neq (n - k) h)) by lia. apply Cconj_R. }
  assert (V : forall K j, fst (idft n (hermitian n (ik_hat n (at_ 0 kr) K (re (saw n)))) j) = fst (cpow (0, at_ 0 kr h) K) * (-1) ^ j).
  { intros K j. rewrite (idft_ext _ _ _ j (Hm K)), idft_w by lia. rewrite (csum_one n h _ ltac:(lia)).
    - rewrite Nat.eqb_refl, (w_half n) by lia. rewrite <- !RtoC_mult. cbn [RtoC fst]. field. exact N0.
    - intros k Hk Q. rewrite (proj2 (Nat.eqb_neq k h) Q). ring. }
  assert (Z : dx_rfft kr (URe (tab n (fun _ => 0))) (PInt (Z.of_nat 1)) = inr (tab n (fun _ => 0))).
  { rewrite dx_rfft_eq by (rewrite ?tab_len; assumption || lia). rewrite tab_len. f_equal. apply tab_ext. intros j _.
    rewrite (idft_ext n _ (fun _ => RtoC 0)).
    - unfold idft. rewrite csum_0 by (intros; ring). rewrite Cmult_0_r. reflexivity.
    - intros k Hk. rewrite (hermitian_ext n _ (fun _ => RtoC 0) k Hk).
      + unfold hermitian. destruct (_ || _); [reflexivity|]. destruct (_ <? _)%nat; [reflexivity|]. apply Cconj_R.
      + intros l Hl. unfold ik_hat, dft. rewrite csum_0; [ring|]. intros i Hi. unfold re. rewrite tab_nth by exact Hi. ring. }
  rewrite (dx_rfft_eq kr (saw n) 1), (dx_rfft_eq kr (saw n) 2) by (rewrite ?saw_len; assumption || lia). rewrite saw_len.
  split; [f_equal; apply tab_ext; intros j _; rewrite V; cbn [cpow]; unfold Cmult, RtoC; cbn [fst snd]; ring|].
  split; [exact Z|]. split; [f_equal; apply tab_ext; intros j _; rewrite V; cbn [cpow]; unfold Cmult, RtoC; cbn [fst snd]; ring|].
  split; [intros z Hz; apply in_map_iff in Hz; destruct Hz as [j [<- _]]; reflexivity|].
  assert (V0 : nth 0 (tab n (fun j => - at_ 0 kr h ^ 2 * (-1) ^ j)) 0 = - (PI * INR n / (b - a)) ^ 2).
  { change (at_ 0 (tab n (fun j => - at_ 0 kr h ^ 2 * (-1) ^ j)) 0 = - (PI * INR n / (b - a)) ^ 2). rewrite tab_nth by lia.
    unfold at_. rewrite Hr by lia. replace (INR n) with (2 * INR h) by (rewrite Q1, mult_INR; cbn; ring). cbn [pow]. field. lra. }
  split; [exact V0|]. intros A. rewrite A in V0. change (at_ 0 (tab n (fun _ => 0)) 0 = - (PI * INR n / (b - a)) ^ 2) in V0.
  rewrite tab_nth in V0 by lia. assert (P := PI_RGT_0). assert (0 < INR n) by (apply lt_0_INR; lia).
  assert (Q : PI * INR n / (b - a) <> 0). { unfold Rdiv. apply Rmult_integral_contrapositive_currified; [apply Rmult_integral_contrapositive_currified; lra|apply Rinv_neq_0_compat; lra]. }
  assert (G := pow_nonzero _ 2 Q). lra.
Qed.

(** C55 fails on every grid for order 1: the derivative of the sawtooth is imaginary and not zero. *)
Theorem C55_nyquist_refuted (n : nat) (a b : R) : (2 < n)%nat -> Nat.even n = true -> a <> b ->
  exists x kx v, fft_grid (PInt (Z.of_nat n)) (num a) (num b) = inr (x, kx) /\
    dx_fft kx (map RtoC (saw n)) (PInt 1) = inr v /\ nth 0 v (RtoC 0) = (0, - (PI * INR n / (b - a))) /\ snd (nth 0 v (RtoC 0)) <> 0.
Proof.
  intros Hn He Hab.
  destruct (C50_fft_wavenumbers n (num a) (num b) Hn He Hab) as (x & kx & E & Lk & _ & Hk2 & _). cbn [val] in Hk2.
  change 1%Z with (Z.of_nat 1). destruct (even_half n Hn He) as [Q1 _]. set (h := (n / 2)%nat) in *. assert (N0 : INR n <> 0) by (apply not_0_INR; lia).
  eexists x, kx, _. split; [exact E|]. change (T Rops) with R in *. rewrite dx_fft_eq by (rewrite ?map_length, ?saw_len; assumption || lia).
  rewrite map_length, saw_len. split; [reflexivity|].
  match goal with |- nth 0 ?l ?d = _ /\ _ => change (nth 0 l d) with (at_ (RtoC 0) l 0) end. rewrite tab_nth by lia.
  assert (V : idft n (ik_hat n (at_ 0 kx) 1 (at_ (RtoC 0) (map RtoC (saw n)))) 0 = (0, - (PI * INR n / (b - a)))).
  { rewrite idft_w by lia. rewrite (csum_one n h _ ltac:(lia)).
    - unfold ik_hat. rewrite (dft_ext n _ (fun j => RtoC ((-1) ^ j))).
      2:{ intros j Hj. unfold at_. rewrite map_nth. exact (re_saw n j Hj). }
      rewrite (dft_saw n h h), Nat.eqb_refl, (w_half n) by lia. unfold at_. rewrite Hk2 by lia.
      replace (n - h)%nat with h by lia. rewrite Q1, mult_INR. change (INR 2) with 2. cbn [cpow pow]. unfold Cmult, RtoC. cbn [fst snd].
      assert (INR h <> 0) by (apply not_0_INR; lia). apply C_eq; field; repeat split; lra.
    - intros k Hk Q. unfold ik_hat. rewrite (dft_ext n _ (fun j => RtoC ((-1) ^ j))).
      2:{ intros j Hj. unfold at_. rewrite map_nth. exact (re_saw n j Hj). }
      rewrite (dft_saw n h k), (proj2 (Nat.eqb_neq k h) Q) by lia. ring. }
  rewrite V. split; [reflexivity|]. cbn [snd]. assert (P := PI_RGT_0).
  apply Ropp_neq_0_compat. unfold Rdiv. apply Rmult_integral_contrapositive_currified; [apply Rmult_integral_contrapositive_currified; lra|apply Rinv_neq_0_compat; lra].
Qed.

(** ** Argument checking (C56) *)
Definition is_int (v : pyval R) (z : Z) : Prop := v = PInt z \/ exists b : bool, v = PBool b /\ z = if b then 1%Z else 0%Z.

Lemma check_order_type v : check_order v = inl TypeError <-> forall z, ~ is_int v z.
Proof.
  split.
  - intros H z [->|[b [-> _]]]; cbn in H; [destruct (z <? 0)%Z|destruct b]; discriminate.
  - intros H. destruct v as [z|b|f|]; try reflexivity; exfalso; [apply (H z)|apply (H (if b then 1 else 0)%Z)]; [now left|right; eauto].
Qed.
Lemma check_order_int v z : is_int v z -> check_order v = if (z <? 0)%Z then inl ValueError else inr (Z.to_nat z).
Proof. intros [->|[b [-> ->]]]; [reflexivity|]. destruct b; reflexivity. Qed.
Lemma int_or_not v : (exists z, is_int v z) \/ forall z, ~ is_int v z.
Proof.
  destruct v as [z|b|f|]; [left; exists z; now left|left; eexists; right; eauto| |]; right; intros z [H|[b [H _]]]; discriminate.
Qed.

(** The checks and their order, as total case distinctions. *)
Theorem C56_dx_fft (kx : list R) (u : list C) (n : pyval R) :
  ((forall z, ~ is_int n z) -> dx_fft kx u n = inl TypeError) /\
  (forall z, is_int n z -> (z < 0)%Z -> dx_fft kx u n = inl ValueError) /\
  (is_int n 0 -> dx_fft kx u n = inr u) /\
  (forall z, is_int n z -> (0 < z)%Z -> (u = [] \/ length kx <> length u) -> dx_fft kx u n = inl ValueError) /\
  (forall z, is_int n z -> (0 < z)%Z -> u <> [] -> length kx = length u -> exists v, dx_fft kx u n = inr v /\ length v = length u).
Proof.
  unfold dx_fft. repeat split.
  - intros H. now rewrite (proj2 (check_order_type n) H).
  - intros z H L. rewrite (check_order_int n z H). now rewrite (proj2 (Z.ltb_lt _ _) L).
  - intros H. now rewrite (check_order_int n 0 H).
  - intros z H L D. rewrite (check_order_int n z H). rewrite (proj2 (Z.ltb_ge _ _)) by lia. destruct (Z.to_nat z) eqn:E; [lia|].
    destruct u as [|c u]; [reflexivity|]. destruct D as [D|D]; [discriminate|].
    change (Nat.eqb (length (c :: u)) 0) with false. cbv iota. rewrite fft_len. now rewrite (proj2 (Nat.eqb_neq _ _) D).
  - intros z H L D D'. rewrite (check_order_int n z H). rewrite (proj2 (Z.ltb_ge _ _)) by lia. destruct (Z.to_nat z) eqn:E; [lia|].
    destruct u as [|c u]; [congruence|]. change (Nat.eqb (length (c :: u)) 0) with false. cbv iota. rewrite fft_len, D', Nat.eqb_refl.
    eexists. split; [reflexivity|]. unfold ifft. now rewrite tab_len, apply_ik_len, fft_len.
Qed.
Theorem C56_dx_rfft (kx : list R) (u : uin) (n : pyval R) :
  ((forall z, ~ is_int n z) -> dx_rfft kx u n = inl TypeError) /\
  (forall z, is_int n z -> (z < 0)%Z -> dx_rfft kx u n = inl ValueError) /\
  (forall z c, is_int n z -> (0 <= z)%Z -> u = UCx c -> dx_rfft kx u n = inl TypeError) /\
  (forall z, is_int n z -> (0 <= z)%Z -> u = URe [] -> dx_rfft kx u n = inr []) /\
  (forall v, is_int n 0 -> u = URe v -> dx_rfft kx u n = inr v) /\
  (forall z v, is_int n z -> (0 < z)%Z -> u = URe v -> v <> [] -> length kx <> (length v / 2 + 1)%nat -> dx_rfft kx u n = inl ValueError) /\
  (forall z v, is_int n z -> (0 < z)%Z -> u = URe v -> v <> [] -> length kx = (length v / 2 + 1)%nat ->
     exists r, dx_rfft kx u n = inr r /\ length r = length v).
Proof.
  unfold dx_rfft. repeat split.
  - intros H. now rewrite (proj2 (check_order_type n) H).
  - intros z H L. rewrite (check_order_int n z H). now rewrite (proj2 (Z.ltb_lt _ _) L).
  - intros z c H L ->. rewrite (check_order_int n z H). now rewrite (proj2 (Z.ltb_ge _ _)) by lia.
  - intros z H L ->. rewrite (check_order_int n z H). now rewrite (proj2 (Z.ltb_ge _ _)) by lia.
  - intros v H ->. rewrite (check_order_int n 0 H). cbn. destruct v; reflexivity.
  - intros z v H L -> Nv D. rewrite (check_order_int n z H). rewrite (proj2 (Z.ltb_ge _ _)) by lia. destruct (Z.to_nat z) eqn:E; [lia|].
    destruct v as [|c v]; [congruence|]. change (Nat.eqb (length (c :: v)) 0) with false. cbv iota. rewrite rfft_len. now rewrite (proj2 (Nat.eqb_neq _ _) D).
  - intros z v H L -> Nv D. rewrite (check_order_int n z H). rewrite (proj2 (Z.ltb_ge _ _)) by lia. destruct (Z.to_nat z) eqn:E; [lia|].
    destruct v as [|c v]; [congruence|]. change (Nat.eqb (length (c :: v)) 0) with false. cbv iota. rewrite rfft_len, D, Nat.eqb_refl.
    eexists. split; [reflexivity|]. unfold irfft. now rewrite tab_len.
Qed.
Theorem C56_dx_cheb (d : marr) (u : uarr) (n : pyval R) :
  ((forall z, ~ is_int n z) -> dx_cheb d u n = inl TypeError) /\
  (forall z, is_int n z -> (z < 0)%Z -> dx_cheb d u n = inl ValueError) /\
  (is_int n 0 -> dx_cheb d u n = inr u) /\
  (forall z, is_int n z -> (0 < z)%Z -> u = Und -> dx_cheb d u n = inl ValueError) /\
  (forall z len v, is_int n z -> (0 < z)%Z -> u = U1 len v ->
     (m_rows d = m_cols d /\ m_rows d = len -> exists r, dx_cheb d u n = inr (U1 len r)) /\
     (m_rows d <> m_cols d \/ m_rows d <> len -> dx_cheb d u n = inl ValueError)) /\
  (forall z m, is_int n z -> (0 < z)%Z -> u = U2 m ->
     (m_rows d = m_cols d /\ m_rows d = m_rows m -> exists r, dx_cheb d u n = inr (U2 (mk_marr (m_rows m) (m_cols m) r))) /\
     (m_rows d <> m_rows m -> dx_cheb d u n = inl ValueError) /\
     (m_rows d = m_rows m -> m_rows d <> m_cols d -> dx_cheb d u n = inl (if (z =? 1)%Z then ValueError else LinAlgError))).
Proof.
  unfold dx_cheb.
  assert (Sz : forall k, m_rows d = m_cols d -> m_rows (mpow d k) = m_rows d /\ m_cols (mpow d k) = m_rows d).
  { intros k H. induction k as [|k [I J]]; cbn; split; congruence. }
  split; [intros H; now rewrite (proj2 (check_order_type n) H)|].
  split; [intros z H L; rewrite (check_order_int n z H); now rewrite (proj2 (Z.ltb_lt _ _) L)|].
  split; [intros H; now rewrite (check_order_int n 0 H)|].
  split; [intros z H L ->; rewrite (check_order_int n z H), (proj2 (Z.ltb_ge _ _)) by lia; destruct (Z.to_nat z) eqn:E; [lia|reflexivity]|].
  split.
  - intros z len v H L ->. rewrite (check_order_int n z H), (proj2 (Z.ltb_ge _ _)) by lia. destruct (Z.to_nat z) as [|k] eqn:E; [lia|]. split.
    + intros [A B]. rewrite <- A, <- B, Nat.eqb_refl. cbn [negb]. destruct k as [|k]; cbn [matmul].
      * rewrite <- A, Nat.eqb_refl. eauto.
      * destruct (Sz (S k) A) as [-> ->]. rewrite Nat.eqb_refl. eauto.
    + intros D. destruct (Nat.eqb_spec (m_rows d) (m_cols d)); cbn [negb]; [|reflexivity].
      destruct (Nat.eqb_spec (m_rows d) len); [destruct D; contradiction|reflexivity].
  - intros z m H L ->. rewrite (check_order_int n z H), (proj2 (Z.ltb_ge _ _)) by lia. destruct (Z.to_nat z) as [|k] eqn:E; [lia|]. repeat split.
    + intros [A B]. rewrite <- A, B, Nat.eqb_refl. cbn [negb]. unfold matmul, mmul. destruct k as [|k].
      * rewrite <- A, B, Nat.eqb_refl. eauto.
      * destruct (Sz (S k) A) as [-> ->]. rewrite B, Nat.eqb_refl. eauto.
    + intros D. now rewrite (proj2 (Nat.eqb_neq _ _) D).
    + intros A D. rewrite A, Nat.eqb_refl. cbn [negb]. destruct k as [|k].
      * replace z with 1%Z by lia. cbn [Z.eqb Pos.eqb matmul]. rewrite <- A, (Nat.eqb_sym (m_cols d)). now rewrite (proj2 (Nat.eqb_neq _ _) D).
      * rewrite <- A. rewrite (proj2 (Nat.eqb_neq _ _) D). destruct (Z.eqb_spec z 1); [lia|reflexivity].
Qed.

(** ** Cases *)
Example C53_case : exists x kx, fft_grid (PInt 8) (num 0) (num 2) = inr (x, kx) /\
  dx_fft kx (map (trig 3 (fun m => RtoC (IZR m)) (2 * PI / (2 - 0)) 0) x) (PInt 2)
  = inr (map (trig_n 2 3 (fun m => RtoC (IZR m)) (2 * PI / (2 - 0)) 0) x).
Proof.
  destruct (C53_fft_exact 8 3 2 0 2 (fun m => RtoC (IZR m)) ltac:(lia) eq_refl ltac:(lra) ltac:(lia)) as (x & kx & g & E & Hg & H).
  exists x, kx. split; [exact E|]. etransitivity; [exact H|]. f_equal. apply map_ext. intros t.
  apply (nth_Cder_unique 2 _ _ _ Hg). apply trig_nth.
Qed.
Example C54_case : let kx := [0; 1] in exists v, dx_rfft kx (URe [1; 2; 4]) (PInt 1) = inr v /\
  dx_rfft kx (URe v) (PInt 1) = dx_rfft kx (URe [1; 2; 4]) (PInt 2).
Proof.
  intros kx. eexists. split; [reflexivity|]. change 2%Z with (Z.of_nat (1 + 1)). change 1%Z with (Z.of_nat 1).
  apply C54_rfft_composes; [reflexivity|discriminate|reflexivity].
Qed.
Example C55_case : rsum 4 (fun j => (-1) ^ j * nth j [1; 1; 3; 3] 0) = 0.
Proof. cbn. ring. Qed.
Example C56_case : is_int (PBool true) 1 /\ (forall z, ~ is_int (PFloat 2) z) /\
  dx_fft [0; 1] [RtoC 1; RtoC 2; RtoC 3] (PInt 1) = inl ValueError /\ dx_rfft [0; 1] (URe [1; 2; 3]) (PFloat 1) = inl TypeError /\
  dx_cheb (mk_marr 2 3 (fun _ _ => 1)) (U2 (mk_marr 2 1 (fun _ _ => 1))) (PInt 2) = inl LinAlgError.
Proof.
  split; [right; exists true; split; reflexivity|]. split; [intros z [H|[b [H _]]]; discriminate|]. repeat split.
Qed.

Print Assumptions C53_fft_exact.
Print Assumptions C53_rfft_exact.
Print Assumptions C54_fft_composes.
Print Assumptions C54_rfft_composes.
Print Assumptions C54_rfft_nyquist_refuted.
Print Assumptions C55_real_data.
Print Assumptions C55_nyquist_refuted.
Print Assumptions C56_dx_fft.
Print Assumptions C56_dx_rfft.
Print Assumptions C56_dx_cheb.
