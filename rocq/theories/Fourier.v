(** * Facts about the discrete Fourier transform *)

From Coq Require Import ZArith List Bool Reals Lra Lia.
From Coquelicot Require Import Hierarchy Derive Complex.
From Verif Require Import Scalars CInst SpecPhi ContourReal Grids Derivatives.
Import ListNotations.
Local Open Scope R_scope.

Lemma tab_nth {B} (d : B) n f i : (i < n)%nat -> at_ d (tab n f) i = f i.
Proof.
  intros H. unfold at_, tab. rewrite (nth_indep _ d (f O)) by (rewrite map_length, seq_length; exact H).
  rewrite map_nth, seq_nth by exact H. reflexivity.
Qed.
Lemma tab_len {B} n (f : nat -> B) : length (tab n f) = n.
Proof. unfold tab. now rewrite map_length, seq_length. Qed.
Lemma tab_ext {B} n (f g : nat -> B) : (forall i, (i < n)%nat -> f i = g i) -> tab n f = tab n g.
Proof. intros H. apply map_ext_in. intros i Hi. apply in_seq in Hi. apply H. lia. Qed.
Lemma tab_at {B} (d : B) l : tab (length l) (at_ d l) = l.
Proof.
  apply (nth_ext _ _ d d); [apply tab_len|]. intros i Hi. rewrite tab_len in Hi. exact (tab_nth d _ _ i Hi).
Qed.

Lemma csum_zero n : csum n (fun _ => RtoC 0) = RtoC 0.
Proof. now apply csum_0. Qed.
Lemma csum_one n i (f : nat -> C) : (i < n)%nat -> (forall k, (k < n)%nat -> k <> i -> f k = 0) -> csum n f = f i.
Proof.
  intros Hi H. induction n as [|n IH]; [lia|]. cbn [csum]. destruct (Nat.eq_dec i n) as [->|Q].
  - rewrite csum_0; [ring|]. intros k Hk. apply H; lia.
  - rewrite (H n) by lia. rewrite IH; [ring|lia|]. intros k Hk Q'. apply H; lia.
Qed.
Lemma csum_scal_r n c f : csum n (fun i => f i * c)%C = (csum n f * c)%C.
Proof. rewrite Cmult_comm, <- csum_scal. apply csum_ext. intros. apply Cmult_comm. Qed.
Lemma csum_fst n f : fst (csum n f) = rsum n (fun i => fst (f i)).
Proof. induction n; cbn; [reflexivity|]. now rewrite IHn. Qed.
Lemma csum_snd n f : snd (csum n f) = rsum n (fun i => snd (f i)).
Proof. induction n; cbn; [reflexivity|]. now rewrite IHn. Qed.
Lemma rsum_ext n f g : (forall i, (i < n)%nat -> f i = g i) -> rsum n f = rsum n g.
Proof. intros H. induction n; cbn; [reflexivity|]. rewrite IHn, H; auto. Qed.
Lemma csum_first n f : (0 < n)%nat -> csum n f = (f O + csum (n - 1) (fun k => f (S k)))%C.
Proof. destruct n as [|n]; [lia|]. intros _. rewrite csum_shift. replace (S n - 1)%nat with n by lia. reflexivity. Qed.
Lemma Cplus_conj a b : Cconj (a + b)%C = (Cconj a + Cconj b)%C.
Proof. unfold Cconj, Cplus. cbn. apply C_eq; ring. Qed.
Lemma Cmult_conj a b : Cconj (a * b)%C = (Cconj a * Cconj b)%C.
Proof. unfold Cconj, Cmult. cbn. apply C_eq; ring. Qed.
Lemma Cconj_conj a : Cconj (Cconj a) = a.
Proof. destruct a. unfold Cconj. cbn. apply C_eq; ring. Qed.
Lemma csum_conj n f : Cconj (csum n f) = csum n (fun i => Cconj (f i)).
Proof. induction n; cbn; [unfold Cconj, RtoC; cbn; f_equal; ring|]. now rewrite <- IHn, Cplus_conj. Qed.
Lemma csum_rev n f : csum n f = csum n (fun i => f (n - 1 - i)%nat).
Proof.
  revert f. induction n as [|n IH]; intros f; [reflexivity|].
  rewrite csum_shift. cbn [csum]. replace (S n - 1 - n)%nat with 0%nat by lia. rewrite Cplus_comm. f_equal.
  rewrite (IH (fun k => f (S k))). apply csum_ext. intros i Hi. f_equal. lia.
Qed.
Lemma Cconj_R x : Cconj (RtoC x) = RtoC x.
Proof. unfold Cconj, RtoC. cbn. f_equal. ring. Qed.
Lemma Cconj_cpow z n : Cconj (cpow z n) = cpow (Cconj z) n.
Proof. induction n; cbn; [apply Cconj_R|]. now rewrite Cmult_conj, IHn. Qed.
Lemma Creal (z : C) : snd z = 0 <-> Cconj z = z.
Proof. destruct z as [x y]. unfold Cconj. cbn. split; [intros ->; f_equal; ring|]. intros E. injection E as E. lra. Qed.
Lemma Creal_R (z : C) : snd z = 0 -> z = RtoC (fst z).
Proof. destruct z. cbn. now intros ->. Qed.

(** ** Roots of unity *)
Section Roots.
  Variable n : nat.
  Hypothesis Hn : (0 < n)%nat.
  Let N0 : INR n <> 0.
  Proof. apply not_0_INR. lia. Qed.

  Definition w (d : Z) : C := Cexp (0, 2 * PI * IZR d / INR n).
  Lemma w_0 : w 0 = 1.
  Proof. unfold w. replace (0, 2 * PI * 0 / INR n) with (RtoC 0); [apply Cexp_0|]. unfold RtoC. f_equal. field. exact N0. Qed.
  Lemma w_add a b : w (a + b) = (w a * w b)%C.
  Proof.
    unfold w. rewrite <- Cexp_plus. f_equal. unfold Cplus. cbn. rewrite plus_IZR. apply C_eq; field; exact N0.
  Qed.
  Lemma w_opp a : w (- a) = Cconj (w a).
  Proof.
    unfold w, Cexp, Cconj. cbn. rewrite opp_IZR. replace (2 * PI * - IZR a / INR n) with (- (2 * PI * IZR a / INR n)) by (field; exact N0).
    rewrite cos_neg, sin_neg. apply C_eq; ring.
  Qed.
  Lemma w_turns (k : nat) : w (Z.of_nat n * Z.of_nat k) = 1.
  Proof.
    unfold w. rewrite mult_IZR, <- !INR_IZR_INZ. rewrite <- (Cexp_turns k). f_equal. apply C_eq; [reflexivity|]. field. exact N0.
  Qed.
  Lemma w_period (k : Z) : w (Z.of_nat n * k) = 1.
  Proof.
    destruct (Z_le_gt_dec 0 k) as [L|L].
    - rewrite <- (Z2Nat.id k L). apply w_turns.
    - replace (Z.of_nat n * k)%Z with (- (Z.of_nat n * Z.of_nat (Z.to_nat (- k))))%Z by (rewrite Z2Nat.id by lia; lia).
      rewrite w_opp, w_turns. apply Cconj_R.
  Qed.
  Lemma w_mod a b : (a mod Z.of_nat n = b mod Z.of_nat n)%Z -> w a = w b.
  Proof.
    intros E. rewrite (Z.div_mod a (Z.of_nat n)) by lia. rewrite (Z.div_mod b (Z.of_nat n)) by lia.
    rewrite !w_add, !w_period, E. reflexivity.
  Qed.
  Lemma w_pow a (j : nat) : cpow (w a) j = w (Z.of_nat j * a).
  Proof.
    induction j as [|j IH]; [cbn [cpow]; symmetry; apply w_0|]. cbn [cpow]. rewrite IH, <- w_add. f_equal. lia.
  Qed.
  Lemma w_neq_1 d : (d mod Z.of_nat n <> 0)%Z -> w d <> 1.
  Proof.
    intros H. assert (B := Z.mod_pos_bound d (Z.of_nat n) ltac:(lia)). rewrite (w_mod d (d mod Z.of_nat n)) by (now rewrite Z.mod_mod by lia).
    unfold w. apply (Cexp_turn_neq). assert (0 < PI) by apply PI_RGT_0.
    assert (0 < INR n) by (apply lt_0_INR; lia).
    assert (L : 0 < IZR (d mod Z.of_nat n)) by (apply IZR_lt; lia).
    assert (U : IZR (d mod Z.of_nat n) < INR n) by (rewrite INR_IZR_INZ; apply IZR_lt; lia).
    split; [apply Rdiv_lt_0_compat; nra|]. apply (Rmult_lt_reg_r (INR n)); [lra|]. unfold Rdiv. rewrite Rmult_assoc, Rinv_l by lra. nra.
  Qed.
  Definition delta (d : Z) : C := if (d mod Z.of_nat n =? 0)%Z then RtoC 1 else RtoC 0.
  (** Orthogonality. *)
  Lemma csum_const c : csum n (fun _ => c) = (RtoC (INR n) * c)%C.
  Proof.
    clear. induction n as [|m IH]; [cbn; ring|]. cbn [csum]. rewrite IH, S_INR, RtoC_plus. ring.
  Qed.
  Lemma w_sum d : csum n (fun j => w (Z.of_nat j * d)) = (RtoC (INR n) * delta d)%C.
  Proof.
    rewrite (csum_ext _ _ (cpow (w d))) by (intros; symmetry; apply w_pow). unfold delta.
    destruct (Z.eqb_spec (d mod Z.of_nat n) 0) as [E|E].
    - rewrite (csum_ext _ _ (fun _ => RtoC 1)); [apply csum_const|]. intros j _. rewrite w_pow.
      rewrite (w_mod _ 0); [apply w_0|]. rewrite Z.mul_mod, E, Z.mul_0_r by lia. reflexivity.
    - assert (G := geom_sum (w d) n). assert (Q := w_neq_1 d E).
      rewrite w_pow, w_period in G. replace (1 - 1)%C with (RtoC 0) in G by ring.
      destruct (Ceq_dec (csum n (fun j => cpow (w d) j)) 0) as [H0|H0].
      + etransitivity; [exact H0|]. ring.
      + exfalso. revert G. apply Cmult_neq_0; [|exact H0]. intros A. apply Q. rewrite <- (Cplus_0_l 1), <- A. ring.
  Qed.

  Lemma dft_w u k : dft n u k = csum n (fun j => u j * w (- (Z.of_nat j * Z.of_nat k)))%C.
  Proof.
    apply csum_ext. intros j _. f_equal. unfold w. f_equal. apply C_eq; [reflexivity|].
    rewrite opp_IZR, mult_IZR, <- !INR_IZR_INZ. field. exact N0.
  Qed.
  Lemma idft_w v j : idft n v j = (RtoC (/ INR n) * csum n (fun k => v k * w (Z.of_nat j * Z.of_nat k)))%C.
  Proof.
    unfold idft. f_equal. apply csum_ext. intros k _. f_equal. unfold w. f_equal. apply C_eq; [reflexivity|].
    rewrite mult_IZR, <- !INR_IZR_INZ. field. exact N0.
  Qed.
  Lemma RtoC_inv_n : (RtoC (/ INR n) * RtoC (INR n) = 1)%C.
  Proof. rewrite <- RtoC_mult. f_equal. now apply Rinv_l. Qed.

  Lemma delta_small (i j : nat) : (i < n)%nat -> (j < n)%nat -> delta (Z.of_nat i - Z.of_nat j) = if Nat.eqb i j then RtoC 1 else RtoC 0.
  Proof.
    intros Hi Hj. unfold delta. destruct (Nat.eqb_spec i j) as [->|Q].
    - now rewrite Z.sub_diag, Z.mod_0_l by lia.
    - destruct (Z.eqb_spec ((Z.of_nat i - Z.of_nat j) mod Z.of_nat n) 0) as [E|_]; [|reflexivity].
      exfalso. apply Z.mod_divide in E; [|lia]. destruct E as [q E].
      assert (q = 0 \/ q >= 1 \/ q <= -1)%Z by lia. nia.
  Qed.

  (** Inversion. *)
  Theorem dft_idft v k : (k < n)%nat -> dft n (idft n v) k = v k.
  Proof.
    intros Hk. rewrite dft_w.
    rewrite (csum_ext _ _ (fun j => csum n (fun l => RtoC (/ INR n) * v l * w (Z.of_nat j * (Z.of_nat l - Z.of_nat k))))%C).
    2:{ intros j _. rewrite idft_w, <- csum_scal, <- csum_scal_r. apply csum_ext. intros l _.
        rewrite <- Cmult_assoc, <- Cmult_assoc, <- w_add, Cmult_assoc. f_equal. f_equal. lia. }
    rewrite csum_swap. rewrite (csum_ext _ _ (fun l => v l * delta (Z.of_nat l - Z.of_nat k))%C).
    2:{ intros l _. rewrite csum_scal, w_sum.
        replace (RtoC (/ INR n) * v l * (RtoC (INR n) * delta (Z.of_nat l - Z.of_nat k)))%C
          with (RtoC (/ INR n) * RtoC (INR n) * (v l * delta (Z.of_nat l - Z.of_nat k)))%C by ring.
        rewrite RtoC_inv_n. ring. }
    rewrite (csum_one n k _ Hk).
    - rewrite delta_small, Nat.eqb_refl by exact Hk. ring.
    - intros l Hl Q. rewrite delta_small by assumption. rewrite (proj2 (Nat.eqb_neq l k) Q). ring.
  Qed.

  (** Transform of real data. *)
  Lemma dft_conj u k : (forall j, (j < n)%nat -> snd (u j) = 0) -> (0 < k < n)%nat ->
    dft n u (n - k) = Cconj (dft n u k).
  Proof.
    intros Hu Hk. rewrite !dft_w, csum_conj. apply csum_ext. intros j Hj.
    rewrite Cmult_conj, (proj1 (Creal _) (Hu j Hj)). f_equal. rewrite <- w_opp. apply w_mod.
    replace (- (Z.of_nat j * Z.of_nat (n - k)))%Z with (- - (Z.of_nat j * Z.of_nat k) + (- Z.of_nat j) * Z.of_nat n)%Z by lia.
    now rewrite Z.mod_add by lia.
  Qed.
  Lemma dft_real_0 u : (forall j, (j < n)%nat -> snd (u j) = 0) -> snd (dft n u 0) = 0.
  Proof.
    intros Hu. apply Creal. rewrite dft_w, csum_conj. apply csum_ext. intros j Hj.
    rewrite Cmult_conj, (proj1 (Creal _) (Hu j Hj)). f_equal. rewrite <- w_opp. f_equal. lia.
  Qed.
  Lemma dft_real_half u k : (forall j, (j < n)%nat -> snd (u j) = 0) -> (2 * k = n)%nat -> snd (dft n u k) = 0.
  Proof.
    intros Hu Hk. apply Creal. rewrite <- dft_conj by (auto; lia). f_equal. lia.
  Qed.

  (** Hermitian data have a real inverse transform. *)
  Definition herm (v : nat -> C) : Prop := snd (v O) = 0 /\ forall k, (0 < k < n)%nat -> v (n - k)%nat = Cconj (v k).
  Lemma herm_real v j : herm v -> snd (idft n v j) = 0.
  Proof.
    intros [H0 H]. apply Creal. rewrite idft_w, Cmult_conj, Cconj_R, csum_conj. f_equal.
    set (f := fun k => (v k * w (Z.of_nat j * Z.of_nat k))%C).
    rewrite (csum_first n f), csum_first by exact Hn. f_equal.
    - unfold f. rewrite Cmult_conj, (proj1 (Creal _) H0), <- w_opp. f_equal. f_equal. lia.
    - rewrite (csum_rev (n - 1)). apply csum_ext. intros i Hi. unfold f.
      rewrite Cmult_conj, <- w_opp, <- H by lia. replace (n - S (n - 1 - 1 - i))%nat with (S i) by lia. f_equal.
      apply w_mod. replace (- (Z.of_nat j * Z.of_nat (S (n - 1 - 1 - i))))%Z with (Z.of_nat j * Z.of_nat (S i) + (- Z.of_nat j) * Z.of_nat n)%Z by nia.
      now rewrite Z.mod_add by lia.
  Qed.
  Lemma hermitian_herm v : herm (hermitian n v).
  Proof.
    split; [reflexivity|]. intros k Hk. unfold hermitian.
    replace (Nat.eqb (n - k) 0) with false by (symmetry; apply Nat.eqb_neq; lia).
    replace (Nat.eqb k 0) with false by (symmetry; apply Nat.eqb_neq; lia). cbn [orb].
    destruct (Nat.eqb_spec (2 * k) n) as [E|E].
    - replace (Nat.eqb (2 * (n - k)) n) with true by (symmetry; apply Nat.eqb_eq; lia).
      replace (n - k)%nat with k by lia. now rewrite Cconj_R.
    - replace (Nat.eqb (2 * (n - k)) n) with false by (symmetry; apply Nat.eqb_neq; lia).
      destruct (Nat.ltb_spec (2 * k) n), (Nat.ltb_spec (2 * (n - k)) n); try lia.
      + f_equal. f_equal. lia.
      + now rewrite Cconj_conj.
  Qed.
  (** [rfft(irfft(v, n))] is [v] when the entries 0 and (for even [n]) [n/2] are real. *)
  Lemma rfft_irfft v k : (0 < n)%nat -> (2 * k <= n)%nat -> snd (v O) = 0 -> (forall k, (2 * k = n)%nat -> snd (v k) = 0) ->
    dft n (fun j => RtoC (fst (idft n (hermitian n v) j))) k = v k.
  Proof.
    intros _ Hk H0 Hh. transitivity (dft n (idft n (hermitian n v)) k).
    - rewrite !dft_w. apply csum_ext. intros j _. f_equal. symmetry. apply Creal_R, herm_real, hermitian_herm.
    - rewrite dft_idft by lia. unfold hermitian.
      destruct (Nat.eqb_spec k 0) as [->|Q]; [cbn [orb]; symmetry; now apply Creal_R|]. cbn [orb].
      destruct (Nat.eqb_spec (2 * k) n) as [E|E]; [symmetry; apply Creal_R; auto|].
      now rewrite (proj2 (Nat.ltb_lt (2 * k) n) ltac:(lia)).
  Qed.
End Roots.

(** Powers of imaginary numbers. *)
Lemma cpow_im_even y q : snd (cpow (0, y) (2 * q)) = 0.
Proof.
  replace (cpow (0, y) (2 * q)) with (cpow (RtoC (- (y * y))) q).
  - now rewrite cpow_R.
  - rewrite Nat.mul_comm. induction q as [|q IH]; [reflexivity|]. cbn [Nat.mul Nat.add cpow]. rewrite <- IH, Cmult_assoc. f_equal.
    unfold Cmult, RtoC. cbn. apply C_eq; ring.
Qed.
Lemma cpow_conj_im y q : cpow (0, - y) q = Cconj (cpow (0, y) q).
Proof. rewrite Cconj_cpow. reflexivity. Qed.
Lemma cpow_zero_im q : snd (cpow (0, 0) q) = 0.
Proof. change (0, 0) with (RtoC 0). now rewrite cpow_R. Qed.
