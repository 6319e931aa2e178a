(** * Rounded complex arithmetic

    The models of the schemes are written over any arithmetic ([Arrays.v]). Here: arithmetics on complex numbers whose
    operations differ from the exact ones by a relative error plus an underflow error, as long as nothing overflows; and a
    calculus for the distance of quantities computed with such an arithmetic from the exact ones, near a smooth solution.

    Simplification: step sizes, times and the scalars computed from step sizes alone ([19372 * h]) are exact. *)

From Coq Require Import ZArith List Bool Reals Lra Lia FunctionalExtensionality.
From Coquelicot Require Import Complex.
From Verif Require Import Scalars Arrays CInst SpecRK SchemeIFReal SpecPhi ContourReal Asym Solution Stable Converge Voc PropsETD.
Import ListNotations.
Local Open Scope R_scope.

(** The operations of numpy on complex128 entries. *)
Record arith := mk_arith {
  fl_add : C -> C -> C; fl_sub : C -> C -> C; fl_mul : C -> C -> C; fl_div : C -> C -> C;
  fl_exp : C -> C; fl_abs : C -> R; fl_2pij : C;
  fl_sum : nat -> (nat -> C) -> C;
  fl_dot : nat -> (nat -> nat -> C) -> (nat -> C) -> nat -> C }.
(** The arithmetic record of [Arrays.v] made of them. *)
Definition Fops (a : arith) : aops Rops :=
  mk_aops Rops C (fun x : R => RtoC x) (fl_add a) (fl_sub a) (fl_mul a) (fl_div a) Copp (fl_exp a) (fl_abs a) (fl_2pij a)
    (fl_sum a) (fl_dot a).

(** [eps]: relative error and underflow; [Om]: nothing is said about operands and results of larger modulus (overflow). Sums and
    products of matrices with vectors may be evaluated in any order. *)
Record rounds (a : arith) (eps Om : R) : Prop := {
  ro_add : forall x y, Cmod x <= Om -> Cmod y <= Om -> Cmod (x + y)%C <= Om -> Cmod (fl_add a x y - (x + y))%C <= eps * (1 + Cmod (x + y)%C);
  ro_sub : forall x y, Cmod x <= Om -> Cmod y <= Om -> Cmod (x - y)%C <= Om -> Cmod (fl_sub a x y - (x - y))%C <= eps * (1 + Cmod (x - y)%C);
  ro_mul : forall x y, Cmod x <= Om -> Cmod y <= Om -> Cmod (x * y)%C <= Om -> Cmod (fl_mul a x y - x * y)%C <= eps * (1 + Cmod (x * y)%C);
  ro_div : forall x y, Cmod x <= Om -> Cmod y <= Om -> 1 <= Cmod y * Om -> Cmod (x / y)%C <= Om ->
           Cmod (fl_div a x y - x / y)%C <= eps * (1 + Cmod (x / y)%C);
  ro_exp : forall x, Cmod x <= Om -> Cmod (Cexp x) <= Om -> Cmod (fl_exp a x - Cexp x)%C <= eps * (1 + Cmod (Cexp x));
  ro_abs : forall x, Cmod x <= Om -> Rabs (fl_abs a x - Cmod x) <= eps * (1 + Cmod x);
  ro_2pij : Cmod (fl_2pij a - (0%R, (2 * PI)%R))%C <= eps * (1 + 2 * PI);
  ro_sum : forall m f B, 0 <= B -> (forall k, (k < m)%nat -> Cmod (f k) <= B) -> INR m * eps <= / 8 -> 4 * INR m * (B + 1) <= Om ->
           Cmod (fl_sum a m f - csum m f)%C <= INR m * eps * (1 + 4 * INR m * (B + 1));
  ro_dot : forall n m v i B, 0 <= B -> (forall k, (k < n)%nat -> Cmod (m i k) <= Om /\ Cmod (v k) <= Om /\ Cmod (m i k * v k)%C <= B) ->
           INR n * eps <= / 8 -> 4 * INR n * (B + 1) <= Om ->
           Cmod (fl_dot a n m v i - csum n (fun k => m i k * v k))%C <= INR n * eps * (1 + 4 * INR n * (B + 1)) }.

(** ** Entries *)
Lemma Cmod_le_diff (a b : C) x y : Cmod b <= x -> Cmod (a - b)%C <= y -> Cmod a <= x + y.
Proof. intros H1 H2. assert (X := Cmod_triangle (a - b)%C b). replace (a - b + b)%C with a in X by ring. lra. Qed.
Lemma Cmod_sub_3 (a b c : C) x y : Cmod (a - b)%C <= x -> Cmod (b - c)%C <= y -> Cmod (a - c)%C <= x + y.
Proof. intros H1 H2. assert (X := Cmod_triangle (a - b)%C (b - c)%C). replace (a - b + (b - c))%C with (a - c)%C in X by ring. lra. Qed.
Lemma Cexp_near_1 z : Cmod (Cexp z - 1)%C <= Cmod z * exp (Cmod z).
Proof.
  rewrite <- phi1_id, Cmod_mult. apply Rmult_le_compat_l; [apply Cmod_ge_0|apply phi_bound].
Qed.
Lemma Cexp_lip z w : Cmod (Cexp w - Cexp z)%C <= exp (Cmod z) * (Cmod (w - z)%C * exp (Cmod (w - z)%C)).
Proof.
  replace (Cexp w - Cexp z)%C with (Cexp z * (Cexp (w - z) - 1))%C.
  - rewrite Cmod_mult. apply Rmult_le_compat; [apply Cmod_ge_0|apply Cmod_ge_0|apply Cmod_Cexp_le|apply Cexp_near_1].
  - replace w with (z + (w - z))%C at 2 by ring. rewrite Cexp_plus. ring.
Qed.

(** [x'] is a computed version of [x]. *)
Definition near (B A eps : R) (x x' : C) : Prop := Cmod x <= B /\ Cmod (x' - x)%C <= A * eps.
Lemma near_le B A eps x x' : 0 <= A -> 0 <= eps <= 1 -> near B A eps x x' -> Cmod x' <= B + A.
Proof.
  intros HA He [H1 H2]. assert (A * eps <= A * 1) by (apply Rmult_le_compat_l; lra). eapply Rle_trans; [apply (Cmod_le_diff x' x B (A * eps)); assumption|lra].
Qed.
Section Entries.
  Variables (a : arith) (eps Om : R).
  Hypothesis HR : rounds a eps Om.
  Hypothesis He : 0 <= eps <= 1.
  Variables B A B' A' : R.
  Hypothesis HB : 0 <= B.
  Hypothesis HA : 0 <= A.
  Hypothesis HB' : 0 <= B'.
  Hypothesis HA' : 0 <= A'.
  Variables x x' y y' : C.
  Hypothesis Hx : near B A eps x x'.
  Hypothesis Hy : near B' A' eps y y'.
  (** The rounding error of a result [r], and its distance [d] from the exact result [q] for exact operands. *)
  Lemma near_round (q r z : C) D d : Cmod z <= D -> Cmod (r - z)%C <= eps * (1 + Cmod z) -> Cmod (z - q)%C <= d * eps -> Cmod (r - q)%C <= (1 + D + d) * eps.
  Proof.
    intros H1 H2 H3. eapply Rle_trans; [apply (Cmod_sub_3 r z q _ _ H2 H3)|].
    assert (eps * (1 + Cmod z) <= eps * (1 + D)) by (apply Rmult_le_compat_l; lra). lra.
  Qed.
  Lemma near_add : B + B' + A + A' <= Om -> near (B + B') (1 + (B + B' + A + A') + (A + A')) eps (x + y)%C (fl_add a x' y').
  Proof.
    intros HO. assert (X := near_le _ _ _ _ _ HA He Hx). assert (Y := near_le _ _ _ _ _ HA' He Hy). destruct Hx as [X1 X2]. destruct Hy as [Y1 Y2].
    assert (T := Cmod_triangle x' y'). split; [eapply Rle_trans; [apply Cmod_triangle|lra]|].
    apply near_round with (x' + y')%C; [lra|apply (ro_add _ _ _ HR); lra|].
    replace (x' + y' - (x + y))%C with ((x' - x) + (y' - y))%C by ring. eapply Rle_trans; [apply Cmod_triangle|]. lra.
  Qed.
  Lemma near_sub : B + B' + A + A' <= Om -> near (B + B') (1 + (B + B' + A + A') + (A + A')) eps (x - y)%C (fl_sub a x' y').
  Proof.
    intros HO. assert (X := near_le _ _ _ _ _ HA He Hx). assert (Y := near_le _ _ _ _ _ HA' He Hy). destruct Hx as [X1 X2]. destruct Hy as [Y1 Y2].
    assert (T : forall p q, Cmod (p - q)%C <= Cmod p + Cmod q) by (intros p q; unfold Cminus; eapply Rle_trans; [apply Cmod_triangle|rewrite Cmod_opp; lra]).
    split; [eapply Rle_trans; [apply T|lra]|]. assert (T1 := T x' y').
    apply near_round with (x' - y')%C; [lra|apply (ro_sub _ _ _ HR); lra|].
    replace (x' - y' - (x - y))%C with ((x' - x) - (y' - y))%C by ring. eapply Rle_trans; [apply T|]. lra.
  Qed.
  Lemma near_mul : (B + A) * (B' + A') + (B + A) + (B' + A') <= Om ->
    near (B * B') (1 + (B + A) * (B' + A') + (A * (B' + A') + B * A')) eps (x * y)%C (fl_mul a x' y').
  Proof.
    intros HO. assert (X := near_le _ _ _ _ _ HA He Hx). assert (Y := near_le _ _ _ _ _ HA' He Hy). destruct Hx as [X1 X2]. destruct Hy as [Y1 Y2].
    assert (G := Cmod_ge_0 x). assert (G' := Cmod_ge_0 y). assert (Gx := Cmod_ge_0 x'). assert (Gy := Cmod_ge_0 y').
    assert (T : Cmod (x' * y')%C <= (B + A) * (B' + A')) by (rewrite Cmod_mult; apply Rmult_le_compat; lra).
    assert (P : 0 <= (B + A) * (B' + A')) by (apply Rmult_le_pos; lra).
    split; [rewrite Cmod_mult; apply Rmult_le_compat; lra|].
    apply near_round with (x' * y')%C; [lra|apply (ro_mul _ _ _ HR); lra|].
    replace (x' * y' - x * y)%C with ((x' - x) * y' + x * (y' - y))%C by ring. eapply Rle_trans; [apply Cmod_triangle|]. rewrite !Cmod_mult.
    assert (Q1 : Cmod (x' - x)%C * Cmod y' <= (A * eps) * (B' + A')) by (apply Rmult_le_compat; try apply Cmod_ge_0; lra).
    assert (Q2 : Cmod x * Cmod (y' - y)%C <= B * (A' * eps)) by (apply Rmult_le_compat; try apply Cmod_ge_0; lra). lra.
  Qed.
  (** Division by an exact real number. *)
  Lemma near_div (c : R) : c <> 0 -> (B + A) / Rabs c + (B + A) + Rabs c + / Rabs c <= Om ->
    near (B / Rabs c) (1 + (B + A) / Rabs c + A / Rabs c) eps (x / RtoC c)%C (fl_div a x' (RtoC c)).
  Proof.
    intros Hc HO. assert (X := near_le _ _ _ _ _ HA He Hx). destruct Hx as [X1 X2]. assert (Pc := Rabs_pos_lt c Hc). assert (Ic := Rinv_0_lt_compat _ Pc).
    assert (Nc : RtoC c <> RtoC 0) by (intros E; apply RtoC_inj in E; contradiction).
    assert (D : forall z, Cmod (z / RtoC c)%C = Cmod z / Rabs c) by (intros z; rewrite Cmod_div by exact Nc; rewrite Cmod_R; reflexivity).
    assert (M : forall p q, p <= q -> p / Rabs c <= q / Rabs c) by (intros p q Hpq; apply Rmult_le_compat_r; lra).
    assert (P : 0 <= (B + A) / Rabs c) by (apply Rmult_le_pos; lra).
    assert (MX := M _ _ X). rewrite <- D in MX.
    split; [rewrite D; apply M; exact X1|].
    apply near_round with (x' / RtoC c)%C; [exact MX| |].
    - apply (ro_div _ _ _ HR); [lra|rewrite Cmod_R; lra| |lra]. rewrite Cmod_R. replace 1 with (Rabs c * / Rabs c) by (field; lra).
      apply Rmult_le_compat_l; lra.
    - replace (x' / RtoC c - x / RtoC c)%C with ((x' - x) / RtoC c)%C by (field; exact Nc). rewrite D.
      replace (A / Rabs c * eps) with (A * eps / Rabs c) by (field; lra). apply M. exact X2.
  Qed.
  Lemma near_cdiv (c : R) : 0 < c -> c <= Cmod y -> A' * eps <= c / 2 -> 2 * (B + A) / c + (B + A) + (B' + A') + 2 / c <= Om ->
    near (B / c) (1 + 2 * (B + A) / c + (2 * A / c + 2 * B * A' / (c * c))) eps (x / y)%C (fl_div a x' y').
  Proof.
    intros Hc Hy1 Hy2 HO. assert (X := near_le _ _ _ _ _ HA He Hx). assert (Y := near_le _ _ _ _ _ HA' He Hy). destruct Hx as [X1 X2]. destruct Hy as [Y1 Y2].
    assert (Ic := Rinv_0_lt_compat _ Hc). assert (L' : c / 2 <= Cmod y').
    { assert (T := Cmod_triangle (y - y')%C y'). replace (y - y' + y')%C with y in T by ring. rewrite <- (Cmod_opp (y - y')%C) in T.
      replace (- (y - y'))%C with (y' - y)%C in T by ring. lra. }
    assert (Ny : y <> RtoC 0) by (intros E; rewrite E, Cmod_0 in Hy1; lra). assert (Ny' : y' <> RtoC 0) by (intros E; rewrite E, Cmod_0 in L'; lra).
    assert (G := Cmod_ge_0 x). assert (G' := Cmod_ge_0 x').
    assert (I1 : / Cmod y <= / c) by (apply Rinv_le_contravar; lra).
    assert (I2 : / Cmod y' <= 2 * / c) by (replace (2 * / c) with (/ (c / 2)) by (field; lra); apply Rinv_le_contravar; lra).
    assert (P1 : 0 < / Cmod y) by (apply Rinv_0_lt_compat; lra). assert (P2 : 0 < / Cmod y') by (apply Rinv_0_lt_compat; lra).
    assert (T : Cmod (x' / y')%C <= 2 * (B + A) / c).
    { rewrite Cmod_div by exact Ny'. replace (2 * (B + A) / c) with ((B + A) * (2 * / c)) by (field; lra). apply Rmult_le_compat; lra. }
    assert (Q0 : 0 <= 2 * (B + A) / c) by (apply Rmult_le_pos; lra).
    assert (Q1 : 0 <= 2 / c) by (apply Rmult_le_pos; lra).
    split; [rewrite Cmod_div by exact Ny; apply Rmult_le_compat; lra|].
    apply near_round with (x' / y')%C; [exact T| |].
    - apply (ro_div _ _ _ HR); [lra|lra| |lra]. apply Rle_trans with (c / 2 * (2 / c)); [right; field; lra|]. apply Rmult_le_compat; lra.
    - replace (x' / y' - x / y)%C with ((x' - x) / y' - x * (y' - y) / (y * y'))%C by (field; split; assumption).
      unfold Cminus at 1. eapply Rle_trans; [apply Cmod_triangle|]. rewrite Cmod_opp.
      rewrite !Cmod_div, !Cmod_mult by (try apply Cmult_neq_0; assumption).
      assert (R1 : Cmod (x' - x)%C / Cmod y' <= (A * eps) * (2 * / c)) by (apply Rmult_le_compat; try apply Cmod_ge_0; lra).
      assert (R2 : Cmod x * Cmod (y' - y)%C / (Cmod y * Cmod y') <= (B * (A' * eps)) * (/ c * (2 * / c))).
      { unfold Rdiv. rewrite Rinv_mult. apply Rmult_le_compat; [apply Rmult_le_pos; apply Cmod_ge_0|apply Rmult_le_pos; lra| |apply Rmult_le_compat; lra].
        apply Rmult_le_compat; try apply Cmod_ge_0; lra. }
      replace ((2 * A / c + 2 * B * A' / (c * c)) * eps) with (A * eps * (2 * / c) + B * (A' * eps) * (/ c * (2 * / c))) by (field; lra). lra.
  Qed.
  Lemma near_exp : (B + A) + exp (B + A) <= Om -> near (exp B) (1 + exp (B + A) + exp B * (A * exp A)) eps (Cexp x) (fl_exp a x').
  Proof.
    intros HO. assert (X := near_le _ _ _ _ _ HA He Hx). destruct Hx as [X1 X2].
    assert (mono : forall p q, p <= q -> exp p <= exp q) by (intros p q [H| ->]; [left; apply exp_increasing; exact H|right; reflexivity]).
    assert (P := exp_pos (B + A)). assert (E1 := Cmod_Cexp_le x). assert (E2 := Cmod_Cexp_le x').
    assert (M1 := mono _ _ X1). assert (M2 := mono _ _ X).
    split; [lra|]. apply near_round with (Cexp x'); [lra|apply (ro_exp _ _ _ HR); lra|].
    eapply Rle_trans; [apply Cexp_lip|].
    replace (exp B * (A * exp A) * eps) with (exp B * ((A * eps) * exp A)) by ring.
    assert (Q : Cmod (x' - x)%C <= A) by (assert (A * eps <= A * 1) by (apply Rmult_le_compat_l; lra); lra).
    apply Rmult_le_compat; [left; apply exp_pos| |exact M1|].
    - apply Rmult_le_pos; [apply Cmod_ge_0|left; apply exp_pos].
    - apply Rmult_le_compat; [apply Cmod_ge_0|left; apply exp_pos|exact X2|apply mono; exact Q].
  Qed.
End Entries.
(** Sums. *)
Lemma csum_near m (f g : nat -> C) B A eps : 0 <= B -> 0 <= A -> 0 <= eps -> (forall k, (k < m)%nat -> near B A eps (f k) (g k)) ->
  Cmod (csum m f) <= INR m * B /\ Cmod (csum m g - csum m f)%C <= INR m * A * eps.
Proof.
  intros HB HA He. induction m as [|m IH]; intros H.
  - cbn [csum]. change (INR 0) with 0. replace (RtoC 0 - RtoC 0)%C with (RtoC 0) by ring. rewrite Cmod_0. lra.
  - destruct IH as [I1 I2]; [intros k Hk; apply H; lia|]. destruct (H m ltac:(lia)) as [H1 H2]. cbn [csum]. rewrite S_INR.
    assert (T1 := Cmod_triangle (csum m f) (f m)). assert (T2 := Cmod_triangle (csum m g - csum m f)%C (g m - f m)%C).
    replace (csum m g - csum m f + (g m - f m))%C with (csum m g + g m - (csum m f + f m))%C in T2 by ring. split; lra.
Qed.
Lemma near_sum (a : arith) eps Om (m : nat) (f g : nat -> C) B A : rounds a eps Om -> 0 <= eps <= 1 -> 0 <= B -> 0 <= A -> (forall k, (k < m)%nat -> near B A eps (f k) (g k)) ->
  INR m * eps <= / 8 -> 4 * INR m * (B + A + 1) <= Om ->
  near (INR m * B) (INR m * (1 + 4 * INR m * (B + A + 1)) + INR m * A) eps (csum m f) (fl_sum a m g).
Proof.
  intros HR He HB HA H Hm HO. destruct (csum_near m f g B A eps HB HA (proj1 He) H) as [C1 C2]. split; [exact C1|].
  assert (S1 := ro_sum _ _ _ HR m g (B + A) ltac:(lra) (fun k Hk => near_le B A eps (f k) (g k) HA He (H k Hk)) Hm HO).
  eapply Rle_trans; [apply (Cmod_sub_3 _ _ _ _ _ S1 C2)|]. right. ring.
Qed.
(** A product of a matrix and a vector. *)
Lemma near_dot (a : arith) eps Om (n : nat) (M M' : nat -> nat -> C) (v v' : nat -> C) i B A B' A' : rounds a eps Om -> 0 <= eps <= 1 -> 0 <= B -> 0 <= A -> 0 <= B' -> 0 <= A' ->
  (forall k, (k < n)%nat -> near B A eps (M i k) (M' i k)) -> (forall k, (k < n)%nat -> near B' A' eps (v k) (v' k)) ->
  INR n * eps <= / 8 -> 4 * INR n * ((B + A) * (B' + A') + 1) + (B + A) + (B' + A') <= Om ->
  near (INR n * (B * B')) (INR n * (1 + 4 * INR n * ((B + A) * (B' + A') + 1)) + INR n * (A * (B' + A') + B * A')) eps
    (csum n (fun k => M i k * v k)%C) (fl_dot a n M' v' i).
Proof.
  intros HR He HB HA HB' HA' HM Hv Hn HO. assert (Pn := pos_INR n).
  assert (P : 0 <= (B + A) * (B' + A')) by (apply Rmult_le_pos; lra).
  assert (PO : 0 <= 4 * INR n * ((B + A) * (B' + A') + 1)) by (apply Rmult_le_pos; lra).
  assert (D : 0 <= A * (B' + A') + B * A') by (assert (0 <= A * (B' + A')) by (apply Rmult_le_pos; lra); assert (0 <= B * A') by (apply Rmult_le_pos; lra); lra).
  assert (NE : forall k, (k < n)%nat -> near (B * B') (A * (B' + A') + B * A') eps (M i k * v k)%C (M' i k * v' k)%C).
  { intros k Hk. assert (X := near_le _ _ _ _ _ HA' He (Hv k Hk)). destruct (HM k Hk) as [M1 M2]. destruct (Hv k Hk) as [V1 V2].
    split; [rewrite Cmod_mult; apply Rmult_le_compat; try apply Cmod_ge_0; assumption|].
    replace (M' i k * v' k - M i k * v k)%C with ((M' i k - M i k) * v' k + M i k * (v' k - v k))%C by ring. eapply Rle_trans; [apply Cmod_triangle|]. rewrite !Cmod_mult.
    assert (Q1 : Cmod (M' i k - M i k)%C * Cmod (v' k) <= (A * eps) * (B' + A')) by (apply Rmult_le_compat; try apply Cmod_ge_0; lra).
    assert (Q2 : Cmod (M i k) * Cmod (v' k - v k)%C <= B * (A' * eps)) by (apply Rmult_le_compat; try apply Cmod_ge_0; lra). lra. }
  destruct (csum_near n (fun k => M i k * v k)%C (fun k => M' i k * v' k)%C (B * B') _ eps ltac:(apply Rmult_le_pos; lra) D (proj1 He) NE) as [C1 C2].
  split; [exact C1|].
  assert (S1 := ro_dot _ _ _ HR n M' v' i ((B + A) * (B' + A')) P).
  assert (S2 : Cmod (fl_dot a n M' v' i - csum n (fun k => M' i k * v' k))%C <= INR n * eps * (1 + 4 * INR n * ((B + A) * (B' + A') + 1))).
  { apply S1; [|exact Hn|lra]. intros k Hk. assert (X := near_le _ _ _ _ _ HA He (HM k Hk)). assert (Y := near_le _ _ _ _ _ HA' He (Hv k Hk)).
    split; [lra|]. split; [lra|]. rewrite Cmod_mult. apply Rmult_le_compat; try apply Cmod_ge_0; assumption. }
  eapply Rle_trans; [apply (Cmod_sub_3 _ _ _ _ _ S2 C2)|]. right. ring.
Qed.

(** ** One step near a smooth solution *)
(** A step: time, size, starting value, arithmetic, computed nonlinear function, and [X]: the linear part and the library functions
    for matrices. *)
Record inst (X : Type) := mk_inst { i_t : R; i_h : R; i_v : cvec; i_a : arith; i_eps : R; i_Om : R; i_N : cvec -> cvec; i_L : X }.
Arguments mk_inst {X}.  Arguments i_t {X}.  Arguments i_h {X}.  Arguments i_v {X}.  Arguments i_a {X}.  Arguments i_eps {X}.
Arguments i_Om {X}.  Arguments i_N {X}.  Arguments i_L {X}.

(** The nonlinear function is computed with error at most [kap eps] near the solution, and so are the entries of the linear part. *)
Definition computes_near (n : nat) (u : R -> cvec) (N : cvec -> cvec) (t0 t1 rho kap eps : R) (Nf : cvec -> cvec) : Prop :=
  forall t w, t0 <= t <= t1 -> vle n (csub w (u t)) rho -> vle n (csub (Nf w) (N w)) (kap * eps).

Section Steps.
  Variables n q : nat.
  Variable L : nat -> nat -> C.
  Variable XL : Type.
  Variable PX : inst XL -> Prop.
  Variable N : cvec -> cvec.
  Variables t0 t1 rho K : R.
  Variable u : R -> cvec.
  Variable fd : nat -> R -> cvec.
  Variable J : R -> cvec -> cvec.
  Hypothesis HS : smooth n q L N t0 t1 rho K u fd J.
  Variable kap : R.
  Hypothesis Hkap : 0 <= kap.

  Record valid (i : inst XL) : Prop := {
    va_t : t0 <= i_t i <= t1;
    va_h : 0 < i_h i <= t1 - t0;
    va_v : vle n (csub (i_v i) (u (i_t i))) (rho / 4);
    va_a : rounds (i_a i) (i_eps i) (i_Om i);
    va_e : 0 <= i_eps i;
    va_N : computes_near n u N t0 t1 rho kap (i_eps i) (i_N i);
    va_L : PX i }.

  (** For all small steps, small rounding errors and large ranges. *)
  Definition ev (P : inst XL -> Prop) : Prop := exists h1 e1 O1, 0 < h1 /\ 0 < e1 /\
    forall i, valid i -> i_h i <= h1 -> i_eps i <= e1 -> O1 <= i_Om i -> P i.
  Lemma ev_and P Q : ev P -> ev Q -> ev (fun i => P i /\ Q i).
  Proof.
    intros (h1 & e1 & O1 & H1 & H2 & H3) (h2 & e2 & O2 & G1 & G2 & G3).
    exists (Rmin h1 h2), (Rmin e1 e2), (Rmax O1 O2). split; [apply Rmin_glb_lt; assumption|]. split; [apply Rmin_glb_lt; assumption|].
    intros i Hi Hh He HO. assert (M1 := Rmin_l h1 h2). assert (M2 := Rmin_r h1 h2). assert (M3 := Rmin_l e1 e2). assert (M4 := Rmin_r e1 e2).
    assert (M5 := Rmax_l O1 O2). assert (M6 := Rmax_r O1 O2). split; [apply H3|apply G3]; (assumption || lra).
  Qed.
  Lemma ev_mono (P Q : inst XL -> Prop) : (forall i, valid i -> P i -> Q i) -> ev P -> ev Q.
  Proof.
    intros H (h1 & e1 & O1 & H1 & H2 & H3). exists h1, e1, O1. split; [exact H1|]. split; [exact H2|]. intros i Hi Hh He HO. apply H; [exact Hi|apply H3; assumption].
  Qed.
  Lemma ev_all (P : inst XL -> Prop) : (forall i, valid i -> P i) -> ev P.
  Proof. intros H. exists 1, 1, 1. split; [lra|]. split; [lra|]. intros i Hi _ _ _. apply H. exact Hi. Qed.
  Lemma ev_h x : 0 < x -> ev (fun i => i_h i <= x).
  Proof. intros H. exists x, 1, 1. split; [exact H|]. split; [lra|]. auto. Qed.
  Lemma ev_e x : 0 < x -> ev (fun i => i_eps i <= x).
  Proof. intros H. exists 1, x, 1. split; [lra|]. split; [exact H|]. auto. Qed.
  Lemma ev_O x : ev (fun i => x <= i_Om i).
  Proof. exists 1, 1, x. split; [lra|]. split; [lra|]. auto. Qed.

  (** [g] is computed, [f] exact: [f] is bounded, [g] within a multiple of [eps]. *)
  Definition ok (f g : inst XL -> cvec) : Prop := exists B A, 0 <= B /\ 0 <= A /\
    ev (fun i => forall j, (j < n)%nat -> near B A (i_eps i) (f i j) (g i j)).
  Definition bnd (f : inst XL -> cvec) : Prop := exists B, 0 <= B /\ ev (fun i => vle n (f i) B).
  Definition oh (f : inst XL -> cvec) : Prop := exists B, 0 <= B /\ ev (fun i => vle n (f i) (B * i_h i)).
  Definition around (base f : inst XL -> cvec) : Prop := oh (fun i => csub (f i) (base i)).
  Definition tube (f : inst XL -> cvec) : Prop := around i_v f.

  Lemma ok_bnd f g : ok f g -> bnd f.
  Proof. intros (B & A & HB & HA & H). exists B. split; [exact HB|]. revert H. apply ev_mono. intros i _ H j Hj. apply H. exact Hj. Qed.

  Lemma ok_add f g f' g' : ok f g -> ok f' g' -> ok (fun i => vadd (A := Cops) (f i) (f' i)) (fun i => vadd (A := Fops (i_a i)) (g i) (g' i)).
  Proof.
    intros (B & A & HB & HA & H) (B' & A' & HB' & HA' & H'). exists (B + B'), (1 + (B + B' + A + A') + (A + A')). split; [lra|]. split; [lra|].
    generalize (ev_and _ _ (ev_and _ _ H H') (ev_and _ _ (ev_e 1 Rlt_0_1) (ev_O (B + B' + A + A')))). apply ev_mono.
    intros i Hi [[P P'] [E O]] j Hj. apply (near_add (i_a i) (i_eps i) (i_Om i) (va_a i Hi)); auto. split; [apply (va_e i Hi)|exact E].
  Qed.
  Lemma ok_sub f g f' g' : ok f g -> ok f' g' -> ok (fun i => vsub (A := Cops) (f i) (f' i)) (fun i => vsub (A := Fops (i_a i)) (g i) (g' i)).
  Proof.
    intros (B & A & HB & HA & H) (B' & A' & HB' & HA' & H'). exists (B + B'), (1 + (B + B' + A + A') + (A + A')). split; [lra|]. split; [lra|].
    generalize (ev_and _ _ (ev_and _ _ H H') (ev_and _ _ (ev_e 1 Rlt_0_1) (ev_O (B + B' + A + A')))). apply ev_mono.
    intros i Hi [[P P'] [E O]] j Hj. apply (near_sub (i_a i) (i_eps i) (i_Om i) (va_a i Hi)); auto. split; [apply (va_e i Hi)|exact E].
  Qed.
  Lemma ok_mul f g f' g' : ok f g -> ok f' g' -> ok (fun i => vmul (A := Cops) (f i) (f' i)) (fun i => vmul (A := Fops (i_a i)) (g i) (g' i)).
  Proof.
    intros (B & A & HB & HA & H) (B' & A' & HB' & HA' & H'). exists (B * B'), (1 + (B + A) * (B' + A') + (A * (B' + A') + B * A')).
    assert (0 <= B * B') by (apply Rmult_le_pos; assumption). assert (0 <= (B + A) * (B' + A')) by (apply Rmult_le_pos; lra).
    assert (0 <= A * (B' + A')) by (apply Rmult_le_pos; lra). assert (0 <= B * A') by (apply Rmult_le_pos; lra). split; [lra|]. split; [lra|].
    generalize (ev_and _ _ (ev_and _ _ H H') (ev_and _ _ (ev_e 1 Rlt_0_1) (ev_O ((B + A) * (B' + A') + (B + A) + (B' + A'))))). apply ev_mono.
    intros i Hi [[P P'] [E O]] j Hj. apply (near_mul (i_a i) (i_eps i) (i_Om i) (va_a i Hi)); auto. split; [apply (va_e i Hi)|exact E].
  Qed.
  Lemma ok_exp f g : ok f g -> ok (fun i => vexp (A := Cops) (f i)) (fun i => vexp (A := Fops (i_a i)) (g i)).
  Proof.
    intros (B & A & HB & HA & H). exists (exp B), (1 + exp (B + A) + exp B * (A * exp A)).
    assert (P1 := exp_pos B). assert (P2 := exp_pos (B + A)). assert (P3 := exp_pos A). split; [lra|].
    split; [assert (0 <= exp B * (A * exp A)) by (apply Rmult_le_pos; [lra|apply Rmult_le_pos; lra]); lra|].
    generalize (ev_and _ _ H (ev_and _ _ (ev_e 1 Rlt_0_1) (ev_O (B + A + exp (B + A))))). apply ev_mono.
    intros i Hi [P [E O]] j Hj. apply (near_exp (i_a i) (i_eps i) (i_Om i) (va_a i Hi)); auto. split; [apply (va_e i Hi)|exact E].
  Qed.
  Lemma ok_divs f g (c : R) : c <> 0 -> ok f g -> ok (fun i => vdivs (A := Cops) (f i) c) (fun i => vdivs (A := Fops (i_a i)) (g i) c).
  Proof.
    intros Hc (B & A & HB & HA & H). exists (B / Rabs c), (1 + (B + A) / Rabs c + A / Rabs c).
    assert (Pc := Rabs_pos_lt c Hc). assert (Ic := Rinv_0_lt_compat _ Pc).
    assert (0 <= B / Rabs c) by (apply Rmult_le_pos; lra). assert (0 <= (B + A) / Rabs c) by (apply Rmult_le_pos; lra).
    assert (0 <= A / Rabs c) by (apply Rmult_le_pos; lra). split; [lra|]. split; [lra|].
    generalize (ev_and _ _ H (ev_and _ _ (ev_e 1 Rlt_0_1) (ev_O ((B + A) / Rabs c + (B + A) + Rabs c + / Rabs c)))). apply ev_mono.
    intros i Hi [P [E O]] j Hj. apply (near_div (i_a i) (i_eps i) (i_Om i) (va_a i Hi)); auto. split; [apply (va_e i Hi)|exact E].
  Qed.
  Lemma ok_divz f g (c : positive) : ok f g -> ok (fun i => vdivz (A := Cops) (f i) (Zpos c)) (fun i => vdivz (A := Fops (i_a i)) (g i) (Zpos c)).
  Proof. apply ok_divs. apply (not_0_IZR (Zpos c)). discriminate. Qed.
  (** Exact scalars. *)
  Definition sbnd (s : inst XL -> R) : Prop := exists B, 0 <= B /\ forall i, valid i -> Rabs (s i) <= B.
  Definition soh (s : inst XL -> R) : Prop := exists B, 0 <= B /\ forall i, valid i -> Rabs (s i) <= B * i_h i.
  Lemma ok_const s : sbnd s -> ok (fun i _ => RtoC (s i)) (fun i _ => RtoC (s i)).
  Proof.
    intros (B & HB & H). exists B, 0. split; [exact HB|]. split; [lra|]. apply ev_all. intros i Hi j _. split; [rewrite Cmod_R; apply H; exact Hi|].
    replace (RtoC (s i) - RtoC (s i))%C with (RtoC 0) by ring. rewrite Cmod_0. lra.
  Qed.
  Lemma ok_scal (s : inst XL -> R) f g : sbnd s -> ok f g -> ok (fun i => vscal (A := Cops) (s i) (f i)) (fun i => vscal (A := Fops (i_a i)) (s i) (g i)).
  Proof. intros Hs H. exact (ok_mul _ _ _ _ (ok_const s Hs) H). Qed.
  Lemma soh_bnd s : soh s -> sbnd s.
  Proof.
    intros (B & HB & H). assert (T := so_time _ _ _ _ _ _ _ _ _ _ _ HS). exists (B * (t1 - t0)). split; [apply Rmult_le_pos; lra|].
    intros i Hi. eapply Rle_trans; [apply H; exact Hi|]. apply Rmult_le_compat_l; [exact HB|]. apply (va_h i Hi).
  Qed.
  Lemma soh_h : soh i_h.
  Proof. exists 1. split; [lra|]. intros i Hi. destruct (va_h i Hi). rewrite Rabs_pos_eq by lra. lra. Qed.
  Lemma soh_mul c : soh (fun i => tmul Rops (tofZ Rops c) (i_h i)).
  Proof.
    exists (Rabs (IZR c)). split; [apply Rabs_pos|]. intros i Hi. destruct (va_h i Hi).
    change (Rabs (IZR c * i_h i) <= Rabs (IZR c) * i_h i). rewrite Rabs_mult, (Rabs_pos_eq (i_h i)) by lra. lra.
  Qed.
  Lemma soh_mul' c : soh (fun i => tmul Rops (i_h i) (tofZ Rops c)).
  Proof.
    exists (Rabs (IZR c)). split; [apply Rabs_pos|]. intros i Hi. destruct (va_h i Hi).
    change (Rabs (i_h i * IZR c) <= Rabs (IZR c) * i_h i). rewrite Rabs_mult, (Rabs_pos_eq (i_h i)) by lra. lra.
  Qed.
  Lemma soh_div (s : inst XL -> R) (c : positive) : soh s -> soh (fun i => tdiv Rops (s i) (tofZ Rops (Zpos c))).
  Proof.
    intros (B & HB & H). exists B. split; [exact HB|]. intros i Hi. change (Rabs (s i / IZR (Zpos c)) <= B * i_h i).
    assert (P : 1 <= IZR (Zpos c)) by (apply (IZR_le 1); lia). unfold Rdiv. rewrite Rabs_mult.
    assert (I : Rabs (/ IZR (Zpos c)) <= 1) by (rewrite Rabs_pos_eq by (left; apply Rinv_0_lt_compat; lra); rewrite <- Rinv_1; apply Rinv_le_contravar; lra).
    apply Rle_trans with (Rabs (s i) * 1); [apply Rmult_le_compat_l; [apply Rabs_pos|exact I]|]. rewrite Rmult_1_r. apply H. exact Hi.
  Qed.
  Lemma sbnd_Z c : sbnd (fun _ => tofZ Rops c).
  Proof. exists (Rabs (IZR c)). split; [apply Rabs_pos|]. intros i _. apply Rle_refl. Qed.

  Lemma ok_v : ok i_v i_v.
  Proof.
    assert (HK := so_K _ _ _ _ _ _ _ _ _ _ _ HS). assert (Hr := so_rho _ _ _ _ _ _ _ _ _ _ _ HS).
    exists (K + rho), 0. split; [lra|]. split; [lra|]. apply ev_all. intros i Hi j Hj. split.
    - assert (X := va_v i Hi j Hj). assert (Y := so_u _ _ _ _ _ _ _ _ _ _ _ HS _ (va_t i Hi) j Hj).
      eapply Rle_trans; [apply (Cmod_le_diff _ _ _ _ Y X)|lra].
    - replace (i_v i j - i_v i j)%C with (RtoC 0) by ring. rewrite Cmod_0. lra.
  Qed.
  (** The tube around the solution, for exact quantities. *)
  Lemma oh_scal (s : inst XL -> R) f : soh s -> bnd f -> oh (fun i => vscal (A := Cops) (s i) (f i)).
  Proof.
    intros (b & Hb & Hs) (B & HB & H). exists (b * B). split; [apply Rmult_le_pos; assumption|]. revert H. apply ev_mono.
    intros i Hi H j Hj. change (Cmod (RtoC (s i) * f i j)%C <= b * B * i_h i). rewrite Cmod_mult, Cmod_R.
    replace (b * B * i_h i) with ((b * i_h i) * B) by ring. apply Rmult_le_compat; [apply Rabs_pos|apply Cmod_ge_0|apply Hs; exact Hi|apply H; exact Hj].
  Qed.
  Lemma oh_mul_l f g : oh f -> bnd g -> oh (fun i => vmul (A := Cops) (f i) (g i)).
  Proof.
    intros (b & Hb & Hs) (B & HB & H). exists (b * B). split; [apply Rmult_le_pos; assumption|]. generalize (ev_and _ _ Hs H). apply ev_mono.
    intros i Hi [G1 G2] j Hj. change (Cmod (f i j * g i j)%C <= b * B * i_h i). rewrite Cmod_mult.
    replace (b * B * i_h i) with ((b * i_h i) * B) by ring. apply Rmult_le_compat; [apply Cmod_ge_0|apply Cmod_ge_0|apply G1; exact Hj|apply G2; exact Hj].
  Qed.
  Lemma oh_divz f (c : positive) : oh f -> oh (fun i => vdivz (A := Cops) (f i) (Zpos c)).
  Proof.
    intros (b & Hb & Hs). exists b. split; [exact Hb|]. revert Hs. apply ev_mono.
    intros i Hi G j Hj. change (Cmod (f i j / RtoC (IZR (Zpos c)))%C <= b * i_h i).
    assert (P : 1 <= IZR (Zpos c)) by (apply (IZR_le 1); lia). rewrite Cmod_div by (intros X; apply RtoC_inj in X; lra).
    rewrite Cmod_R, Rabs_pos_eq by lra. eapply Rle_trans; [|apply G; exact Hj].
    apply Rle_trans with (Cmod (f i j) * 1); [|lra]. apply Rmult_le_compat_l; [apply Cmod_ge_0|]. rewrite <- Rinv_1. apply Rinv_le_contravar; lra.
  Qed.
  Lemma tube_v : tube i_v.
  Proof.
    exists 0. split; [lra|]. apply ev_all. intros i Hi. rewrite Rmult_0_l. apply vle_eq_0. reflexivity.
  Qed.
  Lemma around_add base f g : around base f -> oh g -> around base (fun i => vadd (A := Cops) (f i) (g i)).
  Proof.
    intros (b & Hb & Hs) (B & HB & H). exists (b + B). split; [lra|]. generalize (ev_and _ _ Hs H). apply ev_mono.
    intros i Hi [G1 G2]. rewrite Rmult_plus_distr_r. eapply vle_ext; [|exact (vle_add n _ _ _ _ G1 G2)].
    intros j _. unfold cadd, csub. change (f i j - base i j + g i j = f i j + g i j - base i j)%C. ring.
  Qed.
  Lemma tube_add f g : tube f -> oh g -> tube (fun i => vadd (A := Cops) (f i) (g i)).
  Proof. apply around_add. Qed.
  Lemma around_exp base z f : oh z -> bnd f -> around base f -> around base (fun i => vmul (A := Cops) (vexp (A := Cops) (z i)) (f i)).
  Proof.
    intros (b & Hb & Hs) (B & HB & H) (c & Hc & G). assert (T := so_time _ _ _ _ _ _ _ _ _ _ _ HS).
    set (M := exp (b * (t1 - t0))). assert (HM : 0 < M) by apply exp_pos.
    exists (b * M * B + c). split; [assert (0 <= b * M * B) by (apply Rmult_le_pos; [apply Rmult_le_pos; lra|exact HB]); lra|].
    generalize (ev_and _ _ Hs (ev_and _ _ H G)). apply ev_mono. intros i Hi [G1 [G2 G3]].
    rewrite Rmult_plus_distr_r. eapply vle_ext; [|apply (vle_add n (fun j => (Cexp (z i j) - 1) * f i j)%C (csub (f i) (base i)))]; [| |exact G3].
    - intros j _. unfold cadd, csub. change ((Cexp (z i j) - 1) * f i j + (f i j - base i j) = Cexp (z i j) * f i j - base i j)%C. ring.
    - intros j Hj. rewrite Cmod_mult. replace (b * M * B * i_h i) with ((b * i_h i * M) * B) by ring.
      apply Rmult_le_compat; [apply Cmod_ge_0|apply Cmod_ge_0| |apply G2; exact Hj].
      eapply Rle_trans; [apply Cexp_near_1|]. assert (Z := G1 j Hj). assert (Gz := Cmod_ge_0 (z i j)). destruct (va_h i Hi) as [Hh1 Hh2].
      assert (b * i_h i <= b * (t1 - t0)) by (apply Rmult_le_compat_l; lra).
      apply Rmult_le_compat; [lra|left; apply exp_pos|exact Z|]. unfold M.
      assert (mono : forall p q, p <= q -> exp p <= exp q) by (intros p q' [X| ->]; [left; apply exp_increasing; exact X|right; reflexivity]).
      apply mono. lra.
  Qed.
  Lemma tube_exp z f : oh z -> bnd f -> tube f -> tube (fun i => vmul (A := Cops) (vexp (A := Cops) (z i)) (f i)).
  Proof. apply around_exp. Qed.
  Lemma oh_scalz f c : oh f -> oh (fun i => vscalz (A := Cops) c (f i)).
  Proof.
    intros (b & Hb & H). exists (Rabs (IZR c) * b). split; [apply Rmult_le_pos; [apply Rabs_pos|exact Hb]|]. revert H. apply ev_mono.
    intros i Hi H. rewrite Rmult_assoc. exact (vle_rscal n (IZR c) _ _ H).
  Qed.

  (** The nonlinear function. *)
  Lemma ok_N f g : ok f g -> tube f -> ok (fun i => N (f i)) (fun i => i_N i (g i)).
  Proof.
    assert (HK := so_K _ _ _ _ _ _ _ _ _ _ _ HS). assert (Hr := so_rho _ _ _ _ _ _ _ _ _ _ _ HS).
    intros (B & A & HB & HA & H) (b & Hb & G). exists (K + K * rho), (kap + K * A).
    assert (0 <= K * rho) by (apply Rmult_le_pos; lra). assert (0 <= K * A) by (apply Rmult_le_pos; lra). split; [lra|]. split; [lra|].
    assert (P1 : 0 < rho / 4 / (b + 1)) by (apply Rdiv_lt_0_compat; lra). assert (P2 : 0 < rho / 4 / (A + 1)) by (apply Rdiv_lt_0_compat; lra).
    generalize (ev_and _ _ (ev_and _ _ H G) (ev_and _ _ (ev_h _ P1) (ev_e _ P2))). apply ev_mono. intros i Hi [[P Q] [Eh Ee]].
    destruct (va_h i Hi) as [Hh _]. assert (He := va_e i Hi).
    assert (D1 : b * i_h i <= rho / 4).
    { apply Rle_trans with ((b + 1) * (rho / 4 / (b + 1))); [apply Rmult_le_compat; lra|right; field; lra]. }
    assert (D2 : A * i_eps i <= rho / 4).
    { apply Rle_trans with ((A + 1) * (rho / 4 / (A + 1))); [apply Rmult_le_compat; lra|right; field; lra]. }
    assert (T1 : vle n (csub (f i) (u (i_t i))) (rho / 2)).
    { apply (vle_mono n _ (b * i_h i + rho / 4)); [|lra]. apply (vle_trans n _ (i_v i)); [exact Q|apply (va_v i Hi)]. }
    assert (D3 : vle n (csub (g i) (f i)) (A * i_eps i)) by (intros j Hj; apply (P j Hj)).
    assert (T2 : vle n (csub (g i) (u (i_t i))) rho).
    { apply (vle_mono n _ (A * i_eps i + rho / 2)); [|lra]. apply (vle_trans n _ (f i)); assumption. }
    assert (T1' : vle n (csub (f i) (u (i_t i))) rho) by (apply (vle_mono n _ _ _ T1); lra).
    assert (HN : vle n (N (u (i_t i))) K).
    { apply (vle_ext n (fd 0%nat (i_t i))); [apply (so_f0 _ _ _ _ _ _ _ _ _ _ _ HS); apply (va_t i Hi)|].
      apply (so_bnd _ _ _ _ _ _ _ _ _ _ _ HS); [lia|apply (va_t i Hi)]. }
    assert (BN := N_bound n N K rho Hr (u (i_t i)) HN (fun v w x => fun Hx Hv Hw => so_lip _ _ _ _ _ _ _ _ _ _ _ HS (i_t i) v w x (va_t i Hi) Hx Hv Hw) _ T1').
    assert (X1 := va_N i Hi (i_t i) (g i) (va_t i Hi) T2).
    assert (X2 := so_lip _ _ _ _ _ _ _ _ _ _ _ HS (i_t i) (g i) (f i) (A * i_eps i) (va_t i Hi) ltac:(apply Rmult_le_pos; lra) T2 T1' D3).
    assert (X3 := vle_trans n _ _ _ _ _ X1 X2).
    intros j Hj. split; [apply BN; exact Hj|]. eapply Rle_trans; [apply (X3 j Hj)|]. right. ring.
  Qed.
End Steps.
Arguments ok n {XL}.  Arguments bnd n {XL}.  Arguments oh n {XL}.  Arguments around n {XL}.  Arguments tube n {XL}.  Arguments soh n {XL}.  Arguments sbnd n {XL}.  Arguments ev n {XL}.
Arguments valid n {XL}.

(** 1-D linear parts. *)
Definition Ldiag (n : nat) (lam : cvec) (kap : R) (i : inst cvec) : Prop := vle n (csub (i_L i) lam) (kap * i_eps i).
Section Diag.
  Variable n : nat.
  Variable lam : cvec.
  Variable N : cvec -> cvec.
  Variables t0 t1 rho : R.
  Variable u : R -> cvec.
  Variable kap : R.
  Hypothesis Hkap : 0 <= kap.
  Notation PX := (Ldiag n lam kap).
  Lemma ok_L : ok n PX N t0 t1 rho u kap (fun _ => lam) i_L.
  Proof.
    destruct (vle_exists n lam) as (x & Hx & H). exists x, kap. split; [exact Hx|]. split; [exact Hkap|]. apply (ev_all n). intros i Hi j Hj.
    split; [apply H; exact Hj|apply (va_L _ _ _ _ _ _ _ _ _ _ Hi); exact Hj].
  Qed.

  Lemma oh_hL : oh n PX N t0 t1 rho u kap (fun i => vscal (A := Cops) (i_h i) lam).
  Proof. apply oh_scal; [apply soh_h|]. eapply ok_bnd; apply ok_L. Qed.
End Diag.
