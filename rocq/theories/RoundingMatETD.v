(** * Rounded contour sums of matrices

    The calculus of [RoundingMat.v], continued: elementwise operations on matrices, computed inverses, the contour sums of the
    matrix strategies of ETD4, ETD34, ETD5 and ETD35, and their stages. *)

From Coq Require Import ZArith List Bool Reals Lra Lia FunctionalExtensionality.
From Coquelicot Require Import Complex.
From Verif Require Import Scalars Arrays SchemeBase CInst SpecRK SchemeIFReal SpecPhi ContourReal Asym Solution Stable Converge
  ContourMatrix SpecPoly SchemeETD4 SchemeETD5 SchemeForm PropsMatrix MatExp Rounding RoundingETD RoundingMat Neumann.
Import ListNotations.
Local Open Scope R_scope.

(** A routine for inverses with the usual error bound: proportional to [eps] and to the condition number [x y] times the size [y] of
    the inverse, if the condition number is below [1/eps]. Nothing is said about matrices that are nearly singular, or larger than
    [Om]. *)
Definition inv_near (n : nat) (kap eps Om : R) (f : cmat -> exn + cmat) : Prop :=
  forall M Q Q' x y, is_inv n M Q -> (forall i, (i < n)%nat -> rown n M i <= x) -> (forall i, (i < n)%nat -> rown n Q i <= y) ->
    1 <= x -> 1 <= y -> kap * eps * (x * y) <= 1 -> x * y * y <= Om -> f M = inr Q' -> mle n (mdiff Q' Q) (kap * eps * (x * y * y)).

Section MatrixCalculus.
  Variables n q : nat.
  Variable L : nat -> nat -> C.
  Variable XL : Type.
  Variable PX : inst XL -> Prop.
  Variable N : cvec -> cvec.
  Variables t0 t1 rho K : R.
  Variable u : R -> cvec.
  Variable fd : nat -> R -> cvec.
  Variable J : R -> cvec -> cvec.
  Hypothesis HS : smooth n q L N t0 t1 rho K u fd J.
  Variable kap : R.
  Hypothesis Hkap : 0 <= kap.
  Notation valid := (Rounding.valid n PX N t0 t1 rho u kap).
  Notation ev := (Rounding.ev n PX N t0 t1 rho u kap).
  Notation ok := (Rounding.ok n PX N t0 t1 rho u kap).
  Notation bnd := (Rounding.bnd n PX N t0 t1 rho u kap).
  Notation oh := (Rounding.oh n PX N t0 t1 rho u kap).
  Notation around := (Rounding.around n PX N t0 t1 rho u kap).
  Notation soh := (Rounding.soh n PX N t0 t1 rho u kap).
  Notation sbnd := (Rounding.sbnd n PX N t0 t1 rho u kap).
  Notation mok := (RoundingMat.mok n XL PX N t0 t1 rho u kap).
  Notation moh := (RoundingMat.moh n XL PX N t0 t1 rho u kap).
  Notation mexp_ok := (RoundingMat.mexp_ok n XL PX N t0 t1 rho u kap).
  Local Notation va_e i Hi := (Rounding.va_e n XL PX N t0 t1 rho u kap i Hi).
  Local Notation ev_and := (Rounding.ev_and n XL PX N t0 t1 rho u kap).
  Local Notation ev_mono := (Rounding.ev_mono n XL PX N t0 t1 rho u kap).
  Local Notation ev_all := (Rounding.ev_all n XL PX N t0 t1 rho u kap).
  Local Notation ev_e := (Rounding.ev_e n XL PX N t0 t1 rho u kap).
  Local Notation ev_O := (Rounding.ev_O n XL PX N t0 t1 rho u kap).
  Local Notation ok_add := (Rounding.ok_add n XL PX N t0 t1 rho u kap).
  Local Notation ok_sub := (Rounding.ok_sub n XL PX N t0 t1 rho u kap).
  Local Notation ok_mul := (Rounding.ok_mul n XL PX N t0 t1 rho u kap).
  Local Notation ok_divs := (Rounding.ok_divs n XL PX N t0 t1 rho u kap).
  Local Notation ok_divz := (Rounding.ok_divz n XL PX N t0 t1 rho u kap).
  Local Notation ok_scal := (Rounding.ok_scal n XL PX N t0 t1 rho u kap).
  Local Notation ok_lit := (RoundingETD.ok_lit n XL PX N t0 t1 rho u kap).
  Local Notation ok_dot := (RoundingMat.ok_dot n XL PX N t0 t1 rho u kap).
  Local Notation oh_dot_l := (RoundingMat.oh_dot_l n XL PX N t0 t1 rho u kap).
  Local Notation col b Hb H := (mok_col n XL PX N t0 t1 rho u kap _ _ b Hb H).

  (** ** Elementwise operations, column by column *)
  Lemma mok_add f g f' g' : mok f g -> mok f' g' -> mok (fun i => madd (A := Cops) (f i) (f' i)) (fun i => madd (A := Fops (i_a i)) (g i) (g' i)).
  Proof. intros H H'. apply mok_cols. intros b Hb. exact (ok_add _ _ _ _ (col b Hb H) (col b Hb H')). Qed.
  Lemma mok_sub f g f' g' : mok f g -> mok f' g' -> mok (fun i => msub (A := Cops) (f i) (f' i)) (fun i => msub (A := Fops (i_a i)) (g i) (g' i)).
  Proof. intros H H'. apply mok_cols. intros b Hb. exact (ok_sub _ _ _ _ (col b Hb H) (col b Hb H')). Qed.
  Lemma mok_scal (s : inst XL -> R) f g : sbnd s -> mok f g -> mok (fun i => mscal (A := Cops) (s i) (f i)) (fun i => mscal (A := Fops (i_a i)) (s i) (g i)).
  Proof. intros Hs H. apply mok_cols. intros b Hb. exact (ok_scal s _ _ Hs (col b Hb H)). Qed.
  Lemma mok_scalz c f g : mok f g -> mok (fun i => mscalz (A := Cops) c (f i)) (fun i => mscalz (A := Fops (i_a i)) c (g i)).
  Proof. intros H. exact (mok_scal (fun _ => IZR c) f g (sbnd_c n XL PX N t0 t1 rho u kap _) H). Qed.
  Lemma mok_divs c f g : c <> 0 -> mok f g -> mok (fun i => mdivs (A := Cops) (f i) c) (fun i => mdivs (A := Fops (i_a i)) (g i) c).
  Proof. intros Hc H. apply mok_cols. intros b Hb. exact (ok_divs _ _ c Hc (col b Hb H)). Qed.
  Lemma mok_divz c f g : mok f g -> mok (fun i => mdivz (A := Cops) (f i) (Zpos c)) (fun i => mdivz (A := Fops (i_a i)) (g i) (Zpos c)).
  Proof. intros H. apply (mok_divs (IZR (Zpos c))); [apply not_0_IZR; lia|exact H]. Qed.
  (** A computed scalar times a matrix. *)
  Lemma mok_scale (e e' : inst XL -> C) f g : ok (fun i _ => e i) (fun i _ => e' i) -> mok f g ->
    mok (fun i => mscale (A := Cops) (e i) (f i)) (fun i => mscale (A := Fops (i_a i)) (e' i) (g i)).
  Proof. intros He H. apply mok_cols. intros b Hb. exact (ok_mul _ _ _ _ He (col b Hb H)). Qed.
  Lemma mok_same (M : cmat) : mok (fun _ => M) (fun _ => M).
  Proof.
    destruct (mle_exists n M) as (x & Hx & HM). exists x, 0. split; [exact Hx|]. split; [lra|]. apply ev_all. intros i _ a b Ha Hb. split; [apply HM; assumption|].
    replace (M a b - M a b)%C with (RtoC 0) by ring. rewrite Cmod_0. lra.
  Qed.
  Lemma mok_eye : mok (fun _ => eye Cops) (fun i => eye (Fops (i_a i))).
  Proof. exact (mok_same (eye Cops)). Qed.
  Lemma mok_zero : mok (fun _ => mzero Cops) (fun i => mzero (Fops (i_a i))).
  Proof. exact (mok_same (mzero Cops)). Qed.

  (** Matrices of size [O(h)]. *)
  Lemma moh_cols f : (forall b, (b < n)%nat -> oh (fun i a => f i a b)) -> moh f.
  Proof.
    intros H. assert (G : forall m, (m <= n)%nat -> exists B, 0 <= B /\ ev (fun i => forall a b, (a < n)%nat -> (b < m)%nat -> Cmod (f i a b) <= B * i_h i)).
    { induction m as [|m IH]; intros Hm; [exists 0; split; [lra|]; apply ev_all; intros; lia|].
      destruct (IH ltac:(lia)) as (B & HB & E). destruct (H m ltac:(lia)) as (B' & HB' & E'). exists (B + B'). split; [lra|].
      generalize (ev_and _ _ E E'). apply ev_mono. intros i Hi [E1 E2] a b Ha Hb. destruct (va_h _ _ _ _ _ _ _ _ _ _ Hi) as [Hh _].
      assert (P1 : 0 <= B * i_h i) by (apply Rmult_le_pos; lra). assert (P2 : 0 <= B' * i_h i) by (apply Rmult_le_pos; lra).
      destruct (Nat.eq_dec b m) as [->|Nb]; [specialize (E2 a Ha)|specialize (E1 a b Ha ltac:(lia))]; cbn beta in *; lra. }
    destruct (G n (Nat.le_refl n)) as (B & HB & E). exists B. split; [exact HB|]. revert E. apply ev_mono. intros i _ E a b Ha Hb. apply E; assumption.
  Qed.
  Lemma moh_col f b : (b < n)%nat -> moh f -> oh (fun i a => f i a b).
  Proof. intros Hb (B & HB & E). exists B. split; [exact HB|]. revert E. apply ev_mono. intros i _ E a Ha. apply E; assumption. Qed.
  Lemma moh_scal (s : inst XL -> R) f g : soh s -> mok f g -> moh (fun i => mscal (A := Cops) (s i) (f i)).
  Proof.
    intros Hs H. apply moh_cols. intros b Hb.
    exact (oh_scal n XL PX N t0 t1 rho u kap s _ Hs (ok_bnd n XL PX N t0 t1 rho u kap _ _ (col b Hb H))).
  Qed.
  Lemma moh_scalz c f : moh f -> moh (fun i => mscalz (A := Cops) c (f i)).
  Proof. intros H. apply moh_cols. intros b Hb. exact (oh_scal_c n XL PX N t0 t1 rho u kap (IZR c) _ (moh_col _ b Hb H)). Qed.
  Lemma moh_divz c f : moh f -> moh (fun i => mdivz (A := Cops) (f i) c).
  Proof. intros H. apply moh_cols. intros b Hb. exact (oh_divs n XL PX N t0 t1 rho u kap (IZR c) _ (moh_col _ b Hb H)). Qed.

  (** ** Computed inverses *)
  Variable IV : inst XL -> cmat -> exn + cmat.
  Hypothesis HIV : forall i, PX i -> inv_near n kap (i_eps i) (i_Om i) (IV i).
  (** The computed inverse of [M]; [Q] where the routine raises an exception. *)
  Definition or_inv (i : inst XL) (Q M : cmat) : cmat := match IV i M with inr Q' => Q' | inl _ => Q end.
  Lemma inv_all f g Q y : 0 <= y -> mok f g -> ev (fun i => is_inv n (f i) (Q i) /\ forall k, (k < n)%nat -> rown n (Q i) k <= y) ->
    mok Q (fun i => or_inv i (Q i) (g i)).
  Proof.
    intros Hy (B & A & HB & HA & H) HQ. assert (Pn := pos_INR n).
    set (d := INR n * A). set (x := INR n * (B + A) + 1). set (y2 := 2 * y + 1).
    assert (Pd : 0 <= d) by (unfold d; apply Rmult_le_pos; assumption). assert (Px : 1 <= x) by (unfold x; assert (0 <= INR n * (B + A)) by (apply Rmult_le_pos; lra); lra).
    assert (Py : 1 <= y2) by (unfold y2; lra). assert (Pyd : 0 <= y * d) by (apply Rmult_le_pos; assumption).
    assert (Pxy : 0 <= x * y2) by (apply Rmult_le_pos; lra). assert (Pk : 0 <= kap * (x * y2)) by (apply Rmult_le_pos; assumption).
    assert (Pxyy : 0 <= x * y2 * y2) by (apply Rmult_le_pos; lra).
    assert (Pa : 0 <= 2 * (y * y) * d) by (apply Rmult_le_pos; [assert (0 <= y * y) by (apply Rmult_le_pos; lra); lra|exact Pd]).
    assert (Pb : 0 <= kap * (x * y2 * y2)) by (apply Rmult_le_pos; assumption).
    exists y, (kap * (x * y2 * y2) + 2 * (y * y) * d). split; [exact Hy|]. split; [lra|].
    assert (P1 : 0 < / 2 / (y * d + 1)) by (apply Rdiv_lt_0_compat; lra). assert (P2 : 0 < / (kap * (x * y2) + 1)) by (apply Rinv_0_lt_compat; lra).
    generalize (ev_and _ _ (ev_and _ _ H HQ) (ev_and _ _ (ev_and _ _ (ev_e 1 Rlt_0_1) (ev_e _ P1)) (ev_and _ _ (ev_e _ P2) (ev_O (x * y2 * y2))))). apply ev_mono.
    intros i Hi [[H1 [I1 I2]] [[E1 E2] [E3 O1]]] a b Ha Hb. assert (He := va_e i Hi).
    assert (PAe : 0 <= A * i_eps i) by (apply Rmult_le_pos; lra).
    assert (D1 : forall k, (k < n)%nat -> rown n (mminus (g i) (f i)) k <= d * i_eps i).
    { intros k Hk. unfold d. rewrite Rmult_assoc. apply mle_rown; [|exact Hk]. intros r c Hr Hc. apply (H1 r c Hr Hc). }
    assert (D2 : y * (d * i_eps i) <= / 2).
    { apply Rle_trans with ((y * d + 1) * (/ 2 / (y * d + 1))); [|right; field; lra]. rewrite <- Rmult_assoc. apply Rmult_le_compat; lra. }
    split; [eapply Rle_trans; [apply entry_rown; exact Hb|apply I2; exact Ha]|].
    unfold or_inv. destruct (IV i (g i)) as [e|Q'] eqn:EV.
    - replace (Q i a b - Q i a b)%C with (RtoC 0) by ring. rewrite Cmod_0. apply Rmult_le_pos; lra.
    - destruct (inv_perturbed n (f i) (g i) (Q i) y (d * i_eps i) I1 I2 D1 Hy ltac:(apply Rmult_le_pos; lra) D2) as (q' & J1 & J2 & J3).
      assert (G1 : forall k, (k < n)%nat -> rown n (g i) k <= x).
      { intros k Hk. unfold x. apply Rle_trans with (INR n * (B + A)); [|lra]. apply mle_rown; [|exact Hk]. intros r c Hr Hc. destruct (H1 r c Hr Hc) as [F1 F2].
        replace (g i r c) with (f i r c + (g i r c - f i r c))%C by ring. eapply Rle_trans; [apply Cmod_triangle|].
        assert (A * i_eps i <= A * 1) by (apply Rmult_le_compat_l; lra). lra. }
      assert (G2 : forall k, (k < n)%nat -> rown n q' k <= y2) by (intros k Hk; specialize (J2 k Hk); unfold y2; lra).
      assert (G3 : kap * i_eps i * (x * y2) <= 1).
      { replace (kap * i_eps i * (x * y2)) with (kap * (x * y2) * i_eps i) by ring. apply Rle_trans with ((kap * (x * y2) + 1) * / (kap * (x * y2) + 1)); [|right; field; lra].
        apply Rmult_le_compat; lra. }
      assert (Z := HIV i (va_L _ _ _ _ _ _ _ _ _ _ Hi) (g i) q' Q' x y2 J1 G1 G2 Px Py G3 O1 EV a b Ha Hb). unfold mdiff in Z.
      assert (Z2 := Rle_trans _ _ _ (entry_rown n (mminus q' (Q i)) a b Hb) (J3 a Ha)). unfold mminus in Z2.
      replace (Q' a b - Q i a b)%C with ((Q' a b - q' a b) + (q' a b - Q i a b))%C by ring. eapply Rle_trans; [apply Cmod_triangle|].
      replace ((kap * (x * y2 * y2) + 2 * (y * y) * d) * i_eps i) with (kap * i_eps i * (x * y2 * y2) + 2 * (y * y) * (d * i_eps i)) by ring. lra.
  Qed.
End MatrixCalculus.

(** ** Contour sums over any arithmetic *)
Section Sums.
  Context {F : tops}.
  Variable A : aops F.
  Variable cfg : etdcfg F.
  Notation nd l := (node A cfg l).
  (** One summand, and the sum over [m] nodes from number [s] on, in the order of the loop; [Q]: the inverses. *)
  Definition cterm (f : E A -> E A) (Q : nat -> mat A) (l : nat) : mat A := mdivs (mscale (emul A (nd l) (f (nd l))) (Q l)) (npts cfg).
  Fixpoint cacc (f : E A -> E A) (Q : nat -> mat A) (m s : nat) (p : mat A) : mat A :=
    match m with O => p | S m => cacc f Q m (S s) (madd p (cterm f Q s)) end.
  Definition csumm (f : E A -> E A) (Q : nat -> mat A) : mat A := cacc f Q (contour_points cfg) 0 (mzero A).
  (** The matrices [z/4], [z/2], [3z/4], [z] of the code. *)
  Definition zq (k : nat) (z : mat A) : mat A :=
    match k with 1%nat => mdivz z 4 | 2%nat => mdivz z 2 | 3%nat => mdivz (mscalz 3 z) 4 | _ => z end.
  Definition zm (k : nat) (z : mat A) (l : nat) : mat A := msub (mscale (nd l) (eye A)) (zq k z).
  Variable inv : mat A -> exn + mat A.
  Lemma contour4_is z (Q Qh : nat -> mat A) : forall m s p r,
    (forall l, (s <= l < s + m)%nat -> forall x, inv (zm 4 z l) = inr x -> Q l = x) -> (forall l, (s <= l < s + m)%nat -> forall x, inv (zm 2 z l) = inr x -> Qh l = x) ->
    etd4_contour F A cfg inv z (map (node A cfg) (seq s m)) p = inr r ->
    r = mk_psis4 (cacc (psi1 A) Qh m s (p4_1h p)) (cacc (psi2 A) Qh m s (p4_2h p)) (cacc (psi1 A) Q m s (p4_1 p)) (cacc (psi2 A) Q m s (p4_2 p)) (cacc (psi3 A) Q m s (p4_3 p)).
  Proof.
    induction m as [|m IH]; intros s p r HQ HQh H; cbn [seq map etd4_contour] in H.
    - destruct p. injection H as <-. reflexivity.
    - destruct (inv (msub (mscale (nd s) (eye A)) z)) as [e|x] eqn:E1; [discriminate|].
      destruct (inv (msub (mscale (nd s) (eye A)) (mdivz z 2))) as [e|x2] eqn:E2; [discriminate|].
      assert (R1 := HQ s ltac:(lia) x E1). assert (R2 := HQh s ltac:(lia) x2 E2).
      apply IH in H; [|intros l Hl; apply HQ; lia|intros l Hl; apply HQh; lia]. rewrite H. cbn [cacc p4_1h p4_2h p4_1 p4_2 p4_3]. unfold cterm. rewrite R1, R2. reflexivity.
  Qed.
  Lemma contour4_total z : forall m s p, (forall l k, (s <= l < s + m)%nat -> k = 2%nat \/ k = 4%nat -> exists x, inv (zm k z l) = inr x) ->
    exists r, etd4_contour F A cfg inv z (map (node A cfg) (seq s m)) p = inr r.
  Proof.
    induction m as [|m IH]; intros s p H; cbn [seq map etd4_contour]; [eexists; reflexivity|].
    destruct (H s 4%nat ltac:(lia) (or_intror eq_refl)) as (x & E1). destruct (H s 2%nat ltac:(lia) (or_introl eq_refl)) as (x2 & E2). unfold zm, zq in E1, E2. rewrite E1, E2.
    apply IH. intros l k Hl. apply H. lia.
  Qed.
  Lemma contour5_is z (Q : nat -> nat -> mat A) : forall m s p r,
    (forall k l, (s <= l < s + m)%nat -> forall x, inv (zm k z l) = inr x -> Q k l = x) ->
    etd5_contour F A cfg inv z (map (node A cfg) (seq s m)) p = inr r ->
    r = mk_psis5 (cacc (psi1 A) (Q 1%nat) m s (p5_14a p)) (cacc (psi2 A) (Q 1%nat) m s (p5_14b p)) (cacc (psi1 A) (Q 2%nat) m s (p5_12a p)) (cacc (psi2 A) (Q 2%nat) m s (p5_12b p))
          (cacc (psi1 A) (Q 3%nat) m s (p5_34a p)) (cacc (psi2 A) (Q 3%nat) m s (p5_34b p)) (cacc (psi1 A) (Q 4%nat) m s (p5_1 p)) (cacc (psi2 A) (Q 4%nat) m s (p5_2 p))
          (cacc (psi3 A) (Q 4%nat) m s (p5_3 p)).
  Proof.
    induction m as [|m IH]; intros s p r HQ H; cbn [seq map etd5_contour] in H.
    - destruct p. injection H as <-. reflexivity.
    - destruct (inv (msub (mscale (nd s) (eye A)) (mdivz z 4))) as [e|x1] eqn:E1; [discriminate|].
      destruct (inv (msub (mscale (nd s) (eye A)) (mdivz z 2))) as [e|x2] eqn:E2; [discriminate|].
      destruct (inv (msub (mscale (nd s) (eye A)) (mdivz (mscalz 3 z) 4))) as [e|x3] eqn:E3; [discriminate|].
      destruct (inv (msub (mscale (nd s) (eye A)) z)) as [e|x4] eqn:E4; [discriminate|].
      assert (R1 := HQ 1%nat s ltac:(lia) x1 E1). assert (R2 := HQ 2%nat s ltac:(lia) x2 E2). assert (R3 := HQ 3%nat s ltac:(lia) x3 E3). assert (R4 := HQ 4%nat s ltac:(lia) x4 E4).
      apply IH in H; [|intros k l Hl; apply HQ; lia]. rewrite H. cbn [cacc p5_14a p5_14b p5_12a p5_12b p5_34a p5_34b p5_1 p5_2 p5_3]. unfold cterm. rewrite R1, R2, R3, R4. reflexivity.
  Qed.
  Lemma contour5_total z : forall m s p, (forall l k, (s <= l < s + m)%nat -> exists x, inv (zm k z l) = inr x) ->
    exists r, etd5_contour F A cfg inv z (map (node A cfg) (seq s m)) p = inr r.
  Proof.
    induction m as [|m IH]; intros s p H; cbn [seq map etd5_contour]; [eexists; reflexivity|].
    destruct (H s 1%nat ltac:(lia)) as (x1 & E1). destruct (H s 2%nat ltac:(lia)) as (x2 & E2). destruct (H s 3%nat ltac:(lia)) as (x3 & E3). destruct (H s 4%nat ltac:(lia)) as (x4 & E4).
    unfold zm, zq in E1, E2, E3, E4. rewrite E1, E2, E3, E4. apply IH. intros l k Hl. apply H. lia.
  Qed.
  (** The coefficients from the sums. *)
  Local Open Scope arr_scope.
  Notation qt a b := (tdiv F (tofZ F a) (tofZ F b)).
  Definition C4 (h : T F) (EL EL2 psi1_12 psi2_12 psi1_1 psi2_1 psi3_1 : mat A) : etd4_coefs (mat A) :=
    mk_etd4_coefs EL EL2
      (tmul F (qt 1 2) h *sm psi1_12)
      (tmul F (qt 1 2) h *sm (psi1_12 -m psi2_12))
      (tmul F (qt 1 2) h *sm psi2_12)
      (h *sm (psi1_1 -m psi2_1))
      (h *sm psi2_1)
      (h *sm (psi1_1 -m qt 3 2 *sm psi2_1 +m qt 2 3 *sm psi3_1))
      (h *sm (psi2_1 -m qt 2 3 *sm psi3_1))
      (h *sm (qt (-1) 2 *sm psi2_1 +m qt 2 3 *sm psi3_1)).
  Definition C5 (h : T F) (EL14 EL12 EL34 EL psi1_14 psi2_14 psi1_12 psi2_12 psi1_34 psi2_34 psi1_1 psi2_1 psi3_1 : mat A) : etd5_coefs (mat A) :=
    mk_etd5_coefs EL14 EL12 EL34 EL
      (h *sm psi1_14 /zm 4)
      (h *sm (psi1_14 -m psi2_14 /zm 2) /zm 4)
      (h *sm psi2_14 /zm 8)
      (h *sm (psi1_12 -m psi2_12) /zm 2)
      (h *sm psi2_12 /zm 2)
      (tmul F h (tofZ F 3) *sm (psi1_34 -m 3 *zm psi2_34 /zm 4) /zm 4)
      (tmul F (tofZ F (-3)) h *sm psi1_34 /zm 8)
      (tmul F h (tofZ F 9) *sm psi2_34 /zm 16)
      (h *sm ((-77) *zm psi1_1 +m 59 *zm psi2_1) /zm 42)
      (tmul F h (tofZ F 8) *sm psi1_1 /zm 7)
      (h *sm (111 *zm psi1_1 -m 87 *zm psi2_1) /zm 28)
      (h *sm ((-47) *zm psi1_1 +m 143 *zm psi2_1) /zm 84)
      (tmul F h (tofZ F 7) *sm (257 *zm psi1_1 -m 497 *zm psi2_1 +m 270 *zm psi3_1) /zm 2700)
      (h *sm (1097 *zm psi1_1 -m 467 *zm psi2_1 -m 150 *zm psi3_1) /zm 1350)
      (tmul F h (tofZ F 2) *sm ((-49) *zm psi1_1 +m 199 *zm psi2_1 -m 135 *zm psi3_1) /zm 225)
      (h *sm ((-313) *zm psi1_1 +m 883 *zm psi2_1 -m 90 *zm psi3_1) /zm 1350)
      (h *sm (509 *zm psi1_1 -m 2129 *zm psi2_1 +m 1830 *zm psi3_1) /zm 2700).
  (** From the computed exponentials [X k] of [zq k z] and inverses [Q k l]. *)
  Definition K4 (h : T F) (X : nat -> mat A) (Q : nat -> nat -> mat A) : etd4_coefs (mat A) :=
    C4 h (X 4%nat) (X 2%nat) (csumm (psi1 A) (Q 2%nat)) (csumm (psi2 A) (Q 2%nat)) (csumm (psi1 A) (Q 4%nat)) (csumm (psi2 A) (Q 4%nat)) (csumm (psi3 A) (Q 4%nat)).
  Definition K5 (h : T F) (X : nat -> mat A) (Q : nat -> nat -> mat A) : etd5_coefs (mat A) :=
    C5 h (X 1%nat) (X 2%nat) (X 3%nat) (X 4%nat) (csumm (psi1 A) (Q 1%nat)) (csumm (psi2 A) (Q 1%nat)) (csumm (psi1 A) (Q 2%nat)) (csumm (psi2 A) (Q 2%nat))
      (csumm (psi1 A) (Q 3%nat)) (csumm (psi2 A) (Q 3%nat)) (csumm (psi1 A) (Q 4%nat)) (csumm (psi2 A) (Q 4%nat)) (csumm (psi3 A) (Q 4%nat)).
  Variable expm : mat A -> exn + mat A.
  Lemma etd4n_is L h c c' X Q : (forall k x, expm (zq k (h *sm L)) = inr x -> X k = x) ->
    (forall k l, (l < contour_points cfg)%nat -> forall x, inv (zm k (h *sm L) l) = inr x -> Q k l = x) ->
    etd4n_coeffs F A cfg expm inv L h c = (inr tt, c') -> c' = K4 h X Q.
  Proof.
    intros HX HQ H. unfold etd4n_coeffs in H. destruct (expm (h *sm L)) as [e|x4] eqn:E4; [discriminate|]. destruct (expm (h *sm L /zm 2)) as [e|x2] eqn:E2; [discriminate|].
    assert (R4 := HX 4%nat x4 E4). assert (R2 := HX 2%nat x2 E2).
    destruct (etd4_contour F A cfg inv (h *sm L) (nodes A cfg) _) as [e|r] eqn:EC; [discriminate|].
    apply (contour4_is _ (Q 4%nat) (Q 2%nat)) in EC; [|intros l Hl; apply HQ; lia|intros l Hl; apply HQ; lia]. cbn [p4_1h p4_2h p4_1 p4_2 p4_3] in EC. rewrite EC in H.
    apply (f_equal snd) in H. cbn [snd] in H. rewrite <- H. unfold K4, csumm. rewrite R4, R2. reflexivity.
  Qed.
  Lemma etd4n_total L h c : (forall k, exists x, expm (zq k (h *sm L)) = inr x) -> (forall k l, (l < contour_points cfg)%nat -> exists x, inv (zm k (h *sm L) l) = inr x) ->
    exists c', etd4n_coeffs F A cfg expm inv L h c = (inr tt, c').
  Proof.
    intros HX HI. unfold etd4n_coeffs. destruct (HX 4%nat) as (x4 & E4). destruct (HX 2%nat) as (x2 & E2). unfold zq in E4, E2. rewrite E4, E2.
    destruct (contour4_total (h *sm L) (contour_points cfg) 0 (mk_psis4 (mzero A) (mzero A) (mzero A) (mzero A) (mzero A))) as (r & Er); [intros l k Hl _; apply HI; lia|].
    unfold nodes. rewrite Er. destruct r. eexists. reflexivity.
  Qed.
  Lemma etd5n_is L h c c' X Q : (forall k x, expm (zq k (h *sm L)) = inr x -> X k = x) ->
    (forall k l, (l < contour_points cfg)%nat -> forall x, inv (zm k (h *sm L) l) = inr x -> Q k l = x) ->
    etd5n_coeffs F A cfg expm inv L h c = (inr tt, c') -> c' = K5 h X Q.
  Proof.
    intros HX HQ H. unfold etd5n_coeffs in H. destruct (expm (h *sm L /zm 4)) as [e|x1] eqn:E1; [discriminate|]. destruct (expm (h *sm L /zm 2)) as [e|x2] eqn:E2; [discriminate|].
    destruct (expm (3 *zm (h *sm L) /zm 4)) as [e|x3] eqn:E3; [discriminate|]. destruct (expm (h *sm L)) as [e|x4] eqn:E4; [discriminate|].
    assert (R1 := HX 1%nat x1 E1). assert (R4 := HX 4%nat x4 E4). assert (R2 := HX 2%nat x2 E2). assert (R3 := HX 3%nat x3 E3).
    destruct (etd5_contour F A cfg inv (h *sm L) (nodes A cfg) _) as [e|r] eqn:EC; [discriminate|].
    apply (contour5_is _ Q) in EC; [|intros k l Hl; apply HQ; lia]. cbn [p5_14a p5_14b p5_12a p5_12b p5_34a p5_34b p5_1 p5_2 p5_3] in EC. rewrite EC in H.
    apply (f_equal snd) in H. cbn [snd] in H. rewrite <- H. unfold K5, csumm. rewrite R1, R2, R3, R4. reflexivity.
  Qed.
  Lemma etd5n_total L h c : (forall k, exists x, expm (zq k (h *sm L)) = inr x) -> (forall k l, (l < contour_points cfg)%nat -> exists x, inv (zm k (h *sm L) l) = inr x) ->
    exists c', etd5n_coeffs F A cfg expm inv L h c = (inr tt, c').
  Proof.
    intros HX HI. unfold etd5n_coeffs. destruct (HX 1%nat) as (x1 & E1). destruct (HX 2%nat) as (x2 & E2). destruct (HX 3%nat) as (x3 & E3). destruct (HX 4%nat) as (x4 & E4).
    unfold zq in E1, E2, E3, E4. rewrite E1, E2, E3, E4.
    destruct (contour5_total (h *sm L) (contour_points cfg) 0 (mk_psis5 (mzero A) (mzero A) (mzero A) (mzero A) (mzero A) (mzero A) (mzero A) (mzero A) (mzero A))) as (r & Er); [intros l k Hl; apply HI; lia|].
    unfold nodes. rewrite Er. destruct r. eexists. reflexivity.
  Qed.
End Sums.

(** ** Stages and coefficients *)
Section MatrixStages.
  Variables n q : nat.
  Variable L : nat -> nat -> C.
  Variable XL : Type.
  Variable PX : inst XL -> Prop.
  Variable N : cvec -> cvec.
  Variables t0 t1 rho K : R.
  Variable u : R -> cvec.
  Variable fd : nat -> R -> cvec.
  Variable J : R -> cvec -> cvec.
  Hypothesis HS : smooth n q L N t0 t1 rho K u fd J.
  Variable kap : R.
  Hypothesis Hkap : 0 <= kap.
  Notation valid := (Rounding.valid n PX N t0 t1 rho u kap).
  Notation ev := (Rounding.ev n PX N t0 t1 rho u kap).
  Notation ok := (Rounding.ok n PX N t0 t1 rho u kap).
  Notation bnd := (Rounding.bnd n PX N t0 t1 rho u kap).
  Notation oh := (Rounding.oh n PX N t0 t1 rho u kap).
  Notation around := (Rounding.around n PX N t0 t1 rho u kap).
  Notation soh := (Rounding.soh n PX N t0 t1 rho u kap).
  Notation sbnd := (Rounding.sbnd n PX N t0 t1 rho u kap).
  Notation mok := (RoundingMat.mok n XL PX N t0 t1 rho u kap).
  Notation moh := (RoundingMat.moh n XL PX N t0 t1 rho u kap).
  Notation mexp_ok := (RoundingMat.mexp_ok n XL PX N t0 t1 rho u kap).
  Local Notation va_e i Hi := (Rounding.va_e n XL PX N t0 t1 rho u kap i Hi).
  Local Notation ev_and := (Rounding.ev_and n XL PX N t0 t1 rho u kap).
  Local Notation ev_mono := (Rounding.ev_mono n XL PX N t0 t1 rho u kap).
  Local Notation ev_all := (Rounding.ev_all n XL PX N t0 t1 rho u kap).
  Local Notation ev_e := (Rounding.ev_e n XL PX N t0 t1 rho u kap).
  Local Notation ev_O := (Rounding.ev_O n XL PX N t0 t1 rho u kap).
  Local Notation ok_add := (Rounding.ok_add n XL PX N t0 t1 rho u kap).
  Local Notation ok_sub := (Rounding.ok_sub n XL PX N t0 t1 rho u kap).
  Local Notation ok_mul := (Rounding.ok_mul n XL PX N t0 t1 rho u kap).
  Local Notation ok_divs := (Rounding.ok_divs n XL PX N t0 t1 rho u kap).
  Local Notation ok_divz := (Rounding.ok_divz n XL PX N t0 t1 rho u kap).
  Local Notation ok_scal := (Rounding.ok_scal n XL PX N t0 t1 rho u kap).
  Local Notation ok_lit := (RoundingETD.ok_lit n XL PX N t0 t1 rho u kap).
  Local Notation ok_dot := (RoundingMat.ok_dot n XL PX N t0 t1 rho u kap).
  Local Notation oh_dot_l := (RoundingMat.oh_dot_l n XL PX N t0 t1 rho u kap).
  Local Notation col b Hb H := (mok_col n XL PX N t0 t1 rho u kap _ _ b Hb H).


  Definition mcoef_ok (f g : inst XL -> cmat) : Prop := mok f g /\ moh f.
  Record coefs4_mok (c c' : inst XL -> etd4_coefs cmat) : Prop := {
    c4m_EL : mexp_ok (fun i => e4_EL (c i)) (fun i => e4_EL (c' i));    c4m_EL2 : mexp_ok (fun i => e4_EL2 (c i)) (fun i => e4_EL2 (c' i));
    c4m_a21 : mcoef_ok (fun i => e4_a21 (c i)) (fun i => e4_a21 (c' i)); c4m_a31 : mcoef_ok (fun i => e4_a31 (c i)) (fun i => e4_a31 (c' i));
    c4m_a32 : mcoef_ok (fun i => e4_a32 (c i)) (fun i => e4_a32 (c' i)); c4m_a41 : mcoef_ok (fun i => e4_a41 (c i)) (fun i => e4_a41 (c' i));
    c4m_a43 : mcoef_ok (fun i => e4_a43 (c i)) (fun i => e4_a43 (c' i)); c4m_b1 : mcoef_ok (fun i => e4_b1 (c i)) (fun i => e4_b1 (c' i));
    c4m_b2 : mcoef_ok (fun i => e4_b2 (c i)) (fun i => e4_b2 (c' i));   c4m_b4 : mcoef_ok (fun i => e4_b4 (c i)) (fun i => e4_b4 (c' i)) }.
  Record coefs5_mok (c c' : inst XL -> etd5_coefs cmat) : Prop := {
    c5m_EL14 : mexp_ok (fun i => e5_EL14 (c i)) (fun i => e5_EL14 (c' i)); c5m_EL12 : mexp_ok (fun i => e5_EL12 (c i)) (fun i => e5_EL12 (c' i));
    c5m_EL34 : mexp_ok (fun i => e5_EL34 (c i)) (fun i => e5_EL34 (c' i)); c5m_EL : mexp_ok (fun i => e5_EL (c i)) (fun i => e5_EL (c' i));
    c5m_a21 : mcoef_ok (fun i => e5_a21 (c i)) (fun i => e5_a21 (c' i)); c5m_a31 : mcoef_ok (fun i => e5_a31 (c i)) (fun i => e5_a31 (c' i));
    c5m_a32 : mcoef_ok (fun i => e5_a32 (c i)) (fun i => e5_a32 (c' i)); c5m_a41 : mcoef_ok (fun i => e5_a41 (c i)) (fun i => e5_a41 (c' i));
    c5m_a43 : mcoef_ok (fun i => e5_a43 (c i)) (fun i => e5_a43 (c' i)); c5m_a51 : mcoef_ok (fun i => e5_a51 (c i)) (fun i => e5_a51 (c' i));
    c5m_a52 : mcoef_ok (fun i => e5_a52 (c i)) (fun i => e5_a52 (c' i)); c5m_a54 : mcoef_ok (fun i => e5_a54 (c i)) (fun i => e5_a54 (c' i));
    c5m_a61 : mcoef_ok (fun i => e5_a61 (c i)) (fun i => e5_a61 (c' i)); c5m_a62 : mcoef_ok (fun i => e5_a62 (c i)) (fun i => e5_a62 (c' i));
    c5m_a63 : mcoef_ok (fun i => e5_a63 (c i)) (fun i => e5_a63 (c' i)); c5m_a65 : mcoef_ok (fun i => e5_a65 (c i)) (fun i => e5_a65 (c' i));
    c5m_b1 : mcoef_ok (fun i => e5_b1 (c i)) (fun i => e5_b1 (c' i));   c5m_b3 : mcoef_ok (fun i => e5_b3 (c i)) (fun i => e5_b3 (c' i));
    c5m_b4 : mcoef_ok (fun i => e5_b4 (c i)) (fun i => e5_b4 (c' i));   c5m_b5 : mcoef_ok (fun i => e5_b5 (c i)) (fun i => e5_b5 (c' i));
    c5m_b6 : mcoef_ok (fun i => e5_b6 (c i)) (fun i => e5_b6 (c' i)) }.


  Ltac ok_step := first
    [ eassumption
    | lazymatch goal with
      | |- Rounding.ok _ _ _ _ _ _ _ _ (fun i => vadd (@?x i) (@?y i)) _ => apply ok_add
      | |- Rounding.ok _ _ _ _ _ _ _ _ (fun i => vsub (@?x i) (@?y i)) _ => apply ok_sub
      | |- Rounding.ok _ _ _ _ _ _ _ _ (fun i => emdot _ _ (@?x i) (@?y i)) _ => apply ok_dot
      | |- Rounding.ok _ _ _ _ _ _ _ _ (fun i => vscalz _ (@?y i)) _ => apply (ok_scal (fun _ => _))
      | |- Rounding.ok _ _ _ _ _ _ _ _ (fun i => vdivz (@?x i) _) _ => apply ok_divz
      | |- Rounding.ok _ _ _ _ _ _ _ _ (fun i => vneg (@?x i)) _ => apply (ok_neg n XL PX N t0 t1 rho u kap)
      | |- Rounding.sbnd _ _ _ _ _ _ _ _ _ => apply (sbnd_c n XL PX N t0 t1 rho u kap)
      end ].
  Ltac ok_tac := repeat ok_step.
  Ltac oh_step := first
    [ eassumption
    | lazymatch goal with
      | |- Rounding.oh _ _ _ _ _ _ _ _ (fun i => emdot _ _ (@?x i) (@?y i)) => apply oh_dot_l
      | |- Rounding.around _ _ _ _ _ _ _ _ _ (fun i => vadd (@?x i) (@?y i)) => apply around_add
      | |- Rounding.bnd _ _ _ _ _ _ _ _ _ => eapply ok_bnd; ok_tac
      end ].
  Ltac oh_tac := repeat oh_step.

  Section Forms.
    Variables base base' X1 Y1 : inst XL -> cvec.
    Variables NX NY : inst XL -> cvec -> cvec.
    Hypothesis KB : ok base base'.
    Hypothesis K1 : ok X1 Y1.
    Hypothesis KN : forall f g, ok f g -> around base f -> ok (fun i => NX i (f i)) (fun i => NY i (g i)).
    Local Notation around_mx := (around_mexp n XL PX N t0 t1 rho u kap base base' KB).
    Lemma etd4_n_ok c c' : coefs4_mok c c' ->
      ok (fun i => fst (etd4_form (A := Cops) (emdot Cops n) (NX i) (c i) (base i) (X1 i)))
         (fun i => fst (etd4_form (A := Fops (i_a i)) (emdot (Fops (i_a i)) n) (NY i) (c' i) (base' i) (Y1 i))) /\
      ok (fun i => snd (etd4_form (A := Cops) (emdot Cops n) (NX i) (c i) (base i) (X1 i)))
         (fun i => snd (etd4_form (A := Fops (i_a i)) (emdot (Fops (i_a i)) n) (NY i) (c' i) (base' i) (Y1 i))).
    Proof.
      intros [HEL HEL2 [A1 O1] [A2 O2] [A3 O3] [A4 O4] [A5 O5] [A6 O6] [A7 O7] [A8 O8]].
      assert (TE := around_mx _ _ HEL). assert (TE2 := around_mx _ _ HEL2). destruct HEL as [E1 _]. destruct HEL2 as [E2 _].
      pose (g2 := fun (A : aops Rops) (c : etd4_coefs (mat A)) (v a : vec A) => vadd (emdot A n (e4_EL2 c) v) (emdot A n (e4_a21 c) a)).
      pose (g3 := fun (A : aops Rops) (c : etd4_coefs (mat A)) (v a b : vec A) => vadd (vadd (emdot A n (e4_EL2 c) v) (emdot A n (e4_a31 c) a)) (emdot A n (e4_a32 c) b)).
      pose (g4 := fun (A : aops Rops) (c : etd4_coefs (mat A)) (v a b : vec A) => vadd (vadd (emdot A n (e4_EL c) v) (emdot A n (e4_a41 c) a)) (emdot A n (e4_a43 c) b)).
      pose (gk := fun (A : aops Rops) (c : etd4_coefs (mat A)) (v n1 n2 n3 n4 : vec A) =>
        vadd (vadd (vadd (emdot A n (e4_EL c) v) (emdot A n (e4_b1 c) n1)) (emdot A n (e4_b2 c) (vadd n2 n3))) (emdot A n (e4_b4 c) n4)).
      set (X2 := fun i => NX i (g2 Cops (c i) (base i) (X1 i))). set (Y2 := fun i => NY i (g2 (Fops (i_a i)) (c' i) (base' i) (Y1 i))).
      assert (K2 : ok X2 Y2) by (apply KN; unfold g2; [ok_tac|oh_tac]).
      set (X3 := fun i => NX i (g3 Cops (c i) (base i) (X1 i) (X2 i))). set (Y3 := fun i => NY i (g3 (Fops (i_a i)) (c' i) (base' i) (Y1 i) (Y2 i))).
      assert (K3 : ok X3 Y3) by (apply KN; unfold g3; [ok_tac|oh_tac]).
      set (X4 := fun i => NX i (g4 Cops (c i) (base i) (X1 i) (X3 i))). set (Y4 := fun i => NY i (g4 (Fops (i_a i)) (c' i) (base' i) (Y1 i) (Y3 i))).
      assert (K4 : ok X4 Y4) by (apply KN; unfold g4; [ok_tac|oh_tac]).
      set (Xk := fun i => gk Cops (c i) (base i) (X1 i) (X2 i) (X3 i) (X4 i)). set (Yk := fun i => gk (Fops (i_a i)) (c' i) (base' i) (Y1 i) (Y2 i) (Y3 i) (Y4 i)).
      assert (Kk : ok Xk Yk) by (unfold Xk, Yk, gk; ok_tac).
      set (X5 := fun i => NX i (Xk i)). set (Y5 := fun i => NY i (Yk i)).
      assert (K5 : ok X5 Y5) by (apply KN; [exact Kk|]; unfold Xk, gk; oh_tac).
      split; [exact Kk|]. exact (ok_dot _ _ _ _ A8 (ok_sub _ _ _ _ K4 K5)).
    Qed.
    Lemma etd5_n_ok c c' : coefs5_mok c c' ->
      ok (fun i => fst (etd5_form (A := Cops) (emdot Cops n) (NX i) (c i) (base i) (X1 i)))
         (fun i => fst (etd5_form (A := Fops (i_a i)) (emdot (Fops (i_a i)) n) (NY i) (c' i) (base' i) (Y1 i))) /\
      ok (fun i => snd (etd5_form (A := Cops) (emdot Cops n) (NX i) (c i) (base i) (X1 i)))
         (fun i => snd (etd5_form (A := Fops (i_a i)) (emdot (Fops (i_a i)) n) (NY i) (c' i) (base' i) (Y1 i))).
    Proof.
      intros [H14 H12 H34 HEL [A1 O1] [A2 O2] [A3 O3] [A4 O4] [A5 O5] [A6 O6] [A7 O7] [A8 O8] [A9 O9] [A10 O10] [A11 O11] [A12 O12] [A13 O13] [A14 O14] [A15 O15] [A16 O16] [A17 O17]].
      assert (TE := around_mx _ _ HEL). assert (T14 := around_mx _ _ H14). assert (T12 := around_mx _ _ H12). assert (T34 := around_mx _ _ H34).
      destruct HEL as [E1 _]. destruct H14 as [E2 _]. destruct H12 as [E3 _]. destruct H34 as [E4 _].
      pose (g2 := fun (A : aops Rops) (c : etd5_coefs (mat A)) (v a : vec A) => vadd (emdot A n (e5_EL14 c) v) (emdot A n (e5_a21 c) a)).
      pose (g3 := fun (A : aops Rops) (c : etd5_coefs (mat A)) (v a b : vec A) => vadd (vadd (emdot A n (e5_EL14 c) v) (emdot A n (e5_a31 c) a)) (emdot A n (e5_a32 c) b)).
      pose (g4 := fun (A : aops Rops) (c : etd5_coefs (mat A)) (v a b : vec A) => vadd (vadd (emdot A n (e5_EL12 c) v) (emdot A n (e5_a41 c) a)) (emdot A n (e5_a43 c) b)).
      pose (g5 := fun (A : aops Rops) (c : etd5_coefs (mat A)) (v n1 n2 n3 n4 : vec A) =>
        vadd (vadd (vadd (emdot A n (e5_EL34 c) v) (emdot A n (e5_a51 c) n1)) (emdot A n (e5_a52 c) (vsub n2 n3))) (emdot A n (e5_a54 c) n4)).
      pose (g6 := fun (A : aops Rops) (c : etd5_coefs (mat A)) (v n1 n2 n3 n4 n5 : vec A) =>
        vadd (vadd (vadd (vadd (emdot A n (e5_EL c) v) (emdot A n (e5_a61 c) n1)) (emdot A n (e5_a62 c) (vsub n2 (vdivz (vscalz 3 n4) 2)))) (emdot A n (e5_a63 c) n3)) (emdot A n (e5_a65 c) n5)).
      pose (gk := fun (A : aops Rops) (c : etd5_coefs (mat A)) (v n1 n3 n4 n5 n6 : vec A) =>
        vadd (vadd (vadd (vadd (vadd (emdot A n (e5_EL c) v) (emdot A n (e5_b1 c) n1)) (emdot A n (e5_b3 c) n3)) (emdot A n (e5_b4 c) n4)) (emdot A n (e5_b5 c) n5)) (emdot A n (e5_b6 c) n6)).
      pose (ge := fun (A : aops Rops) (c : etd5_coefs (mat A)) (n1 n3 n4 n5 n6 : vec A) =>
        emdot A n (e5_b5 c) (vsub (vadd (vsub (vadd (vneg n1) (vscalz 4 n3)) (vscalz 6 n4)) (vscalz 4 n5)) n6)).
      set (X2 := fun i => NX i (g2 Cops (c i) (base i) (X1 i))). set (Y2 := fun i => NY i (g2 (Fops (i_a i)) (c' i) (base' i) (Y1 i))).
      assert (K2 : ok X2 Y2) by (apply KN; unfold g2; [ok_tac|oh_tac]).
      set (X3 := fun i => NX i (g3 Cops (c i) (base i) (X1 i) (X2 i))). set (Y3 := fun i => NY i (g3 (Fops (i_a i)) (c' i) (base' i) (Y1 i) (Y2 i))).
      assert (K3 : ok X3 Y3) by (apply KN; unfold g3; [ok_tac|oh_tac]).
      set (X4 := fun i => NX i (g4 Cops (c i) (base i) (X1 i) (X3 i))). set (Y4 := fun i => NY i (g4 (Fops (i_a i)) (c' i) (base' i) (Y1 i) (Y3 i))).
      assert (K4 : ok X4 Y4) by (apply KN; unfold g4; [ok_tac|oh_tac]).
      set (X5 := fun i => NX i (g5 Cops (c i) (base i) (X1 i) (X2 i) (X3 i) (X4 i))). set (Y5 := fun i => NY i (g5 (Fops (i_a i)) (c' i) (base' i) (Y1 i) (Y2 i) (Y3 i) (Y4 i))).
      assert (K5 : ok X5 Y5) by (apply KN; unfold g5; [ok_tac|oh_tac]).
      set (X6 := fun i => NX i (g6 Cops (c i) (base i) (X1 i) (X2 i) (X3 i) (X4 i) (X5 i))). set (Y6 := fun i => NY i (g6 (Fops (i_a i)) (c' i) (base' i) (Y1 i) (Y2 i) (Y3 i) (Y4 i) (Y5 i))).
      assert (K6 : ok X6 Y6) by (apply KN; unfold g6; [ok_tac|oh_tac]).
      assert (Kk : ok (fun i => gk Cops (c i) (base i) (X1 i) (X3 i) (X4 i) (X5 i) (X6 i)) (fun i => gk (Fops (i_a i)) (c' i) (base' i) (Y1 i) (Y3 i) (Y4 i) (Y5 i) (Y6 i))) by (unfold gk; ok_tac).
      assert (Ke : ok (fun i => ge Cops (c i) (X1 i) (X3 i) (X4 i) (X5 i) (X6 i)) (fun i => ge (Fops (i_a i)) (c' i) (Y1 i) (Y3 i) (Y4 i) (Y5 i) (Y6 i))) by (unfold ge; ok_tac).
      split; [exact Kk|exact Ke].
    Qed.
  End Forms.

  (** ** Coefficients *)
  Lemma soh_mul_c (c : R) : soh (fun i => tmul Rops c (i_h i)).
  Proof. exists (Rabs c). split; [apply Rabs_pos|]. intros i Hi. destruct (va_h _ _ _ _ _ _ _ _ _ _ Hi) as [Hh _]. cbn [tmul Rops]. rewrite Rabs_mult, (Rabs_pos_eq (i_h i)) by lra. lra. Qed.
  Ltac mok_step := first
    [ eassumption
    | lazymatch goal with
      | |- RoundingMat.mok _ _ _ _ _ _ _ _ _ (fun i => madd (@?x i) (@?y i)) _ => apply mok_add
      | |- RoundingMat.mok _ _ _ _ _ _ _ _ _ (fun i => msub (@?x i) (@?y i)) _ => apply mok_sub
      | |- RoundingMat.mok _ _ _ _ _ _ _ _ _ (fun i => mscalz _ (@?y i)) _ => apply mok_scalz
      | |- RoundingMat.mok _ _ _ _ _ _ _ _ _ (fun i => mdivz (@?x i) _) _ => apply mok_divz
      | |- RoundingMat.mok _ _ _ _ _ _ _ _ _ (fun i => mscal (@?x i) (@?y i)) _ => apply mok_scal
      | |- Rounding.sbnd _ _ _ _ _ _ _ _ (fun i => tdiv _ _ _) => apply (sbnd_c n XL PX N t0 t1 rho u kap)
      | |- Rounding.sbnd _ _ _ _ _ _ _ _ _ => apply (soh_bnd n q L XL PX N t0 t1 rho K u fd J HS)
      | |- Rounding.soh _ _ _ _ _ _ _ _ i_h => apply soh_h
      | |- Rounding.soh _ _ _ _ _ _ _ _ (fun i => i_h i) => apply soh_h
      | |- Rounding.soh _ _ _ _ _ _ _ _ (fun i => tmul _ (i_h i) (tofZ _ _)) => apply (soh_mul' n XL PX N t0 t1 rho u kap)
      | |- Rounding.soh _ _ _ _ _ _ _ _ (fun i => tmul _ _ (i_h i)) => apply soh_mul_c
      end ].
  Ltac mok_tac := repeat mok_step.
  Ltac moh_step := first
    [ eassumption
    | lazymatch goal with
      | |- RoundingMat.moh _ _ _ _ _ _ _ _ _ (fun i => mdivz (@?x i) _) => apply moh_divz
      | |- RoundingMat.moh _ _ _ _ _ _ _ _ _ (fun i => mscal (@?x i) (@?y i)) => eapply moh_scal
      end
    | mok_step ].
  Ltac moh_tac := repeat moh_step.
  Lemma C4_mok EL EL' EL2 EL2' a a' b b' c c' d d' e e' : mexp_ok EL EL' -> mexp_ok EL2 EL2' -> mok a a' -> mok b b' -> mok c c' -> mok d d' -> mok e e' ->
    coefs4_mok (fun i => C4 Cops (i_h i) (EL i) (EL2 i) (a i) (b i) (c i) (d i) (e i)) (fun i => C4 (Fops (i_a i)) (i_h i) (EL' i) (EL2' i) (a' i) (b' i) (c' i) (d' i) (e' i)).
  Proof.
    intros. unfold C4. split; cbn [e4_EL e4_EL2 e4_a21 e4_a31 e4_a32 e4_a41 e4_a43 e4_b1 e4_b2 e4_b4]; [assumption|assumption|..]; (split; [mok_tac|moh_tac]).
  Qed.
  Lemma C5_mok A1 A1' A2 A2' A3 A3' A4 A4' a a' b b' c c' d d' e e' f f' g g' r r' s s' :
    mexp_ok A1 A1' -> mexp_ok A2 A2' -> mexp_ok A3 A3' -> mexp_ok A4 A4' ->
    mok a a' -> mok b b' -> mok c c' -> mok d d' -> mok e e' -> mok f f' -> mok g g' -> mok r r' -> mok s s' ->
    coefs5_mok (fun i => C5 Cops (i_h i) (A1 i) (A2 i) (A3 i) (A4 i) (a i) (b i) (c i) (d i) (e i) (f i) (g i) (r i) (s i))
      (fun i => C5 (Fops (i_a i)) (i_h i) (A1' i) (A2' i) (A3' i) (A4' i) (a' i) (b' i) (c' i) (d' i) (e' i) (f' i) (g' i) (r' i) (s' i)).
  Proof.
    intros. unfold C5. split; cbn [e5_EL14 e5_EL12 e5_EL34 e5_EL e5_a21 e5_a31 e5_a32 e5_a41 e5_a43 e5_a51 e5_a52 e5_a54 e5_a61 e5_a62 e5_a63 e5_a65 e5_b1 e5_b3 e5_b4 e5_b5 e5_b6];
      [assumption|assumption|assumption|assumption|..]; (split; [mok_tac|moh_tac]).
  Qed.

  (** ** Sums over the contour *)
  Variable cfg : etdcfg Rops.
  Hypothesis Hr : 0 < contour_radius cfg.
  Hypothesis HM : (0 < contour_points cfg)%nat.
  Lemma mok_cacc (F : forall A : aops Rops, E A -> E A) Q Q' : (forall c, 0 < c -> psi_ok n XL PX N t0 t1 rho u kap c F) ->
    (forall l, (l < contour_points cfg)%nat -> mok (fun i => Q i l) (fun i => Q' i l)) -> forall m s, (s + m <= contour_points cfg)%nat -> forall p p', mok p p' ->
    mok (fun i => cacc Cops cfg (F Cops) (Q i) m s (p i)) (fun i => cacc (Fops (i_a i)) cfg (F (Fops (i_a i))) (Q' i) m s (p' i)).
  Proof.
    intros HF HQ. induction m as [|m IH]; intros s Hs p p' Hp; cbn [cacc]; [exact Hp|].
    apply (IH (S s) ltac:(lia) (fun i => madd (A := Cops) (p i) (cterm Cops cfg (F Cops) (Q i) s)) (fun i => madd (A := Fops (i_a i)) (p' i) (cterm (Fops (i_a i)) cfg (F (Fops (i_a i))) (Q' i) s))).
    apply mok_add; [exact Hp|]. unfold cterm.
    assert (Kn := ok_node n XL PX N t0 t1 rho u kap cfg HM s).
    assert (Lb : lb n XL PX N t0 t1 rho u kap (contour_radius cfg) (fun _ _ => node Cops cfg s)).
    { apply ev_all. intros i _ j _. assert (Rk : Cmod (node Cops cfg s) = Rabs (contour_radius cfg)) by apply (Cmod_rho cfg HM). rewrite Rk, Rabs_pos_eq; lra. }
    assert (Kf := HF (contour_radius cfg) Hr _ _ Kn Lb).
    apply (mok_divs n XL PX N t0 t1 rho u kap (npts cfg) (fun i => mscale (A := Cops) (emul Cops (node Cops cfg s) (F Cops (node Cops cfg s))) (Q i s))
      (fun i => mscale (A := Fops (i_a i)) (emul (Fops (i_a i)) (node (Fops (i_a i)) cfg s) (F (Fops (i_a i)) (node (Fops (i_a i)) cfg s))) (Q' i s)) (npts_neq cfg HM)).
    apply (mok_scale n XL PX N t0 t1 rho u kap (fun i => emul Cops (node Cops cfg s) (F Cops (node Cops cfg s))) (fun i => emul (Fops (i_a i)) (node (Fops (i_a i)) cfg s) (F (Fops (i_a i)) (node (Fops (i_a i)) cfg s)))).
    - exact (ok_mul _ _ _ _ Kn Kf).
    - apply HQ. lia.
  Qed.
  Lemma mok_csumm (F : forall A : aops Rops, E A -> E A) Q Q' : (forall c, 0 < c -> psi_ok n XL PX N t0 t1 rho u kap c F) ->
    (forall l, (l < contour_points cfg)%nat -> mok (fun i => Q i l) (fun i => Q' i l)) ->
    mok (fun i => csumm Cops cfg (F Cops) (Q i)) (fun i => csumm (Fops (i_a i)) cfg (F (Fops (i_a i))) (Q' i)).
  Proof. intros HF HQ. apply (mok_cacc F Q Q' HF HQ _ 0%nat (Nat.le_refl _) (fun _ => mzero Cops) (fun i => mzero (Fops (i_a i))) (mok_zero n XL PX N t0 t1 rho u kap)). Qed.
  Lemma K4_mok X X' Q Q' : (forall k, mexp_ok (fun i => X i k) (fun i => X' i k)) -> (forall k l, (l < contour_points cfg)%nat -> mok (fun i => Q i k l) (fun i => Q' i k l)) ->
    coefs4_mok (fun i => K4 Cops cfg (i_h i) (X i) (Q i)) (fun i => K4 (Fops (i_a i)) cfg (i_h i) (X' i) (Q' i)).
  Proof.
    intros HX HQ. unfold K4. assert (P1 := fun k => mok_csumm (@psi1 Rops) _ _ (psi1_ok n XL PX N t0 t1 rho u kap) (HQ k)).
    assert (P2 := fun k => mok_csumm (@psi2 Rops) _ _ (psi2_ok n XL PX N t0 t1 rho u kap) (HQ k)). assert (P3 := fun k => mok_csumm (@psi3 Rops) _ _ (psi3_ok n XL PX N t0 t1 rho u kap) (HQ k)).
    exact (C4_mok _ _ _ _ _ _ _ _ _ _ _ _ _ _ (HX 4%nat) (HX 2%nat) (P1 2%nat) (P2 2%nat) (P1 4%nat) (P2 4%nat) (P3 4%nat)).
  Qed.
  Lemma K5_mok X X' Q Q' : (forall k, mexp_ok (fun i => X i k) (fun i => X' i k)) -> (forall k l, (l < contour_points cfg)%nat -> mok (fun i => Q i k l) (fun i => Q' i k l)) ->
    coefs5_mok (fun i => K5 Cops cfg (i_h i) (X i) (Q i)) (fun i => K5 (Fops (i_a i)) cfg (i_h i) (X' i) (Q' i)).
  Proof.
    intros HX HQ. unfold K5. assert (P1 := fun k => mok_csumm (@psi1 Rops) _ _ (psi1_ok n XL PX N t0 t1 rho u kap) (HQ k)).
    assert (P2 := fun k => mok_csumm (@psi2 Rops) _ _ (psi2_ok n XL PX N t0 t1 rho u kap) (HQ k)). assert (P3 := fun k => mok_csumm (@psi3 Rops) _ _ (psi3_ok n XL PX N t0 t1 rho u kap) (HQ k)).
    exact (C5_mok _ _ _ _ _ _ _ _ _ _ _ _ _ _ _ _ _ _ _ _ _ _ _ _ _ _ (HX 1%nat) (HX 2%nat) (HX 3%nat) (HX 4%nat) (P1 1%nat) (P2 1%nat) (P1 2%nat) (P2 2%nat) (P1 3%nat) (P2 3%nat) (P1 4%nat) (P2 4%nat) (P3 4%nat)).
  Qed.
  (** The scaled operators. *)
  Lemma zq_mok k z z' : mok z z' -> mok (fun i => zq Cops k (z i)) (fun i => zq (Fops (i_a i)) k (z' i)).
  Proof. intros H. unfold zq. destruct k as [|[|[|[|k]]]]; mok_tac. Qed.
  Lemma zq_moh k z : moh z -> moh (fun i => zq Cops k (z i)).
  Proof. intros H. unfold zq. destruct k as [|[|[|[|k]]]]; try exact H; repeat first [exact H|apply moh_divz|apply moh_scalz]. Qed.
  Lemma zm_mok k l z z' : mok z z' -> mok (fun i => zm Cops cfg k (z i) l) (fun i => zm (Fops (i_a i)) cfg k (z' i) l).
  Proof.
    intros H. unfold zm. apply mok_sub; [|apply zq_mok; exact H].
    apply (mok_scale n XL PX N t0 t1 rho u kap (fun _ => node Cops cfg l) (fun i => node (Fops (i_a i)) cfg l)); [exact (ok_node n XL PX N t0 t1 rho u kap cfg HM l)|apply mok_eye].
  Qed.
End MatrixStages.

(** ** Exact inverses inside the contour *)
Section Search.
  Variable n : nat.
  Variable cfg : etdcfg Rops.
  Hypothesis Hr : 0 < contour_radius cfg.
  Hypothesis HM : (0 < contour_points cfg)%nat.
  Fixpoint rows_le (m : nat) (z : cmat) (r : R) : bool := match m with O => true | S m => if Rle_dec (rown n z m) r then rows_le m z r else false end.
  Lemma rows_le_spec z r : forall m, rows_le m z r = true <-> forall i, (i < m)%nat -> rown n z i <= r.
  Proof.
    induction m as [|m IH]; cbn [rows_le]; [split; [intros; lia|reflexivity]|]. destruct (Rle_dec (rown n z m) r) as [H|H].
    - rewrite IH. split; intros G i Hi; [destruct (Nat.eq_dec i m) as [->|]; [exact H|apply G; lia]|apply G; lia].
    - split; [discriminate|]. intros G. exfalso. apply H. apply G. lia.
  Qed.
  (** The inverse of [node I - z], for some node and some [z] well inside the contour. *)
  Fixpoint find_inv (m : nat) (M : cmat) : exn + cmat :=
    match m with
    | O => inl LinAlgError
    | S m => if rows_le n (shift (node Cops cfg m) M) (contour_radius cfg / 2) then inr (nres n (node Cops cfg m) (shift (node Cops cfg m) M)) else find_inv m M
    end.
  Lemma shift_shift w (M : cmat) : meq n (shift w (shift w M)) M.
  Proof. intros i j _ _. unfold shift, mminus, mtimes. ring. Qed.
  Lemma find_inv_spec M Q : forall m, find_inv m M = inr Q -> is_inv n M Q /\ forall i, (i < n)%nat -> rown n Q i <= 2 / contour_radius cfg.
  Proof.
    induction m as [|m IH]; cbn [find_inv]; [discriminate|]. destruct (rows_le n (shift (node Cops cfg m) M) (contour_radius cfg / 2)) eqn:E; [|exact IH].
    intros H. assert (X : nres n (node Cops cfg m) (shift (node Cops cfg m) M) = Q) by congruence. subst Q.
    assert (Rk : Cmod (node Cops cfg m) = contour_radius cfg) by (etransitivity; [apply (Cmod_rho cfg HM)|apply Rabs_pos_eq; lra]).
    destruct (nres_inv n _ _ _ Hr Rk (proj1 (rows_le_spec _ _ n) E)) as [I1 I2]. split; [|exact I2]. apply (is_inv_ext n _ _ _ (shift_shift _ M) I1).
  Qed.
  Lemma find_inv_total z l : (forall i, (i < n)%nat -> rown n z i <= contour_radius cfg / 2) -> forall m, (l < m)%nat -> exists Q, find_inv m (shift (node Cops cfg l) z) = inr Q.
  Proof.
    intros Hz. induction m as [|m IH]; intros Hl; [lia|]. cbn [find_inv]. destruct (rows_le n (shift (node Cops cfg m) (shift (node Cops cfg l) z)) (contour_radius cfg / 2)) eqn:E; [eexists; reflexivity|].
    destruct (Nat.eq_dec l m) as [->|Nl]; [|apply IH; lia]. exfalso. apply Bool.not_true_iff_false in E. apply E. apply rows_le_spec. intros i Hi.
    rewrite (rown_ext n _ z i); [apply Hz; exact Hi|apply shift_shift|exact Hi].
  Qed.
End Search.

(** Computed linear part, matrix exponential and inverse. *)
Record fulldata := mk_fulldata { y_L : cmat; y_f : cmat -> exn + cmat; y_inv : cmat -> exn + cmat }.
Definition Lfull (n : nat) (L : cmat) (kap : R) (i : inst fulldata) : Prop :=
  mle n (mdiff (y_L (i_L i)) L) (kap * i_eps i) /\ expm_near n kap (i_eps i) (y_f (i_L i)) /\ inv_near n kap (i_eps i) (i_Om i) (y_inv (i_L i)).

Section Full.
  Variables n q : nat.
  Variable L : cmat.
  Variable N : cvec -> cvec.
  Variables t0 t1 rho K : R.
  Variable u : R -> cvec.
  Variable fd : nat -> R -> cvec.
  Variable J : R -> cvec -> cvec.
  Hypothesis HS : smooth n q L N t0 t1 rho K u fd J.
  Variable kap : R.
  Hypothesis Hkap : 0 <= kap.
  Variable cfg : etdcfg Rops.
  Hypothesis Hr : 0 < contour_radius cfg.
  Hypothesis HM : (0 < contour_points cfg)%nat.
  Notation PX := (Lfull n L kap).
  Notation ev := (Rounding.ev n PX N t0 t1 rho u kap).
  Notation ok := (Rounding.ok n PX N t0 t1 rho u kap).
  Notation mok := (RoundingMat.mok n fulldata PX N t0 t1 rho u kap).
  Notation moh := (RoundingMat.moh n fulldata PX N t0 t1 rho u kap).
  Notation mexp_ok := (RoundingMat.mexp_ok n fulldata PX N t0 t1 rho u kap).
  Definition zx (i : inst fulldata) : cmat := mscal (A := Cops) (i_h i) L.
  Definition zf (i : inst fulldata) : cmat := mscal (A := Fops (i_a i)) (i_h i) (y_L (i_L i)).
  Lemma zL_ok : mok (fun _ => L) (fun i => y_L (i_L i)).
  Proof.
    destruct (mle_exists n L) as (x & Hx & HL). exists x, kap. split; [exact Hx|]. split; [exact Hkap|]. apply (ev_all n). intros i Hi a b Ha Hb.
    split; [apply HL; assumption|]. destruct (va_L _ _ _ _ _ _ _ _ _ _ Hi) as [H _]. apply H; assumption.
  Qed.
  Lemma z_ok : mok zx zf.
  Proof. apply (mok_scal n fulldata PX N t0 t1 rho u kap i_h (fun _ => L) (fun i => y_L (i_L i))); [apply (soh_bnd n q L fulldata PX N t0 t1 rho K u fd J HS); apply soh_h|exact zL_ok]. Qed.
  Lemma z_oh : moh zx.
  Proof. apply (moh_scal n fulldata PX N t0 t1 rho u kap i_h (fun _ => L) (fun i => y_L (i_L i))); [apply soh_h|exact zL_ok]. Qed.
  (** Exponentials and inverses, exact and computed. *)
  Definition eX (i : inst fulldata) (k : nat) : cmat := mexp n (zq Cops k (zx i)).
  Definition eY (i : inst fulldata) (k : nat) : cmat := or_exact n fulldata (fun i => y_f (i_L i)) i (zq Cops k (zx i)) (zq (Fops (i_a i)) k (zf i)).
  Definition qX (i : inst fulldata) (k l : nat) : cmat :=
    match find_inv n cfg (contour_points cfg) (zm Cops cfg k (zx i) l) with inr Q => Q | inl _ => mzero Cops end.
  Definition qY (i : inst fulldata) (k l : nat) : cmat := or_inv fulldata (fun i => y_inv (i_L i)) i (qX i k l) (zm (Fops (i_a i)) cfg k (zf i) l).
  Lemma e_ok k : mexp_ok (fun i => eX i k) (fun i => eY i k).
  Proof.
    assert (HX : forall i, PX i -> expm_near n kap (i_eps i) (y_f (i_L i))) by (intros i (_ & H & _); exact H).
    exact (mexp_all n fulldata PX N t0 t1 rho u kap Hkap _ HX _ _ (zq_mok n fulldata PX N t0 t1 rho u kap k _ _ z_ok) (zq_moh n fulldata PX N t0 t1 rho u kap k _ z_oh)).
  Qed.
  (** For short steps every inverse exists. *)
  Lemma zq_rows k (z : cmat) x : (forall i, (i < n)%nat -> rown n z i <= x) -> forall i, (i < n)%nat -> rown n (zq Cops k z) i <= x.
  Proof.
    assert (T : forall c z', 0 <= c <= 1 -> meq n z' (mtimes (RtoC c) z) -> (forall i, (i < n)%nat -> rown n z i <= x) -> forall i, (i < n)%nat -> rown n z' i <= x).
    { intros c z' Hc E Hz i Hi. rewrite (rown_ext n _ _ i E Hi), rown_times, Cmod_R, Rabs_pos_eq by lra. specialize (Hz i Hi). assert (P := rown_nonneg n z i).
      assert (c * rown n z i <= 1 * rown n z i) by (apply Rmult_le_compat_r; lra). lra. }
    intros Hz. unfold zq. destruct k as [|[|[|[|k]]]]; try exact Hz; [apply (T (1/4))|apply (T (1/2))|apply (T (3/4))]; try exact Hz; try lra; intros a b _ _;
      unfold mdivz, mdivs, mscalz, mscal, mtimes; cbn [ediv emul eofT Cops tofZ Rops].
    - change (z a b / RtoC 4 = RtoC (1 / 4) * z a b)%C. unfold Cdiv. rewrite <- RtoC_inv by lra. replace (1 / 4) with (/ 4) by lra. ring.
    - change (z a b / RtoC 2 = RtoC (1 / 2) * z a b)%C. unfold Cdiv. rewrite <- RtoC_inv by lra. replace (1 / 2) with (/ 2) by lra. ring.
    - change (RtoC 3 * z a b / RtoC 4 = RtoC (3 / 4) * z a b)%C. unfold Cdiv. rewrite <- RtoC_inv by lra. replace (3 / 4) with (3 * / 4) by lra. rewrite RtoC_mult. ring.
  Qed.
  Lemma inverses_exist (h : R) k l : (forall i, (i < n)%nat -> rown n (mscal (A := Cops) h L) i <= contour_radius cfg / 2) -> (l < contour_points cfg)%nat ->
    exists Q, find_inv n cfg (contour_points cfg) (zm Cops cfg k (mscal (A := Cops) h L) l) = inr Q.
  Proof. intros Hh Hl. refine (find_inv_total n cfg _ _ l (zq_rows k _ _ Hh) _ Hl); assumption. Qed.
  Lemma q_ok k l : (l < contour_points cfg)%nat -> mok (fun i => qX i k l) (fun i => qY i k l).
  Proof.
    intros Hl. assert (HX : forall i, PX i -> inv_near n kap (i_eps i) (i_Om i) (y_inv (i_L i))) by (intros i (_ & _ & H); exact H).
    assert (P2 : 0 <= 2 / contour_radius cfg) by (left; apply Rdiv_lt_0_compat; lra).
    apply (inv_all n fulldata PX N t0 t1 rho u kap Hkap _ HX (fun i => zm Cops cfg k (zx i) l) (fun i => zm (Fops (i_a i)) cfg k (zf i) l) (fun i => qX i k l) (2 / contour_radius cfg) P2).
    - exact (zm_mok n fulldata PX N t0 t1 rho u kap cfg HM k l _ _ z_ok).
    - destruct z_oh as (b & Hb & H). assert (Pn := pos_INR n). assert (P0 : 0 <= INR n * b) by (apply Rmult_le_pos; assumption).
      assert (P1 : 0 < contour_radius cfg / 2 / (INR n * b + 1)) by (apply Rdiv_lt_0_compat; lra).
      generalize (ev_and n fulldata PX N t0 t1 rho u kap _ _ H (ev_h n fulldata PX N t0 t1 rho u kap _ P1)). apply (ev_mono n). intros i Hi [H1 H2].
      destruct (va_h _ _ _ _ _ _ _ _ _ _ Hi) as [Hh _].
      assert (Hz : forall r, (r < n)%nat -> rown n (zx i) r <= contour_radius cfg / 2).
      { intros r Hr0. eapply Rle_trans; [apply (mle_rown n _ _ r H1 Hr0)|]. apply Rle_trans with ((INR n * b + 1) * (contour_radius cfg / 2 / (INR n * b + 1))); [|right; field; lra].
        rewrite <- Rmult_assoc. apply Rmult_le_compat; lra. }
      destruct (inverses_exist (i_h i) k l Hz Hl) as (Q & EQ). unfold qX, zx. rewrite EQ. exact (find_inv_spec n cfg Hr HM _ _ _ EQ).
  Qed.
  (** The steps. *)
  Notation KX4 i := (K4 Cops cfg (i_h i) (eX i) (qX i)).
  Notation KY4 i := (K4 (Fops (i_a i)) cfg (i_h i) (eY i) (qY i)).
  Notation KX5 i := (K5 Cops cfg (i_h i) (eX i) (qX i)).
  Notation KY5 i := (K5 (Fops (i_a i)) cfg (i_h i) (eY i) (qY i)).
  Definition step4X (i : inst fulldata) : cvec := fst (etd4_form (A := Cops) (emdot Cops n) N (KX4 i) (i_v i) (N (i_v i))).
  Definition step4Y (i : inst fulldata) : cvec := fst (etd4_form (A := Fops (i_a i)) (emdot (Fops (i_a i)) n) (i_N i) (KY4 i) (i_v i) (i_N i (i_v i))).
  Definition step5X (i : inst fulldata) : cvec := fst (etd5_form (A := Cops) (emdot Cops n) N (KX5 i) (i_v i) (N (i_v i))).
  Definition step5Y (i : inst fulldata) : cvec := fst (etd5_form (A := Fops (i_a i)) (emdot (Fops (i_a i)) n) (i_N i) (KY5 i) (i_v i) (i_N i (i_v i))).
  Lemma steps_ok : ok step4X step4Y /\ ok step5X step5Y.
  Proof.
    assert (Kv := ok_v n q L fulldata PX N t0 t1 rho K u fd J HS kap).
    assert (KN := fun f g Hf Tf => ok_N n q L fulldata PX N t0 t1 rho K u fd J HS kap Hkap f g Hf Tf).
    assert (K1 := KN _ _ Kv (tube_v n fulldata PX N t0 t1 rho u kap)).
    split.
    - exact (proj1 (etd4_n_ok n fulldata PX N t0 t1 rho u kap i_v i_v (fun i => N (i_v i)) (fun i => i_N i (i_v i)) (fun _ => N) i_N Kv K1 KN _ _
        (K4_mok n q L fulldata PX N t0 t1 rho K u fd J HS kap cfg Hr HM eX eY qX qY e_ok q_ok))).
    - exact (proj1 (etd5_n_ok n fulldata PX N t0 t1 rho u kap i_v i_v (fun i => N (i_v i)) (fun i => i_N i (i_v i)) (fun _ => N) i_N Kv K1 KN _ _
        (K5_mok n q L fulldata PX N t0 t1 rho K u fd J HS kap cfg Hr HM eX eY qX qY e_ok q_ok))).
  Qed.
End Full.
