(** * Rounded matrices

    The calculus of [Rounding.v], continued: matrices, products of matrices with vectors, the stages of the integrating-factor
    schemes from any starting value, the eigenbasis, and matrix exponentials. *)

From Coq Require Import ZArith List Bool Reals Lra Lia FunctionalExtensionality.
From Coquelicot Require Import Complex.
From Verif Require Import Scalars Arrays SchemeBase SchemeIF CInst SpecRK SchemeIFReal SpecPhi ContourReal Asym Solution Stable Converge Voc PropsETD
  ContourMatrix SpecPoly SchemeETD4 SchemeETD5 SchemeForm ControlCSReal PropsMatrix MatExp Rounding RoundingETD PropsRounding.
Import ListNotations.
Local Open Scope R_scope.

Definition mle (n : nat) (M : cmat) (x : R) : Prop := forall a b, (a < n)%nat -> (b < n)%nat -> Cmod (M a b) <= x.
Lemma mle_mono n M x y : mle n M x -> x <= y -> mle n M y.
Proof. intros H Hx a b Ha Hb. specialize (H a b Ha Hb). lra. Qed.
Lemma mle_rown n M x i : mle n M x -> (i < n)%nat -> rown n M i <= INR n * x.
Proof.
  intros H Hi. unfold rown. assert (G : forall m, (m <= n)%nat -> sumf m (fun j => Cmod (M i j)) <= INR m * x).
  { induction m as [|m IH]; intros Hm; [cbn; lra|]. cbn [sumf]. rewrite S_INR. specialize (IH ltac:(lia)). specialize (H i m Hi ltac:(lia)). lra. }
  apply G. lia.
Qed.
Lemma mle_exists n (M : cmat) : exists x, 0 <= x /\ mle n M x.
Proof.
  assert (G : forall m, exists x, 0 <= x /\ forall a b, (a < n)%nat -> (b < m)%nat -> Cmod (M a b) <= x).
  { induction m as [|m (x & Hx & IH)]; [exists 0; split; [lra|]; intros; lia|]. destruct (vle_exists n (fun a => M a m)) as (y & Hy & H).
    exists (x + y). split; [lra|]. intros a b Ha Hb. destruct (Nat.eq_dec b m) as [->|Nb].
    - specialize (H a Ha). cbn beta in H. lra.
    - specialize (IH a b Ha ltac:(lia)). lra. }
  exact (G n).
Qed.

Section Matrices.
  Variables n q : nat.
  Variable L : nat -> nat -> C.
  Variable XL : Type.
  Variable PX : inst XL -> Prop.
  Variable N : cvec -> cvec.
  Variables t0 t1 rho K : R.
  Variable u : R -> cvec.
  Variable fd : nat -> R -> cvec.
  Variable J : R -> cvec -> cvec.
  Hypothesis HS : smooth n q L N t0 t1 rho K u fd J.
  Variable kap : R.
  Notation valid := (Rounding.valid n PX N t0 t1 rho u kap).
  Notation ev := (Rounding.ev n PX N t0 t1 rho u kap).
  Notation ok := (Rounding.ok n PX N t0 t1 rho u kap).
  Notation bnd := (Rounding.bnd n PX N t0 t1 rho u kap).
  Notation oh := (Rounding.oh n PX N t0 t1 rho u kap).
  Notation around := (Rounding.around n PX N t0 t1 rho u kap).
  Notation soh := (Rounding.soh n PX N t0 t1 rho u kap).
  Notation sbnd := (Rounding.sbnd n PX N t0 t1 rho u kap).
  Local Notation va_a i Hi := (Rounding.va_a n XL PX N t0 t1 rho u kap i Hi).
  Local Notation va_e i Hi := (Rounding.va_e n XL PX N t0 t1 rho u kap i Hi).
  Local Notation ev_and := (Rounding.ev_and n XL PX N t0 t1 rho u kap).
  Local Notation ev_mono := (Rounding.ev_mono n XL PX N t0 t1 rho u kap).
  Local Notation ev_all := (Rounding.ev_all n XL PX N t0 t1 rho u kap).
  Local Notation ev_e := (Rounding.ev_e n XL PX N t0 t1 rho u kap).
  Local Notation ev_O := (Rounding.ev_O n XL PX N t0 t1 rho u kap).
  Local Notation exp_ok := (RoundingETD.exp_ok n XL PX N t0 t1 rho u kap).

  Definition mok (f g : inst XL -> cmat) : Prop := exists B A, 0 <= B /\ 0 <= A /\
    ev (fun i => forall a b, (a < n)%nat -> (b < n)%nat -> near B A (i_eps i) (f i a b) (g i a b)).
  Definition moh (f : inst XL -> cmat) : Prop := exists B, 0 <= B /\ ev (fun i => mle n (f i) (B * i_h i)).
  Lemma mok_cols f g : (forall b, (b < n)%nat -> ok (fun i a => f i a b) (fun i a => g i a b)) -> mok f g.
  Proof.
    intros H. destruct (near_uniform n XL PX N t0 t1 rho u kap n (fun b i a => f i a b) (fun b i a => g i a b) H) as (B & A & HB & HA & G).
    exists B, A. split; [exact HB|]. split; [exact HA|]. revert G. apply ev_mono. intros i _ G a b Ha Hb. apply G; assumption.
  Qed.
  Lemma mok_col f g b : (b < n)%nat -> mok f g -> ok (fun i a => f i a b) (fun i a => g i a b).
  Proof. intros Hb (B & A & HB & HA & G). exists B, A. split; [exact HB|]. split; [exact HA|]. revert G. apply ev_mono. intros i _ G a Ha. apply G; assumption. Qed.
  Lemma mok_id f g : mok f g -> mok f f.
  Proof.
    intros (B & A & HB & HA & G). exists B, 0. split; [exact HB|]. split; [lra|]. revert G. apply ev_mono. intros i _ G a b Ha Hb. split; [apply (G a b Ha Hb)|].
    replace (f i a b - f i a b)%C with (RtoC 0) by ring. rewrite Cmod_0. lra.
  Qed.

  Lemma ok_dot f g v v' : mok f g -> ok v v' -> ok (fun i => emdot Cops n (f i) (v i)) (fun i => emdot (Fops (i_a i)) n (g i) (v' i)).
  Proof.
    intros (B & A & HB & HA & H) (B' & A' & HB' & HA' & H'). assert (Pn := pos_INR n).
    assert (0 <= B * B') by (apply Rmult_le_pos; assumption). assert (0 <= (B + A) * (B' + A')) by (apply Rmult_le_pos; lra).
    assert (0 <= A * (B' + A')) by (apply Rmult_le_pos; lra). assert (0 <= B * A') by (apply Rmult_le_pos; lra).
    assert (0 <= 4 * INR n * ((B + A) * (B' + A') + 1)) by (apply Rmult_le_pos; lra).
    exists (INR n * (B * B')), (INR n * (1 + 4 * INR n * ((B + A) * (B' + A') + 1)) + INR n * (A * (B' + A') + B * A')).
    split; [apply Rmult_le_pos; lra|]. split.
    { assert (0 <= INR n * (1 + 4 * INR n * ((B + A) * (B' + A') + 1))) by (apply Rmult_le_pos; lra). assert (0 <= INR n * (A * (B' + A') + B * A')) by (apply Rmult_le_pos; lra). lra. }
    assert (P : 0 < / 8 / (INR n + 1)) by (apply Rdiv_lt_0_compat; lra).
    generalize (ev_and _ _ (ev_and _ _ H H') (ev_and _ _ (ev_and _ _ (ev_e 1 Rlt_0_1) (ev_e _ P)) (ev_O (4 * INR n * ((B + A) * (B' + A') + 1) + (B + A) + (B' + A'))))). apply ev_mono.
    intros i Hi [[Q Q'] [[E1 E2] O]] j Hj. assert (E := va_e i Hi).
    apply (near_dot (i_a i) (i_eps i) (i_Om i) n (f i) (g i) (v i) (v' i) j B A B' A' (va_a i Hi)); try assumption; try (split; assumption).
    - intros k Hk. apply Q; assumption.
    - apply Rle_trans with ((INR n + 1) * (/ 8 / (INR n + 1))); [apply Rmult_le_compat; lra|right; field; lra].
  Qed.
  Lemma bnd_dot f g v : mok f g -> bnd v -> bnd (fun i => emdot Cops n (f i) (v i)).
  Proof.
    intros (B & A & HB & HA & H) (b & Hb & G). exists (INR n * B * b). split; [apply Rmult_le_pos; [apply Rmult_le_pos; [apply pos_INR|exact HB]|exact Hb]|].
    generalize (ev_and _ _ H G). apply ev_mono. intros i _ [H1 G1] j Hj.
    apply (mdot_bound n (f i) (v i) j (INR n * B) b); [apply mle_rown; [intros x y Hx Hy; apply (H1 x y Hx Hy)|exact Hj]|exact G1|exact Hb].
  Qed.
  Lemma oh_dot_r f g v : mok f g -> oh v -> oh (fun i => emdot Cops n (f i) (v i)).
  Proof.
    intros (B & A & HB & HA & H) (b & Hb & G). exists (INR n * B * b). split; [apply Rmult_le_pos; [apply Rmult_le_pos; [apply pos_INR|exact HB]|exact Hb]|].
    generalize (ev_and _ _ H G). apply ev_mono. intros i Hi [H1 G1] j Hj. destruct (va_h _ _ _ _ _ _ _ _ _ _ Hi) as [Hh _]. rewrite Rmult_assoc.
    apply (mdot_bound n (f i) (v i) j (INR n * B) (b * i_h i)); [apply mle_rown; [intros x y Hx Hy; apply (H1 x y Hx Hy)|exact Hj]|exact G1|apply Rmult_le_pos; lra].
  Qed.
  Lemma oh_dot_l f v : moh f -> bnd v -> oh (fun i => emdot Cops n (f i) (v i)).
  Proof.
    intros (B & HB & H) (b & Hb & G). exists (INR n * B * b). split; [apply Rmult_le_pos; [apply Rmult_le_pos; [apply pos_INR|exact HB]|exact Hb]|].
    generalize (ev_and _ _ H G). apply ev_mono. intros i Hi [H1 G1] j Hj.
    replace (INR n * B * b * i_h i) with (INR n * (B * i_h i) * b) by ring.
    apply (mdot_bound n (f i) (v i) j (INR n * (B * i_h i)) b); [apply mle_rown; assumption|exact G1|exact Hb].
  Qed.

  Ltac ok_step := first
    [ eassumption
    | lazymatch goal with
      | |- Rounding.ok _ _ _ _ _ _ _ _ (fun i => vadd (@?x i) (@?y i)) _ => apply ok_add
      | |- Rounding.ok _ _ _ _ _ _ _ _ (fun i => vsub (@?x i) (@?y i)) _ => apply ok_sub
      | |- Rounding.ok _ _ _ _ _ _ _ _ (fun i => vmul (@?x i) (@?y i)) _ => apply ok_mul
      | |- Rounding.ok _ _ _ _ _ _ _ _ (fun i => vscal (@?x i) (@?y i)) _ => apply ok_scal
      | |- Rounding.ok _ _ _ _ _ _ _ _ (fun i => vscalz (@?x i) (@?y i)) _ => apply ok_scal
      | |- Rounding.ok _ _ _ _ _ _ _ _ (fun i => vdivz (@?x i) _) _ => apply ok_divz
      | |- Rounding.ok _ _ _ _ _ _ _ _ (fun i => emdot _ _ (@?x i) (@?y i)) _ => apply ok_dot
      end
    | apply sbnd_Z | apply (soh_bnd n q L XL PX N t0 t1 rho K u fd J HS) | apply soh_h ].
  Ltac ok_tac := repeat ok_step.
  Ltac bnd_tac := match goal with |- Rounding.bnd _ _ _ _ _ _ _ _ _ => eapply ok_bnd end; ok_tac.

  (** ** Stages of IF4 and IF34, 1-D exponentials *)
  Section Forms.
    (** The starting value and the nonlinear function of the stages (in the eigenbasis for some strategies); [X1]: the first stage. *)
    Variables base base' X1 Y1 : inst XL -> cvec.
    Variables NX NY : inst XL -> cvec -> cvec.
    Hypothesis KB : ok base base'.
    Hypothesis K1 : ok X1 Y1.
    Hypothesis KN : forall f g, ok f g -> around base f -> ok (fun i => NX i (f i)) (fun i => NY i (g i)).
    Section Diagonal.
      Variables EL EL' EL2 EL2' : inst XL -> cvec.
      Hypothesis HE : exp_ok EL EL'.
      Hypothesis HE2 : exp_ok EL2 EL2'.
      Lemma if_form_ok :
        ok (fun i => fst (if_form_d (A := Cops) (NX i) (i_h i) (mk_if_coefs (EL i) (EL2 i)) (base i) (X1 i)))
           (fun i => fst (if_form_d (A := Fops (i_a i)) (NY i) (i_h i) (mk_if_coefs (EL' i) (EL2' i)) (base' i) (Y1 i))) /\
        ok (fun i => snd (if_form_d (A := Cops) (NX i) (i_h i) (mk_if_coefs (EL i) (EL2 i)) (base i) (X1 i)))
           (fun i => snd (if_form_d (A := Fops (i_a i)) (NY i) (i_h i) (mk_if_coefs (EL' i) (EL2' i)) (base' i) (Y1 i))).
      Proof.
        assert (TE := around_exp_ok n q L XL PX N t0 t1 rho K u fd J HS kap base base' KB _ _ HE).
        assert (TE2 := around_exp_ok n q L XL PX N t0 t1 rho K u fd J HS kap base base' KB _ _ HE2).
        destruct HE as [KE _]. destruct HE2 as [KE2 _].
        set (X2 := fun i => NX i (if_s2 Cops (i_h i) (EL2 i) (base i) (X1 i))). set (Y2 := fun i => NY i (if_s2 (Fops (i_a i)) (i_h i) (EL2' i) (base' i) (Y1 i))).
        assert (K2 : ok X2 Y2).
        { apply KN; unfold if_s2; [ok_tac|]. apply around_add; [exact TE2|]. apply oh_divz. apply oh_mul_l; [apply oh_scal; [apply soh_h|bnd_tac]|bnd_tac]. }
        set (X3 := fun i => NX i (if_s3 Cops (i_h i) (EL2 i) (base i) (X2 i))). set (Y3 := fun i => NY i (if_s3 (Fops (i_a i)) (i_h i) (EL2' i) (base' i) (Y2 i))).
        assert (K3 : ok X3 Y3).
        { apply KN; unfold if_s3; [ok_tac|]. apply around_add; [exact TE2|]. apply oh_divz. apply oh_scal; [apply soh_h|bnd_tac]. }
        set (X4 := fun i => NX i (if_s4 Cops (i_h i) (EL i) (EL2 i) (base i) (X3 i))). set (Y4 := fun i => NY i (if_s4 (Fops (i_a i)) (i_h i) (EL' i) (EL2' i) (base' i) (Y3 i))).
        assert (K4 : ok X4 Y4).
        { apply KN; unfold if_s4; [ok_tac|]. apply around_add; [exact TE|]. apply oh_mul_l; [apply oh_scal; [apply soh_h|bnd_tac]|bnd_tac]. }
        set (Xk := fun i => if_k Cops (i_h i) (EL i) (EL2 i) (base i) (X1 i) (X2 i) (X3 i) (X4 i)).
        set (Yk := fun i => if_k (Fops (i_a i)) (i_h i) (EL' i) (EL2' i) (base' i) (Y1 i) (Y2 i) (Y3 i) (Y4 i)).
        assert (Kk : ok Xk Yk) by (unfold Xk, Yk, if_k; ok_tac).
        set (X5 := fun i => NX i (Xk i)). set (Y5 := fun i => NY i (Yk i)).
        assert (K5 : ok X5 Y5).
        { apply KN; [exact Kk|]. unfold Xk, if_k. apply around_add; [exact TE|]. apply oh_scal; [apply soh_h|]. bnd_tac. }
        split; [exact Kk|].
        assert (KF : ok (fun i => if_err Cops (i_h i) (X4 i) (X5 i)) (fun i => if_err (Fops (i_a i)) (i_h i) (Y4 i) (Y5 i))) by (unfold if_err; ok_tac).
        exact KF.
      Qed.
    End Diagonal.
    (** Matrix exponentials: [E v - v] is of size [O(h)]. *)
    Definition mexp_ok (f g : inst XL -> cmat) : Prop := mok f g /\ moh (fun i a b => f i a b - mident a b)%C.
    Lemma around_mexp f g : mexp_ok f g -> around base (fun i => emdot Cops n (f i) (base i)).
    Proof.
      intros [_ Hf]. assert (X := oh_dot_l _ _ Hf (ok_bnd n XL PX N t0 t1 rho u kap _ _ KB)). destruct X as (b & Hb & X). exists b. split; [exact Hb|].
      revert X. apply ev_mono. intros i _ X j Hj. specialize (X j Hj). cbn [emdot Cops] in X |- *. unfold mdot in X |- *. unfold csub.
      replace (csum n (fun k => f i j k * base i k)%C - base i j)%C with (csum n (fun k => (f i j k - mident j k) * base i k)%C); [exact X|].
      transitivity (csum n (fun k => f i j k * base i k)%C + csum n (fun k => - RtoC 1 * (mident j k * base i k))%C)%C.
      - rewrite <- csum_plus. apply csum_ext. intros k _. ring.
      - rewrite csum_scal, (csum_mident n j (base i) Hj). ring.
    Qed.
    Section Full.
      Variables EL EL' EL2 EL2' : inst XL -> cmat.
      Hypothesis HE : mexp_ok EL EL'.
      Hypothesis HE2 : mexp_ok EL2 EL2'.
      Lemma if_form_n_ok :
        ok (fun i => fst (if_form_n (A := Cops) (NX i) (i_h i) n (mk_if_coefs (EL i) (EL2 i)) (base i) (X1 i)))
           (fun i => fst (if_form_n (A := Fops (i_a i)) (NY i) (i_h i) n (mk_if_coefs (EL' i) (EL2' i)) (base' i) (Y1 i))) /\
        ok (fun i => snd (if_form_n (A := Cops) (NX i) (i_h i) n (mk_if_coefs (EL i) (EL2 i)) (base i) (X1 i)))
           (fun i => snd (if_form_n (A := Fops (i_a i)) (NY i) (i_h i) n (mk_if_coefs (EL' i) (EL2' i)) (base' i) (Y1 i))).
      Proof.
        assert (TE := around_mexp _ _ HE). assert (TE2 := around_mexp _ _ HE2). destruct HE as [KE _]. destruct HE2 as [KE2 _].
        pose (s2 := fun (A : aops Rops) (h : T Rops) (E2 : mat A) (v a : vec A) => vadd (emdot A n E2 v) (vscal h (emdot A n E2 (vdivz a 2)))).
        pose (s3 := fun (A : aops Rops) (h : T Rops) (E2 : mat A) (v b : vec A) => vadd (emdot A n E2 v) (vdivz (vscal h b) 2)).
        pose (s4 := fun (A : aops Rops) (h : T Rops) (E1 E2 : mat A) (v c : vec A) => vadd (emdot A n E1 v) (vscal h (emdot A n E2 c))).
        pose (sk := fun (A : aops Rops) (h : T Rops) (E1 E2 : mat A) (v a b c d : vec A) =>
          vadd (emdot A n E1 v) (vscal h (vadd (vadd (vadd (emdot A n E1 (vdivz a 6)) (emdot A n E2 (vdivz b 3))) (emdot A n E2 (vdivz c 3))) (vdivz d 6)))).
        set (X2 := fun i => NX i (s2 Cops (i_h i) (EL2 i) (base i) (X1 i))). set (Y2 := fun i => NY i (s2 (Fops (i_a i)) (i_h i) (EL2' i) (base' i) (Y1 i))).
        assert (K2 : ok X2 Y2).
        { apply KN; unfold s2; [ok_tac|]. apply around_add; [exact TE2|]. apply oh_scal; [apply soh_h|bnd_tac]. }
        set (X3 := fun i => NX i (s3 Cops (i_h i) (EL2 i) (base i) (X2 i))). set (Y3 := fun i => NY i (s3 (Fops (i_a i)) (i_h i) (EL2' i) (base' i) (Y2 i))).
        assert (K3 : ok X3 Y3).
        { apply KN; unfold s3; [ok_tac|]. apply around_add; [exact TE2|]. apply oh_divz. apply oh_scal; [apply soh_h|bnd_tac]. }
        set (X4 := fun i => NX i (s4 Cops (i_h i) (EL i) (EL2 i) (base i) (X3 i))). set (Y4 := fun i => NY i (s4 (Fops (i_a i)) (i_h i) (EL' i) (EL2' i) (base' i) (Y3 i))).
        assert (K4 : ok X4 Y4).
        { apply KN; unfold s4; [ok_tac|]. apply around_add; [exact TE|]. apply oh_scal; [apply soh_h|bnd_tac]. }
        set (Xk := fun i => sk Cops (i_h i) (EL i) (EL2 i) (base i) (X1 i) (X2 i) (X3 i) (X4 i)).
        set (Yk := fun i => sk (Fops (i_a i)) (i_h i) (EL' i) (EL2' i) (base' i) (Y1 i) (Y2 i) (Y3 i) (Y4 i)).
        assert (Kk : ok Xk Yk) by (unfold Xk, Yk, sk; ok_tac).
        set (X5 := fun i => NX i (Xk i)). set (Y5 := fun i => NY i (Yk i)).
        assert (K5 : ok X5 Y5).
        { apply KN; [exact Kk|]. unfold Xk, sk. apply around_add; [exact TE|]. apply oh_scal; [apply soh_h|]. bnd_tac. }
        split; [exact Kk|].
        assert (KF : ok (fun i => if_err Cops (i_h i) (X4 i) (X5 i)) (fun i => if_err (Fops (i_a i)) (i_h i) (Y4 i) (Y5 i))) by (unfold if_err; ok_tac).
        exact KF.
      Qed.
    End Full.
  End Forms.
End Matrices.

(** ** The eigenbasis *)
(** Computed eigenvectors, their inverse and eigenvalues. *)
Record eigdata := mk_eigdata { g_S : cmat; g_T : cmat; g_lam : cvec }.
Definition mdiff (a b : cmat) : cmat := fun i j => (a i j - b i j)%C.
Definition Leig (n : nat) (S T : cmat) (lam : cvec) (kap : R) (i : inst eigdata) : Prop :=
  mle n (mdiff (g_S (i_L i)) S) (kap * i_eps i) /\ mle n (mdiff (g_T (i_L i)) T) (kap * i_eps i) /\ vle n (csub (g_lam (i_L i)) lam) (kap * i_eps i).

Section Eigen.
  Variables n q : nat.
  Variable L : nat -> nat -> C.
  Variable N : cvec -> cvec.
  Variables t0 t1 rho K : R.
  Variable u : R -> cvec.
  Variable fd : nat -> R -> cvec.
  Variable J : R -> cvec -> cvec.
  Hypothesis HS : smooth n q L N t0 t1 rho K u fd J.
  Variable kap : R.
  Hypothesis Hkap : 0 <= kap.
  Variables (S T : cmat) (lam : cvec).
  Hypothesis HST : is_inv n S T.
  Notation PX := (Leig n S T lam kap).
  Notation valid := (Rounding.valid n PX N t0 t1 rho u kap).
  Notation ev := (Rounding.ev n PX N t0 t1 rho u kap).
  Notation ok := (Rounding.ok n PX N t0 t1 rho u kap).
  Notation oh := (Rounding.oh n PX N t0 t1 rho u kap).
  Notation around := (Rounding.around n PX N t0 t1 rho u kap).
  Notation mok := (mok n eigdata PX N t0 t1 rho u kap).
  Notation exp_ok := (RoundingETD.exp_ok n eigdata PX N t0 t1 rho u kap).
  Lemma mok_const (M : cmat) (g : inst eigdata -> cmat) : (forall i, PX i -> mle n (mdiff (g i) M) (kap * i_eps i)) -> mok (fun _ => M) g.
  Proof.
    intros H. destruct (mle_exists n M) as (x & Hx & HM). exists x, kap. split; [exact Hx|]. split; [exact Hkap|]. apply (ev_all n). intros i Hi a b Ha Hb.
    split; [apply HM; assumption|apply (H i (va_L _ _ _ _ _ _ _ _ _ _ Hi)); assumption].
  Qed.
  Lemma eS_ok : mok (fun _ => S) (fun i => g_S (i_L i)).
  Proof. apply mok_const. intros i (H & _). exact H. Qed.
  Lemma eT_ok : mok (fun _ => T) (fun i => g_T (i_L i)).
  Proof. apply mok_const. intros i (_ & H & _). exact H. Qed.
  Lemma elam_ok : ok (fun _ => lam) (fun i => g_lam (i_L i)).
  Proof.
    destruct (vle_exists n lam) as (x & Hx & H). exists x, kap. split; [exact Hx|]. split; [exact Hkap|]. apply (ev_all n). intros i Hi j Hj.
    split; [apply H; exact Hj|]. destruct (va_L _ _ _ _ _ _ _ _ _ _ Hi) as (_ & _ & HL). apply HL. exact Hj.
  Qed.
  Lemma ez_ok : ok (fun i => vscal (A := Cops) (i_h i) lam) (fun i => vscal (A := Fops (i_a i)) (i_h i) (g_lam (i_L i))).
  Proof. apply ok_scal; [apply (soh_bnd n q L eigdata PX N t0 t1 rho K u fd J HS); apply soh_h|exact elam_ok]. Qed.
  Lemma ez_oh : oh (fun i => vscal (A := Cops) (i_h i) lam).
  Proof. apply oh_scal; [apply soh_h|]. eapply ok_bnd. apply elam_ok. Qed.
  (** Starting value and nonlinear function in the eigenbasis. *)
  Definition e_base (i : inst eigdata) : cvec := emdot Cops n T (i_v i).
  Definition e_base' (i : inst eigdata) : cvec := emdot (Fops (i_a i)) n (g_T (i_L i)) (i_v i).
  Definition e_N (i : inst eigdata) (w : cvec) : cvec := emdot Cops n T (N (emdot Cops n S w)).
  Definition e_N' (i : inst eigdata) (w : cvec) : cvec := emdot (Fops (i_a i)) n (g_T (i_L i)) (i_N i (emdot (Fops (i_a i)) n (g_S (i_L i)) w)).
  Definition e_first (i : inst eigdata) : cvec := emdot Cops n T (N (i_v i)).
  Definition e_first' (i : inst eigdata) : cvec := emdot (Fops (i_a i)) n (g_T (i_L i)) (i_N i (i_v i)).
  Lemma e_base_ok : ok e_base e_base'.
  Proof. apply (ok_dot n eigdata PX N t0 t1 rho u kap); [exact eT_ok|]. apply (ok_v n q L eigdata PX N t0 t1 rho K u fd J HS kap). Qed.
  Lemma e_first_ok : ok e_first e_first'.
  Proof.
    apply (ok_dot n eigdata PX N t0 t1 rho u kap); [exact eT_ok|]. apply (ok_N n q L eigdata PX N t0 t1 rho K u fd J HS kap Hkap);
      [apply (ok_v n q L eigdata PX N t0 t1 rho K u fd J HS kap)|apply (tube_v n eigdata PX N t0 t1 rho u kap)].
  Qed.
  Lemma e_N_ok f g : ok f g -> around e_base f -> ok (fun i => e_N i (f i)) (fun i => e_N' i (g i)).
  Proof.
    intros Hf Tf. apply (ok_dot n eigdata PX N t0 t1 rho u kap _ _ (fun i => N (emdot Cops n S (f i))) (fun i => i_N i (emdot (Fops (i_a i)) n (g_S (i_L i)) (g i))) eT_ok).
    apply (ok_N n q L eigdata PX N t0 t1 rho K u fd J HS kap Hkap (fun i => emdot Cops n S (f i)) (fun i => emdot (Fops (i_a i)) n (g_S (i_L i)) (g i))).
    - apply (ok_dot n eigdata PX N t0 t1 rho u kap _ _ _ _ eS_ok Hf).
    - assert (X := oh_dot_r n eigdata PX N t0 t1 rho u kap _ _ _ eS_ok Tf). destruct X as (b & Hb & X). exists b. split; [exact Hb|].
      revert X. apply (ev_mono n). intros i _ X. eapply vle_ext; [|exact X]. intros j Hj. unfold csub, e_base. cbn [emdot Cops].
      assert (E := mdot_inv n S T (i_v i) (proj1 HST) j Hj). unfold mdot at 1 in E.
      transitivity (csum n (fun k => S j k * f i k)%C + csum n (fun k => - RtoC 1 * (S j k * mdot n T (i_v i) k))%C)%C.
      + rewrite <- csum_plus. apply csum_ext. intros k _. unfold mdot. ring.
      + rewrite csum_scal, E. ring.
  Qed.
  (** Back in the original basis. *)
  Lemma e_out f g : ok f g -> ok (fun i => emdot Cops n S (f i)) (fun i => emdot (Fops (i_a i)) n (g_S (i_L i)) (g i)).
  Proof. apply (ok_dot n eigdata PX N t0 t1 rho u kap _ _ _ _ eS_ok). Qed.
  Lemma e_exp_ok f g : ok f g -> oh f -> exp_ok (fun i => vexp (A := Cops) (f i)) (fun i => vexp (A := Fops (i_a i)) (g i)).
  Proof. intros Hf Of. split; [apply ok_exp; exact Hf|]. exists f. split; [exact Of|reflexivity]. Qed.
End Eigen.

(** ** Matrix exponentials *)
Lemma rown_diff_pow n z z' d k : (forall i, (i < n)%nat -> rown n z i <= 1) -> (forall i, (i < n)%nat -> rown n z' i <= 1) ->
  (forall i, (i < n)%nat -> rown n (mminus z' z) i <= d) -> 0 <= d ->
  forall i, (i < n)%nat -> rown n (mminus (mpow n z' k) (mpow n z k)) i <= INR k * d.
Proof.
  intros Hz Hz' Hd Hd0. induction k as [|k IH]; intros i Hi.
  - cbn [mpow]. rewrite (rown_ext n _ (mtimes (RtoC 0) mident) i); [rewrite rown_times, Cmod_0; cbn; lra|intros a b _ _; unfold mminus, mtimes; ring|exact Hi].
  - rewrite S_INR. cbn [mpow].
    rewrite (rown_ext n _ (mplus (mprod n z' (mminus (mpow n z' k) (mpow n z k))) (mprod n (mminus z' z) (mpow n z k))) i); [| |exact Hi].
    + eapply Rle_trans; [apply rown_plus|].
      assert (P1 := rown_prod n z' (mminus (mpow n z' k) (mpow n z k)) i (INR k * d) (fun j Hj => IH j Hj)).
      assert (P2 := rown_prod n (mminus z' z) (mpow n z k) i 1). assert (Q : forall j, (j < n)%nat -> rown n (mpow n z k) j <= 1).
      { intros j Hj. rewrite <- (pow1 k). apply rown_pow; assumption. }
      specialize (P2 Q). assert (R1 := Hz' i Hi). assert (R2 := Hd i Hi). assert (R3 := rown_nonneg n z' i). assert (0 <= INR k * d) by (apply Rmult_le_pos; [apply pos_INR|exact Hd0]).
      assert (rown n z' i * (INR k * d) <= 1 * (INR k * d)) by (apply Rmult_le_compat_r; assumption). lra.
    + intros a b Ha Hb. unfold mplus. rewrite (mprod_minus_r n z' _ _ a b Ha Hb), (mprod_minus_l n z' z _ a b Ha Hb). unfold mminus. ring.
Qed.
Lemma sum_k_fact m : sumf m (fun k => / INR (fact k) * INR k) <= exp 1.
Proof.
  assert (E : forall m, sumf (S m) (fun k => / INR (fact k) * INR k) = sumf m (fun k => / INR (fact k) * 1 ^ k)).
  { clear. induction m as [|m IH]; [cbn; lra|]. change (sumf (S (S m)) (fun k => / INR (fact k) * INR k)) with (sumf (S m) (fun k => / INR (fact k) * INR k) + / INR (fact (S m)) * INR (S m)).
    rewrite IH. cbn [sumf]. f_equal. rewrite pow1, fact_simpl, mult_INR. assert (P := INR_fact_lt_0 m). assert (Q : 0 < INR (S m)) by (apply lt_0_INR; lia). field. lra. }
  destruct m as [|m]; [cbn; left; apply exp_pos|]. rewrite E. apply exp_partial. lra.
Qed.
(** The exponential is Lipschitz on the unit ball. *)
Lemma psi_lip n z z' d P P' : (forall i, (i < n)%nat -> rown n z i <= 1) -> (forall i, (i < n)%nat -> rown n z' i <= 1) ->
  (forall i, (i < n)%nat -> rown n (mminus z' z) i <= d) -> 0 <= d -> is_psi n 0 z P -> is_psi n 0 z' P' ->
  forall i, (i < n)%nat -> rown n (mminus P' P) i <= d * exp 1.
Proof.
  intros Hz Hz' Hd Hd0 HP HP' i Hi. apply (rown_lim n (fun m => mminus (psum n 0 z' m) (psum n 0 z m))).
  - intros j Hj eps He. destruct (HP i j Hi Hj (eps / 2) ltac:(lra)) as [K1 H1]. destruct (HP' i j Hi Hj (eps / 2) ltac:(lra)) as [K2 H2].
    exists (max K1 K2). intros m Hm. specialize (H1 m ltac:(lia)). specialize (H2 m ltac:(lia)). unfold mminus.
    replace (psum n 0 z' m i j - psum n 0 z m i j - (P' i j - P i j))%C with ((psum n 0 z' m i j - P' i j) + - (psum n 0 z m i j - P i j))%C by ring.
    eapply Rle_lt_trans; [apply Cmod_triangle|]. rewrite Cmod_opp. lra.
  - intros m. rewrite (rown_ext n _ (fun i j => csum m (fun k => (RtoC (pcoef 0 k) * mminus (mpow n z' k) (mpow n z k) i j)%C)) i); [| |exact Hi].
    + eapply Rle_trans; [apply (rown_csum n m (fun k i j => (RtoC (pcoef 0 k) * mminus (mpow n z' k) (mpow n z k) i j)%C))|].
      apply Rle_trans with (sumf m (fun k => d * (/ INR (fact k) * INR k))).
      * apply sumf_le. intros k _. change (rown n (mtimes (RtoC (pcoef 0 k)) (mminus (mpow n z' k) (mpow n z k))) i <= d * (/ INR (fact k) * INR k)).
        rewrite rown_times, Cmod_R, Rabs_pos_eq by apply pcoef_le.
        replace (d * (/ INR (fact k) * INR k)) with (/ INR (fact k) * (INR k * d)) by ring.
        apply Rmult_le_compat; [apply pcoef_le|apply rown_nonneg|apply pcoef_le|apply rown_diff_pow; assumption].
      * rewrite sumf_mul. apply Rmult_le_compat_l; [exact Hd0|apply sum_k_fact].
    + intros a b _ _. unfold mminus, psum, mpoly.
      transitivity (csum m (fun k => RtoC (pcoef 0 k) * mpow n z' k a b)%C + csum m (fun k => - RtoC 1 * (RtoC (pcoef 0 k) * mpow n z k a b))%C)%C; [rewrite csum_scal; ring|].
      rewrite <- csum_plus. apply csum_ext. intros k _. ring.
Qed.

Definition mexp (n : nat) (M : cmat) : cmat := mphi n M 0 1.
Lemma mtimes_1 (M : cmat) : mtimes (RtoC 1) M = M.
Proof. apply functional_extensionality; intros i. apply functional_extensionality; intros j. unfold mtimes. ring. Qed.
Lemma mexp_psi n M : is_psi n 0 M (mexp n M).
Proof. assert (X := mphi_psi n M 0 1). cbn [fact] in X. change (INR 1) with 1 in X. rewrite !mtimes_1 in X. exact X. Qed.
Lemma mexp_zero n : meq n (mexp n (fun _ _ => RtoC 0)) mident.
Proof. apply (zero_psi n mident). assert (X := mexp_psi n (fun _ _ => RtoC 0)). replace (mtimes (RtoC 0) mident) with ((fun _ _ => RtoC 0) : cmat); [exact X|]. 
  apply functional_extensionality; intros i. apply functional_extensionality; intros j. unfold mtimes. ring. Qed.

(** A matrix exponential routine accurate to [kap eps] on matrices of norm at most one. *)
Definition expm_near (n : nat) (kap eps : R) (f : cmat -> exn + cmat) : Prop :=
  forall M E E', (forall i, (i < n)%nat -> rown n M i <= 1) -> is_psi n 0 M E -> f M = inr E' -> mle n (mdiff E' E) (kap * eps).

Section Exponential.
  Variables n q : nat.
  Variable L : nat -> nat -> C.
  Variable XL : Type.
  Variable PX : inst XL -> Prop.
  Variable N : cvec -> cvec.
  Variables t0 t1 rho K : R.
  Variable u : R -> cvec.
  Variable fd : nat -> R -> cvec.
  Variable J : R -> cvec -> cvec.
  Hypothesis HS : smooth n q L N t0 t1 rho K u fd J.
  Variable kap : R.
  Hypothesis Hkap : 0 <= kap.
  Variable X : inst XL -> cmat -> exn + cmat.
  Hypothesis HX : forall i, PX i -> expm_near n kap (i_eps i) (X i).
  Notation mok := (mok n XL PX N t0 t1 rho u kap).
  Notation moh := (moh n XL PX N t0 t1 rho u kap).
  Notation mexp_ok := (mexp_ok n XL PX N t0 t1 rho u kap).
  (** The computed exponential; the exact one where the routine raises an exception. *)
  Definition or_exact (i : inst XL) (M M' : cmat) : cmat := match X i M' with inr E => E | inl _ => mexp n M end.
  Lemma rown_small M x i : mle n M x -> (i < n)%nat -> INR n * x <= 1 -> rown n M i <= 1.
  Proof. intros HM Hi Hx. eapply Rle_trans; [apply mle_rown; eassumption|exact Hx]. Qed.
  Lemma mexp_all f g : mok f g -> moh f -> mexp_ok (fun i => mexp n (f i)) (fun i => or_exact i (f i) (g i)).
  Proof.
    intros (B & A & HB & HA & H) (b & Hb & G). assert (Pn := pos_INR n). assert (P1 : 0 < / 2 / (INR n * b + 1)) by (apply Rdiv_lt_0_compat; [lra|]; assert (0 <= INR n * b) by (apply Rmult_le_pos; assumption); lra).
    assert (P2 : 0 < / 2 / (INR n * A + 1)) by (apply Rdiv_lt_0_compat; [lra|]; assert (0 <= INR n * A) by (apply Rmult_le_pos; assumption); lra).
    assert (E1 := exp_pos 1).
    assert (small : forall c y, 0 <= c -> 0 <= y <= / 2 / (INR n * c + 1) -> INR n * (c * y) <= / 2).
    { intros c y Hc Hy. assert (P : 0 <= INR n * c) by (apply Rmult_le_pos; assumption).
      apply Rle_trans with ((INR n * c + 1) * (/ 2 / (INR n * c + 1))); [|right; field; lra]. rewrite <- Rmult_assoc. apply Rmult_le_compat; lra. }
    split.
    - exists (exp 1), (kap + INR n * A * exp 1). split; [lra|]. split; [assert (0 <= INR n * A * exp 1) by (apply Rmult_le_pos; [apply Rmult_le_pos; assumption|lra]); lra|].
      generalize (ev_and n XL PX N t0 t1 rho u kap _ _ (ev_and n XL PX N t0 t1 rho u kap _ _ H G) (ev_and n XL PX N t0 t1 rho u kap _ _ (ev_h n XL PX N t0 t1 rho u kap _ P1) (ev_e n XL PX N t0 t1 rho u kap _ P2))). apply (ev_mono n).
      intros i Hi [[H1 G1] [Hh He]] a c Ha Hc. destruct (va_h _ _ _ _ _ _ _ _ _ _ Hi) as [Hh0 _]. assert (He0 := va_e _ _ _ _ _ _ _ _ _ _ Hi).
      assert (S1 := small b (i_h i) Hb ltac:(lra)). assert (S2 := small A (i_eps i) HA ltac:(lra)).
      assert (R1 : forall k, (k < n)%nat -> rown n (f i) k <= / 2) by (intros k Hk; eapply Rle_trans; [apply (mle_rown n _ _ k G1 Hk)|exact S1]).
      assert (D1 : mle n (mminus (g i) (f i)) (A * i_eps i)) by (intros k l Hk Hl; apply (H1 k l Hk Hl)).
      assert (R2 : forall k, (k < n)%nat -> rown n (mminus (g i) (f i)) k <= INR n * (A * i_eps i)) by (intros k Hk; apply mle_rown; assumption).
      assert (R3 : forall k, (k < n)%nat -> rown n (g i) k <= 1).
      { intros k Hk. rewrite (rown_ext n _ (mplus (f i) (mminus (g i) (f i))) k); [|intros x y _ _; unfold mplus, mminus; ring|exact Hk].
        eapply Rle_trans; [apply rown_plus|]. specialize (R1 k Hk). specialize (R2 k Hk). lra. }
      assert (R4 : forall k, (k < n)%nat -> rown n (f i) k <= 1) by (intros k Hk; specialize (R1 k Hk); lra).
      split.
      + eapply Rle_trans; [apply entry_rown; exact Hc|]. apply (psi_norm n (f i) 1) with (r := O); [lra|exact R4|apply mexp_psi|exact Ha].
      + assert (PA : 0 <= A * i_eps i) by (apply Rmult_le_pos; lra).
        assert (Q1 : Cmod (mexp n (g i) a c - mexp n (f i) a c)%C <= INR n * (A * i_eps i) * exp 1).
        { assert (X1 := entry_rown n (mminus (mexp n (g i)) (mexp n (f i))) a c Hc). unfold mminus at 1 in X1. eapply Rle_trans; [exact X1|].
          apply (psi_lip n (f i) (g i)); try assumption; try apply mexp_psi. apply Rmult_le_pos; assumption. }
        unfold or_exact. destruct (X i (g i)) as [e|E'] eqn:EX.
        * replace (mexp n (f i) a c - mexp n (f i) a c)%C with (RtoC 0) by ring. rewrite Cmod_0. apply Rmult_le_pos; [|exact He0].
          assert (0 <= INR n * A * exp 1) by (apply Rmult_le_pos; [apply Rmult_le_pos; assumption|lra]). lra.
        * assert (Q2 := HX i (va_L _ _ _ _ _ _ _ _ _ _ Hi) (g i) _ E' R3 (mexp_psi n (g i)) EX a c Ha Hc). unfold mdiff in Q2.
          replace (E' a c - mexp n (f i) a c)%C with ((E' a c - mexp n (g i) a c) + (mexp n (g i) a c - mexp n (f i) a c))%C by ring.
          eapply Rle_trans; [apply Cmod_triangle|]. replace ((kap + INR n * A * exp 1) * i_eps i) with (kap * i_eps i + INR n * (A * i_eps i) * exp 1) by ring. lra.
    - exists (INR n * b * exp 1). split; [apply Rmult_le_pos; [apply Rmult_le_pos; assumption|lra]|].
      generalize (ev_and n XL PX N t0 t1 rho u kap _ _ G (ev_h n XL PX N t0 t1 rho u kap _ P1)). apply (ev_mono n).
      intros i Hi [G1 Hh] a c Ha Hc. destruct (va_h _ _ _ _ _ _ _ _ _ _ Hi) as [Hh0 _]. assert (S1 := small b (i_h i) Hb ltac:(lra)).
      assert (R0 : forall k, (k < n)%nat -> rown n (f i) k <= INR n * (b * i_h i)) by (intros k Hk; apply (mle_rown n _ _ k G1 Hk)).
      assert (PB : 0 <= INR n * (b * i_h i)) by (apply Rmult_le_pos; [exact Pn|apply Rmult_le_pos; lra]).
      replace (INR n * b * exp 1 * i_h i) with (INR n * (b * i_h i) * exp 1) by ring.
      eapply Rle_trans; [|apply (psi_lip n (fun _ _ => RtoC 0) (f i) (INR n * (b * i_h i)) (mexp n (fun _ _ => RtoC 0)) (mexp n (f i))) with (i := a); try apply mexp_psi; try exact PB; try exact Ha].
      + rewrite <- (mexp_zero n a c Ha Hc). apply (entry_rown n (mminus (mexp n (f i)) (mexp n (fun _ _ => RtoC 0))) a c Hc).
      + intros k Hk. apply (rown_small _ 0); [intros x y _ _; rewrite Cmod_0; lra|exact Hk|lra].
      + intros k Hk. specialize (R0 k Hk). lra.
      + intros k Hk. rewrite (rown_ext n _ (f i) k); [apply R0; exact Hk|intros x y _ _; unfold mminus; ring|exact Hk].
  Qed.
End Exponential.
