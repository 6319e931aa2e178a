(** * Exponential Runge-Kutta steps depend on their data in a Lipschitz way

    Spec file: how one step changes when the starting value and the coefficients change, near a
    point where the nonlinear function is Lipschitz; and how such steps accumulate errors. *)

From Coq Require Import ZArith List Bool Reals Lra Lia QArith Qreals FunctionalExtensionality Setoid Morphisms.
From Coquelicot Require Import Complex.
From Verif Require Import CInst SpecRK SpecERK SchemeIFReal Asym.
Import ListNotations.
Local Open Scope R_scope.

(** Coefficient operators: linear, of norm at most [A], and the ones of the second method within
    [eps] of them. *)
Definition coef (n : nat) (A eps : R) (P Q : op) : Prop :=
  rlinear n P /\ opn n P A /\ opn n (fun v => csub (P v) (Q v)) eps.
(** Linear and within [A h] of the identity. *)
Definition near_id (n : nat) (A h : R) (E : op) : Prop := rlinear n E /\ opn n (fun v => csub (E v) v) (A * h).
(** Two methods with the same exponentials, at most [S] stages, and coefficients within [eps]. *)
Record erk_close (n : nat) (A : R) (S : nat) (h eps : R) (m m' : erk) : Prop := {
  ec_E : Forall (near_id n A h) (er_E m);
  ec_E1 : near_id n A h (er_E1 m);
  ec_E' : er_E m' = er_E m;
  ec_E1' : er_E1 m' = er_E1 m;
  ec_a : Forall2 (Forall2 (coef n A eps)) (er_a m) (er_a m');
  ec_b : Forall2 (coef n A eps) (er_b m) (er_b m');
  ec_la : (length (er_a m) <= S)%nat;
  ec_lr : Forall (fun row => (length row <= S)%nat) (er_a m);
  ec_lb : (length (er_b m) <= S)%nat }.

Lemma Forall2_weaken {T U} (P Q : T -> U -> Prop) l l' : (forall a b, P a b -> Q a b) -> Forall2 P l l' -> Forall2 Q l l'.
Proof. intros H. induction 1; constructor; auto. Qed.

Lemma Forall2_len {T U} (P : T -> U -> Prop) l l' : Forall2 P l l' -> length l = length l'.
Proof. induction 1; cbn; congruence. Qed.

Section Pert.
  Variable n : nat.
  Variable N : cvec -> cvec.
  Variables A K rho : R.
  Variable S : nat.
  Hypothesis HA : 0 <= A.
  Hypothesis HK : 0 <= K.
  Hypothesis Hrho : 0 < rho.
  (** Bound on [N] in the tube; step restriction; growth of the differences with the stages. *)
  Definition Kn : R := K + K * rho.
  Definition hmax : R := Rmin 1 (rho / 2 / (A * (K + rho) + INR S * ((A + 1) * Kn) + 1)).
  Fixpoint Dn (k : nat) : R :=
    match k with Datatypes.O => 0 | Datatypes.S k => Dn k + K * (1 + A + INR S * (A * Dn k + Kn)) end.
  Definition Cst : R := A + INR S * (A * Dn S + Kn).

  Lemma Kn_pos : 0 <= Kn.
  Proof. unfold Kn. assert (0 <= K * rho) by (apply Rmult_le_pos; lra). lra. Qed.
  Lemma Dn_pos k : 0 <= Dn k.
  Proof.
    assert (H := Kn_pos). assert (HS := pos_INR S). induction k as [|k IH]; cbn [Dn]; [lra|].
    assert (0 <= A * Dn k) by (apply Rmult_le_pos; assumption).
    assert (0 <= INR S * (A * Dn k + Kn)) by (apply Rmult_le_pos; lra).
    assert (0 <= K * (1 + A + INR S * (A * Dn k + Kn))) by (apply Rmult_le_pos; lra). lra.
  Qed.
  Lemma Dn_step k : Dn k <= Dn (Datatypes.S k).
  Proof.
    assert (H := Kn_pos). assert (HS := pos_INR S). assert (P := Dn_pos k). cbn [Dn].
    assert (0 <= A * Dn k) by (apply Rmult_le_pos; assumption).
    assert (0 <= INR S * (A * Dn k + Kn)) by (apply Rmult_le_pos; lra).
    assert (0 <= K * (1 + A + INR S * (A * Dn k + Kn))) by (apply Rmult_le_pos; lra). lra.
  Qed.
  Lemma Dn_mono j k : (j <= k)%nat -> Dn j <= Dn k.
  Proof. induction 1; [lra|]. assert (X := Dn_step m). lra. Qed.
  Lemma Cst_pos : 0 <= Cst.
  Proof.
    assert (H := Kn_pos). assert (HS := pos_INR S). assert (P := Dn_pos S). unfold Cst.
    assert (0 <= A * Dn S) by (apply Rmult_le_pos; assumption).
    assert (0 <= INR S * (A * Dn S + Kn)) by (apply Rmult_le_pos; lra). lra.
  Qed.
  Lemma hmax_den : 0 <= A * (K + rho) + INR S * ((A + 1) * Kn).
  Proof.
    assert (H := Kn_pos). assert (HS := pos_INR S).
    assert (0 <= A * (K + rho)) by (apply Rmult_le_pos; lra).
    assert (0 <= (A + 1) * Kn) by (apply Rmult_le_pos; lra).
    assert (0 <= INR S * ((A + 1) * Kn)) by (apply Rmult_le_pos; lra). lra.
  Qed.
  Lemma hmax_pos : 0 < hmax.
  Proof. assert (X := hmax_den). unfold hmax. apply Rmin_glb_lt; [lra|]. apply Rdiv_lt_0_compat; lra. Qed.
  Lemma hmax_use h : 0 < h -> h <= hmax -> h * (A * (K + rho) + INR S * ((A + 1) * Kn)) <= rho / 2.
  Proof.
    intros H1 H2. assert (X := hmax_den). set (d := A * (K + rho) + INR S * ((A + 1) * Kn)) in *.
    assert (Hh : h <= rho / 2 / (d + 1)) by (unfold hmax in H2; fold d in H2; assert (Y := Rmin_r 1 (rho / 2 / (d + 1))); lra).
    apply Rle_trans with (rho / 2 / (d + 1) * (d + 1)); [|right; field; lra].
    apply Rmult_le_compat; lra.
  Qed.

  (** The point, with [N] Lipschitz around it. *)
  Variable c : cvec.
  Hypothesis Hc : vle n c K.
  Hypothesis HNc : vle n (N c) K.
  Hypothesis Hlip : forall v w x, 0 <= x -> vle n (csub v c) rho -> vle n (csub w c) rho -> vle n (csub v w) x ->
                    vle n (csub (N v) (N w)) (K * x).
  Lemma N_bound v : vle n (csub v c) rho -> vle n (N v) Kn.
  Proof.
    intros H. apply (vle_ext n (cadd (N c) (csub (N v) (N c)))); [intros i _; unfold cadd, csub; ring|].
    apply vle_add; [exact HNc|]. apply Hlip; [lra|exact H| |exact H].
    apply (vle_mono n _ 0); [apply vle_eq_0; reflexivity|lra].
  Qed.

  Lemma ocomb_bound B x : 0 <= B -> 0 <= x -> forall os ns, Forall (fun o => opn n o B) os -> Forall (fun v => vle n v x) ns ->
    vle n (ocomb os ns) (INR (length os) * (B * x)).
  Proof.
    intros HB Hx. assert (P : 0 <= B * x) by (apply Rmult_le_pos; assumption).
    induction os as [|o os IH]; intros ns Ho Hn; [cbn; apply vle_zero; lra|].
    assert (Q := pos_INR (length os)).
    destruct ns as [|v ns].
    - cbn [ocomb]. apply (vle_zero n). apply Rmult_le_pos; [apply pos_INR|exact P].
    - cbn [ocomb length]. rewrite S_INR. inversion Ho; subst. inversion Hn; subst.
      apply (vle_mono n _ (B * x + INR (length os) * (B * x))); [|lra].
      apply vle_add; [apply H1; assumption|apply IH; assumption].
  Qed.
  Lemma ocomb_diff B eps x d : 0 <= B -> 0 <= eps -> 0 <= x -> 0 <= d -> forall os os' ns ns',
    Forall2 (coef n B eps) os os' -> Forall2 (fun v v' => vle n v' x /\ vle n (csub v v') d) ns ns' ->
    vle n (csub (ocomb os ns) (ocomb os' ns')) (INR (length os) * (B * d + eps * x)).
  Proof.
    intros HB He Hx Hd. assert (P : 0 <= B * d) by (apply Rmult_le_pos; assumption). assert (P' : 0 <= eps * x) by (apply Rmult_le_pos; assumption).
    assert (Z : forall k, vle n (csub (fun _ => RtoC 0) (fun _ => RtoC 0)) (INR k * (B * d + eps * x))).
    { intros k. apply (vle_mono n _ 0); [apply vle_eq_0; reflexivity|]. apply Rmult_le_pos; [apply pos_INR|lra]. }
    induction os as [|o os IH]; intros os' ns ns' Ho Hn; inversion Ho; subst.
    - cbn [ocomb]. apply Z.
    - destruct Hn as [|v v' ns ns' [Hv1 Hv2] Hn]; [cbn [ocomb]; apply Z|].
      cbn [ocomb length]. rewrite S_INR. destruct H1 as (L1 & L2 & L3).
      apply (vle_ext n (cadd (cadd (o (csub v v')) (csub (o v') (y v'))) (csub (ocomb os ns) (ocomb l' ns')))).
      + intros i Hi. unfold cadd. rewrite (rl_sub n o v v' L1 i Hi). unfold csub. ring.
      + apply (vle_mono n _ ((B * d + eps * x) + INR (length os) * (B * d + eps * x))); [|lra].
        apply vle_add; [|apply IH; assumption]. apply vle_add; [apply L2; assumption|apply L3; assumption].
  Qed.

  Variables h eps : R.
  Hypothesis Hh : 0 < h.
  Hypothesis Hhm : h <= hmax.
  Hypothesis Heps : 0 <= eps <= 1.

  Lemma coef_right os os' : Forall2 (coef n A eps) os os' -> Forall (fun o => opn n o (A + 1)) os'.
  Proof.
    induction 1 as [|o o' os os' (H1 & H2 & H3) _ IH]; constructor; [|exact IH].
    intros v x Hx Hv. apply (vle_ext n (csub (o v) (csub (o v) (o' v)))); [intros i _; unfold csub; ring|].
    apply (vle_mono n _ (A * x + eps * x)); [apply vle_sub; [apply H2|apply H3]; assumption|].
    assert (0 <= (1 - eps) * x) by (apply Rmult_le_pos; lra). lra.
  Qed.
  Lemma coef_left os os' : Forall2 (coef n A eps) os os' -> Forall (fun o => opn n o (A + 1)) os.
  Proof.
    induction 1 as [|o o' os os' (H1 & H2 & H3) _ IH]; constructor; [|exact IH]. apply (opn_mono n _ A); [exact H2|lra].
  Qed.
  (** Stage values stay in the tube. *)
  Lemma value_tube E row ns a : near_id n A h E -> Forall (fun o => opn n o (A + 1)) row -> (length row <= S)%nat ->
    Forall (fun v => vle n v Kn) ns -> vle n (csub a c) (rho / 2) -> vle n (csub (erk_value h a E row ns) c) rho.
  Proof.
    intros (HE1 & HE2) Hrow Hlen Hns Ha.
    assert (Haa : vle n a (K + rho)).
    { apply (vle_ext n (cadd c (csub a c))); [intros i _; unfold cadd, csub; ring|].
      apply (vle_mono n _ (K + rho / 2)); [apply vle_add; assumption|lra]. }
    assert (Q := ocomb_bound (A + 1) Kn ltac:(lra) Kn_pos row ns Hrow Hns).
    apply (vle_ext n (cadd (cadd (csub (E a) a) (csub a c)) (rscal h (ocomb row ns)))).
    { intros i _. unfold erk_value, cadd, csub, cscal. ring. }
    apply (vle_mono n _ ((A * h * (K + rho) + rho / 2) + Rabs h * (INR (length row) * ((A + 1) * Kn)))).
    - apply vle_add; [apply vle_add; [apply HE2; [lra|exact Haa]|exact Ha]|]. apply vle_rscal. exact Q.
    - rewrite (Rabs_pos_eq h) by lra. assert (U := hmax_use h Hh Hhm).
      assert (KP := Kn_pos). assert (P : 0 <= (A + 1) * Kn) by (apply Rmult_le_pos; lra).
      assert (I := le_INR _ _ Hlen).
      assert (V : h * (INR (length row) * ((A + 1) * Kn)) <= h * (INR S * ((A + 1) * Kn))).
      { apply Rmult_le_compat_l; [lra|]. apply Rmult_le_compat_r; assumption. }
      lra.
  Qed.
  Variables a b : cvec.
  Variable x : R.
  Hypothesis Ha : vle n (csub a c) (rho / 2).
  Hypothesis Hb : vle n (csub b c) (rho / 2).
  Hypothesis Hx : 0 <= x.
  Hypothesis Hab : vle n (csub a b) x.

  Lemma value_diff E row row' ns ns' d : near_id n A h E -> Forall2 (coef n A eps) row row' -> (length row <= S)%nat -> 0 <= d ->
    Forall2 (fun v v' => vle n v' Kn /\ vle n (csub v v') d) ns ns' ->
    vle n (csub (erk_value h a E row ns) (erk_value h b E row' ns')) ((1 + A * h) * x + h * (INR S * (A * d + eps * Kn))).
  Proof.
    intros (HE1 & HE2) Hrow Hlen Hd Hns.
    assert (Q := ocomb_diff A eps Kn d HA (proj1 Heps) Kn_pos Hd row row' ns ns' Hrow Hns).
    apply (vle_ext n (cadd (cadd (csub a b) (csub (E (csub a b)) (csub a b))) (rscal h (csub (ocomb row ns) (ocomb row' ns'))))).
    { intros i Hi. unfold erk_value, cadd. rewrite (rl_sub n E a b HE1 i Hi) || (unfold csub at 2; rewrite (rl_sub n E a b HE1 i Hi)).
      unfold csub, cscal. ring. }
    apply (vle_mono n _ ((x + A * h * x) + Rabs h * (INR (length row) * (A * d + eps * Kn)))).
    - apply vle_add; [apply vle_add; [exact Hab|apply HE2; assumption]|]. apply vle_rscal. exact Q.
    - rewrite (Rabs_pos_eq h) by lra. assert (KP := Kn_pos).
      assert (P : 0 <= A * d + eps * Kn).
      { assert (0 <= A * d) by (apply Rmult_le_pos; assumption). assert (0 <= eps * Kn) by (apply Rmult_le_pos; lra). lra. }
      assert (I := le_INR _ _ Hlen).
      assert (V : h * (INR (length row) * (A * d + eps * Kn)) <= h * (INR S * (A * d + eps * Kn))).
      { apply Rmult_le_compat_l; [lra|]. apply Rmult_le_compat_r; assumption. }
      lra.
  Qed.
  Lemma h_le_1 : h <= 1.
  Proof. unfold hmax in Hhm. assert (Y := Rmin_l 1 (rho / 2 / (A * (K + rho) + INR S * ((A + 1) * Kn) + 1))). lra. Qed.
  Lemma stages_diff : forall Es rows rows' ns ns' k, Forall (near_id n A h) Es -> Forall2 (Forall2 (coef n A eps)) rows rows' ->
    Forall (fun row => (length row <= S)%nat) rows ->
    Forall (fun v => vle n v Kn) ns ->
    Forall2 (fun v v' => vle n v' Kn /\ vle n (csub v v') (Dn k * (x + eps))) ns ns' ->
    Forall2 (fun v v' => vle n v' Kn /\ vle n (csub v v') (Dn (k + length rows) * (x + eps)))
      (erk_stages N h a Es rows ns) (erk_stages N h b Es rows' ns').
  Proof.
    induction Es as [|E Es IH]; intros rows rows' ns ns' k HE Hr Hl Hns Hd.
    - cbn [erk_stages]. eapply Forall2_weaken; [|exact Hd]. intros v v' [H1 H2]. split; [exact H1|].
      apply (vle_mono n _ (Dn k * (x + eps))); [exact H2|]. apply Rmult_le_compat_r; [lra|]. apply Dn_mono. lia.
    - destruct Hr as [|row row' rows rows' Hrow Hr].
      + cbn [erk_stages length]. rewrite Nat.add_0_r. exact Hd.
      + cbn [erk_stages length]. rewrite <- Nat.add_succ_comm. inversion HE; subst. inversion Hl; subst.
        assert (DP := Dn_pos k). assert (P : 0 <= Dn k * (x + eps)) by (apply Rmult_le_pos; lra).
        assert (Hns' : Forall (fun v => vle n v Kn) ns').
        { clear - Hd. induction Hd as [|v v' ns ns' [H1 H2] _ IH]; constructor; assumption. }
        assert (T1 := value_tube E row ns a H1 (coef_left _ _ Hrow) H3 Hns Ha).
        assert (L' : length row' = length row) by (symmetry; eapply Forall2_len; exact Hrow).
        assert (T2 := value_tube E row' ns' b H1 (coef_right _ _ Hrow) ltac:(rewrite L'; exact H3) Hns' Hb).
        assert (V := value_diff E row row' ns ns' _ H1 Hrow H3 P Hd).
        apply IH; [assumption|assumption|assumption| |].
        * apply Forall_app. split; [exact Hns|]. constructor; [apply N_bound; exact T1|constructor].
        * apply Forall2_app.
          -- eapply Forall2_weaken; [|exact Hd]. intros v v' [G1 G2]. split; [exact G1|].
             apply (vle_mono n _ (Dn k * (x + eps))); [exact G2|]. apply Rmult_le_compat_r; [lra|]. apply Dn_step.
          -- constructor; [|constructor]. split; [apply N_bound; exact T2|].
             set (z := (1 + A * h) * x + h * (INR S * (A * (Dn k * (x + eps)) + eps * Kn))) in *.
             assert (HS := pos_INR S). assert (KP := Kn_pos). assert (H1' := h_le_1).
             assert (AD : 0 <= A * Dn k) by (apply Rmult_le_pos; assumption).
             assert (Q1 : 0 <= INR S * (A * Dn k + Kn)) by (apply Rmult_le_pos; lra).
             assert (Z0 : INR S * (A * (Dn k * (x + eps)) + eps * Kn) <= INR S * (A * Dn k + Kn) * (x + eps)).
             { replace (INR S * (A * Dn k + Kn) * (x + eps)) with (INR S * (A * (Dn k * (x + eps)) + eps * Kn) + INR S * (Kn * x)) by ring.
               assert (0 <= INR S * (Kn * x)) by (apply Rmult_le_pos; [exact HS|apply Rmult_le_pos; assumption]). lra. }
             assert (Z1 : 0 <= INR S * (A * (Dn k * (x + eps)) + eps * Kn)).
             { apply Rmult_le_pos; [exact HS|]. assert (0 <= A * (Dn k * (x + eps))) by (apply Rmult_le_pos; lra).
               assert (0 <= eps * Kn) by (apply Rmult_le_pos; lra). lra. }
             assert (Zz : z <= (1 + A + INR S * (A * Dn k + Kn)) * (x + eps)).
             { unfold z. assert (A * h * x <= A * x) by (apply Rmult_le_compat_r; [exact Hx|]; rewrite <- (Rmult_1_r A) at 2; apply Rmult_le_compat_l; lra).
               assert (h * (INR S * (A * (Dn k * (x + eps)) + eps * Kn)) <= 1 * (INR S * (A * (Dn k * (x + eps)) + eps * Kn)))
                 by (apply Rmult_le_compat_r; lra).
               assert (0 <= (1 + A) * eps) by (apply Rmult_le_pos; lra). lra. }
             assert (z0 : 0 <= z).
             { unfold z. assert (0 <= A * h) by (apply Rmult_le_pos; lra). assert (0 <= (1 + A * h) * x) by (apply Rmult_le_pos; lra).
               assert (0 <= h * (INR S * (A * (Dn k * (x + eps)) + eps * Kn))) by (apply Rmult_le_pos; lra). lra. }
             apply (vle_mono n _ (K * z)); [apply Hlip; assumption|].
             cbn [Dn]. rewrite Rmult_plus_distr_r.
             assert (K * z <= K * ((1 + A + INR S * (A * Dn k + Kn)) * (x + eps))) by (apply Rmult_le_compat_l; assumption). lra.
  Qed.
  (** One step. *)
  Theorem erk_pert m m' : erk_close n A S h eps m m' ->
    vle n (csub (erk_step m N h a) (erk_step m' N h b)) ((1 + Cst * h) * x + Cst * h * eps).
  Proof.
    intros [H1 H2 H3 H4 H5 H6 H7 H8 H9]. unfold erk_step. rewrite H3, H4.
    assert (G := stages_diff (er_E m) (er_a m) (er_a m') [] [] 0 H1 H5 H8 (Forall_nil _) (Forall2_nil _)).
    cbn [Nat.add] in G. set (k := length (er_a m)) in *.
    assert (DP := Dn_pos k). assert (DK := Dn_mono k S H7). assert (P : 0 <= Dn k * (x + eps)) by (apply Rmult_le_pos; lra).
    assert (V := value_diff (er_E1 m) (er_b m) (er_b m') _ _ _ H2 H6 H9 P G).
    eapply vle_mono; [exact V|]. unfold Cst.
    assert (HS := pos_INR S). assert (KP := Kn_pos).
    assert (M1 : A * (Dn k * (x + eps)) <= A * (Dn S * (x + eps))).
    { apply Rmult_le_compat_l; [exact HA|]. apply Rmult_le_compat_r; lra. }
    assert (M2 : INR S * (A * (Dn k * (x + eps)) + eps * Kn) <= INR S * (A * (Dn S * (x + eps)) + eps * Kn)) by (apply Rmult_le_compat_l; lra).
    assert (M3 : h * (INR S * (A * (Dn k * (x + eps)) + eps * Kn)) <= h * (INR S * (A * (Dn S * (x + eps)) + eps * Kn))) by (apply Rmult_le_compat_l; lra).
    assert (R1 : 0 <= h * (INR S * Kn) * x) by (apply Rmult_le_pos; [apply Rmult_le_pos; [lra|apply Rmult_le_pos; assumption]|exact Hx]).
    assert (R2 : 0 <= A * h * eps) by (apply Rmult_le_pos; [apply Rmult_le_pos; lra|lra]).
    replace ((1 + (A + INR S * (A * Dn S + Kn)) * h) * x + (A + INR S * (A * Dn S + Kn)) * h * eps)
      with ((1 + A * h) * x + h * (INR S * (A * (Dn S * (x + eps)) + eps * Kn)) + h * (INR S * Kn) * x + A * h * eps) by ring.
    lra.
  Qed.
End Pert.
