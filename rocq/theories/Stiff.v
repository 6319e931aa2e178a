(** * Bounds that do not depend on the size of the linear part

    Spec file: exponential Runge-Kutta steps whose exponentials are nonexpansive. How far two such
    steps can move apart is bounded by a polynomial in [h Lam], where [Lam] is the Lipschitz
    constant of the nonlinear function; the linear part does not enter. *)

From Coq Require Import ZArith List Bool Reals Lra Lia QArith Qreals FunctionalExtensionality.
From Coquelicot Require Import Hierarchy Continuity Derive RInt RInt_analysis Complex.
From Verif Require Import CInst SpecRK SpecERK SchemeIFReal SpecPhi SpecPoly ContourReal ContourMatrix Asym Solution Stable Converge Voc SchemeETDReal.
Import ListNotations.
Local Open Scope R_scope.

(** ** phi functions in the left half plane *)
Lemma fact_inv_pos k : 0 < / INR (fact k) <= 1.
Proof.
  assert (F1 : 1 <= INR (fact k)). { change 1 with (INR 1). apply le_INR. assert (X := lt_O_fact k). lia. }
  split; [apply Rinv_0_lt_compat; lra|]. rewrite <- Rinv_1. apply Rinv_le_contravar; lra.
Qed.
Lemma exp_left (z : C) : fst z <= 0 -> Cmod (Cexp z) <= 1.
Proof. intros H. rewrite Cmod_Cexp, <- exp_0. apply exp_mono. exact H. Qed.
Lemma Re_scal (a : R) (z : C) : fst (RtoC a * z)%C = a * fst z.
Proof. cbn. ring. Qed.
Lemma phi_left k (z : C) : fst z <= 0 -> Cmod (phi k z) <= / INR (fact k).
Proof.
  intros Hz. destruct k as [|k].
  - cbn [phi fact INR]. rewrite Rinv_1. apply exp_left. exact Hz.
  - apply (Cint_norm (phi_f k z) (fun t => t ^ k / INR (fact k)) 0 1 _ _ Rle_0_1) with (2 := phi_int k z).
    + intros t Ht. unfold phi_f. rewrite Cmod_mult, Cmod_R.
      assert (P : 0 <= t ^ k / INR (fact k)).
      { apply Rmult_le_pos; [apply pow_le; lra|]. left. apply fact_inv_pos. }
      rewrite (Rabs_pos_eq _ P). rewrite <- (Rmult_1_l (t ^ k / _)) at 2. apply Rmult_le_compat_r; [exact P|].
      apply exp_left. rewrite Re_scal. assert (0 <= (1 - t) * - fst z) by (apply Rmult_le_pos; lra). lra.
    + replace (/ INR (fact (S k))) with (1 ^ S k / INR (fact (S k)) - 0 ^ S k / INR (fact (S k)))
        by (rewrite pow1, (pow_i (S k)) by lia; field; apply INR_fact_neq).
      apply (is_RInt_derive (fun t => t ^ S k / INR (fact (S k))) (fun t => t ^ k / INR (fact k))).
      * intros t _. apply pow_der.
      * intros t _. destruct k as [|k].
        -- apply (continuous_ext (fun _ => 1 / INR (fact 0))); [reflexivity|]. apply continuous_const.
        -- apply (@ex_derive_continuous _ R_NormedModule). eexists. apply pow_der.
Qed.

(** ** Operators *)
Section Ops.
  Variable n : nat.
  (** Linear and of norm at most [b]. *)
  Definition bop (b : R) (o : op) : Prop := rlinear n o /\ opn n o b /\ 0 <= b.
  Lemma bop_weak b b' o : bop b o -> b <= b' -> bop b' o.
  Proof. intros (H1 & H2 & H3) Hb. split; [exact H1|]. split; [apply (opn_mono n _ b); assumption|lra]. Qed.
  Lemma bop_scal c b o : bop b o -> bop (Rabs c * b) (oscal c o).
  Proof.
    intros (H1 & H2 & H3). split; [|split].
    - split.
      + intros v w i Hi. unfold oscal, cscal. rewrite (rl_add _ _ H1 v w i Hi). unfold cadd. ring.
      + intros x v i Hi. unfold oscal. unfold cscal at 1 3. rewrite (rl_scal _ _ H1 x v i Hi). unfold cscal. ring.
    - unfold oscal. apply opn_rscal. exact H2.
    - apply Rmult_le_pos; [apply Rabs_pos|exact H3].
  Qed.
  Lemma bop_add b b' o o' : bop b o -> bop b' o' -> bop (b + b') (oadd o o').
  Proof.
    intros (H1 & H2 & H3) (G1 & G2 & G3). split; [|split; [|lra]].
    - split.
      + intros v w i Hi. change (o (cadd v w) i + o' (cadd v w) i = (o v i + o' v i) + (o w i + o' w i))%C.
        rewrite (rl_add _ _ H1 v w i Hi), (rl_add _ _ G1 v w i Hi). unfold cadd. ring.
      + intros x v i Hi. change (o (rscal x v) i + o' (rscal x v) i = RtoC x * (o v i + o' v i))%C.
        rewrite (rl_scal _ _ H1 x v i Hi), (rl_scal _ _ G1 x v i Hi). unfold cscal. ring.
    - unfold oadd. apply opn_add; assumption.
  Qed.
  Lemma bop_sub b b' o o' : bop b o -> bop b' o' -> bop (b + b') (osub o o').
  Proof.
    intros H G. unfold osub. assert (X := bop_add _ _ _ _ H (bop_scal (-1) _ _ G)).
    replace (Rabs (-1)) with 1 in X by (rewrite Rabs_left; lra). rewrite Rmult_1_l in X. exact X.
  Qed.
  Lemma bop_zero b : 0 <= b -> bop b ozero.
  Proof.
    intros Hb. split; [split; intros; intros i _; unfold ozero, cadd, cscal; ring|]. split; [|exact Hb].
    intros v x Hx Hv i Hi. unfold ozero. rewrite Cmod_0. apply Rmult_le_pos; assumption.
  Qed.
  Lemma bop_id : bop 1 (fun v => v).
  Proof. split; [split; intros; reflexivity|]. split; [apply opn_id|lra]. Qed.
  Lemma bop_dfun h L g b : 0 <= b -> (forall i, (i < n)%nat -> Cmod (g (RtoC h * L i)%C) <= b) -> bop b (dfun h L g).
  Proof.
    intros Hb H. split; [|split; [|exact Hb]].
    - split; [intros a c i _; unfold dfun, cadd; ring|intros c a i _; unfold dfun, cscal; ring].
    - intros v x Hx Hv i Hi. unfold dfun. rewrite Cmod_mult. apply Rmult_le_compat; try apply Cmod_ge_0; [apply H|apply Hv]; exact Hi.
  Qed.
  Lemma bop_diff b o v w x : bop b o -> 0 <= x -> vle n (csub v w) x -> vle n (csub (o v) (o w)) (b * x).
  Proof.
    intros (H1 & H2 & _) Hx H. eapply vle_ext; [|apply (H2 _ x Hx H)]. apply rl_sub. exact H1.
  Qed.

  (** ** Amplification *)
  (** [sum_j b_j g_j]. *)
  Fixpoint rdot (bs gs : list R) : R :=
    match bs, gs with b :: bs, g :: gs => b * g + rdot bs gs | _, _ => 0 end.
  Fixpoint amp_stages (x : R) (rows : list (list R)) (gs : list R) : list R :=
    match rows with
    | [] => gs
    | row :: rows => amp_stages x rows (gs ++ [1 + x * rdot row gs])
    end.
  Definition amp (rows : list (list R)) (bs : list R) (x : R) : R := 1 + x * rdot bs (amp_stages x rows []).

  (** Bounds on the coefficients of a method. *)
  Record bounded (rows : list (list R)) (bs : list R) (m : erk) : Prop := {
    bd_E : Forall (bop 1) (er_E m);
    bd_E1 : bop 1 (er_E1 m);
    bd_len : length (er_E m) = length (er_a m);
    bd_a : Forall2 (Forall2 bop) rows (er_a m);
    bd_b : Forall2 bop bs (er_b m) }.

  Section Diff.
    Variables N N' : cvec -> cvec.
    Variables Lam mu h d : R.
    Hypothesis HLam : 0 <= Lam.
    Hypothesis Hmu : 0 <= mu.
    Hypothesis Hh : 0 <= h.
    Hypothesis Hd : 0 <= d.
    (** [Pw], [Qw]: what is known of the arguments and values of [N'] in the second step. *)
    Variables Pw Qw : cvec -> Prop.
    Hypothesis HN : forall v w x, 0 <= x -> Pw w -> vle n (csub v w) x -> vle n (csub (N v) (N' w)) (Lam * (x + mu)).
    Variables v w : cvec.
    Hypothesis Hvw : vle n (csub v w) d.
    Hypothesis HP : forall E bs os ns, bop 1 E -> Forall2 bop bs os -> Forall Qw ns -> Pw (erk_value h w E os ns).
    Hypothesis HQ : forall a, Pw a -> Qw (N' a).
    Notation y := (d + mu).
    (** Stage values of the two steps are [g] times as far apart as their starting values. *)
    Definition apart (g : R) (a b : cvec) : Prop := 0 <= g /\ vle n (csub a b) (Lam * (g * y)).

    Lemma rdot_nonneg bs gs : Forall (fun b => 0 <= b) bs -> Forall (fun g => 0 <= g) gs -> 0 <= rdot bs gs.
    Proof.
      intros Hb. revert gs. induction Hb as [|b bs Hb0 Hb IH]; intros gs Hg; [cbn; lra|]. destruct Hg as [|g gs Hg0 Hg]; [cbn; lra|].
      cbn [rdot]. assert (0 <= b * g) by (apply Rmult_le_pos; assumption). specialize (IH gs Hg). lra.
    Qed.
    Lemma bops_nonneg bs os : Forall2 bop bs os -> Forall (fun b => 0 <= b) bs.
    Proof. induction 1 as [|b o bs os (_ & _ & H) _ IH]; constructor; assumption. Qed.

    Inductive pairs : list R -> list cvec -> list cvec -> Prop :=
      | pairs_nil : pairs [] [] []
      | pairs_cons g a b gs ns ns' : apart g a b -> Qw b -> pairs gs ns ns' -> pairs (g :: gs) (a :: ns) (b :: ns').
    Lemma pairs_app gs ns ns' g a b : pairs gs ns ns' -> apart g a b -> Qw b -> pairs (gs ++ [g]) (ns ++ [a]) (ns' ++ [b]).
    Proof. induction 1; intros Hg Hq; cbn; constructor; auto. constructor. Qed.
    Lemma pairs_second gs ns ns' : pairs gs ns ns' -> Forall Qw ns'.
    Proof. induction 1; constructor; assumption. Qed.
    Lemma pairs_nonneg gs ns ns' : pairs gs ns ns' -> Forall (fun g => 0 <= g) gs.
    Proof. induction 1 as [|g a b gs ns ns' [H _] _ _ IH]; constructor; assumption. Qed.

    Lemma comb_apart bs os gs ns ns' : Forall2 bop bs os -> pairs gs ns ns' ->
      vle n (csub (ocomb os ns) (ocomb os ns')) (Lam * (rdot bs gs * y)).
    Proof.
      intros Ho. revert gs ns ns'. induction Ho as [|b o bs os Hb Ho IH]; intros gs ns ns' Hp.
      - cbn. apply (vle_mono n _ 0); [apply vle_eq_0; reflexivity|]. rewrite Rmult_0_l, Rmult_0_r. lra.
      - destruct Hp as [|g a c gs ns ns' [Hg Ha] _ Hp].
        + cbn. apply (vle_mono n _ 0); [apply vle_eq_0; reflexivity|]. rewrite Rmult_0_l, Rmult_0_r. lra.
        + cbn [ocomb rdot].
          apply (vle_ext n (cadd (csub (o a) (o c)) (csub (ocomb os ns) (ocomb os ns')))); [intros i _; unfold cadd, csub; ring|].
          replace (Lam * ((b * g + rdot bs gs) * y)) with (b * (Lam * (g * y)) + Lam * (rdot bs gs * y)) by ring.
          apply vle_add; [|apply IH; exact Hp]. apply bop_diff; [exact Hb| |exact Ha].
          apply Rmult_le_pos; [exact HLam|]. apply Rmult_le_pos; lra.
    Qed.
    Lemma value_apart E bs os gs ns ns' : bop 1 E -> Forall2 bop bs os -> pairs gs ns ns' ->
      vle n (csub (erk_value h v E os ns) (erk_value h w E os ns')) (d + h * Lam * rdot bs gs * y).
    Proof.
      intros HE Ho Hp. unfold erk_value.
      apply (vle_ext n (cadd (csub (E v) (E w)) (rscal h (csub (ocomb os ns) (ocomb os ns'))))).
      - intros i _. unfold cadd, csub, cscal. ring.
      - apply vle_add.
        + apply (vle_mono n _ (1 * d)); [|lra]. apply bop_diff; assumption.
        + replace (h * Lam * rdot bs gs * y) with (Rabs h * (Lam * (rdot bs gs * y))) by (rewrite Rabs_pos_eq by exact Hh; ring).
          apply vle_rscal. apply comb_apart; assumption.
    Qed.
    Lemma stages_apart : forall Es rows os gs ns ns', Forall (bop 1) Es -> length Es = length os -> Forall2 (Forall2 bop) rows os ->
      pairs gs ns ns' -> pairs (amp_stages (h * Lam) rows gs) (erk_stages N h v Es os ns) (erk_stages N' h w Es os ns').
    Proof.
      induction Es as [|E Es IH]; intros rows os gs ns ns' HE Hl Hr Hp; destruct os as [|o os]; try discriminate Hl.
      - inversion Hr; subst. exact Hp.
      - inversion Hr as [|row ? rows' ? Hrow Hr']; subst. inversion HE; subst. cbn [erk_stages amp_stages].
        assert (HPw : Pw (erk_value h w E o ns')) by (apply (HP E row o); [assumption|exact Hrow|apply (pairs_second _ _ _ Hp)]).
        apply IH; [assumption|injection Hl; auto|exact Hr'|]. apply pairs_app; [exact Hp| |apply HQ; exact HPw].
        assert (P := rdot_nonneg row gs (bops_nonneg row o Hrow) (pairs_nonneg _ _ _ Hp)).
        assert (Q : 0 <= h * Lam * rdot row gs) by (apply Rmult_le_pos; [apply Rmult_le_pos; assumption|exact P]).
        split; [lra|]. assert (Q' : 0 <= h * Lam * rdot row gs * y) by (apply Rmult_le_pos; lra).
        replace (Lam * ((1 + h * Lam * rdot row gs) * y)) with (Lam * (d + h * Lam * rdot row gs * y + mu)) by ring.
        apply HN; [lra|exact HPw|]. apply value_apart; assumption.
    Qed.
    (** Two steps with nonlinear functions that are within [Lam (x + mu)] of each other. *)
    Theorem step_apart rows bs m : bounded rows bs m ->
      vle n (csub (erk_step m N h v) (erk_step m N' h w)) (amp rows bs (h * Lam) * (d + mu) - mu).
    Proof.
      intros [H1 H2 H3 H4 H5]. unfold erk_step. eapply vle_mono; [apply (value_apart _ bs _ (amp_stages (h * Lam) rows [])); [exact H2|exact H5|]|].
      - apply stages_apart; try assumption. constructor.
      - unfold amp. right. ring.
    Qed.
  End Diff.

  (** A step with [N = 0] from [0] stays there. *)
  Lemma comb_zero bs os ns : Forall2 bop bs os -> Forall (fun c => c = czero) ns -> vle n (ocomb os ns) 0.
  Proof.
    intros Ho. revert ns. induction Ho as [|b o bs os (_ & Hb & _) Ho IH]; intros ns Hn; [cbn; apply (vle_zero n); lra|].
    destruct Hn as [|c ns -> Hn]; [cbn; apply (vle_zero n); lra|]. cbn [ocomb]. apply (vle_mono n _ (b * 0 + 0)); [|lra].
    apply vle_add; [apply Hb; [lra|apply vle_zero; lra]|apply IH; exact Hn].
  Qed.
  Lemma step_zero rows bs m h : bounded rows bs m -> 0 <= h -> vle n (erk_step m (fun _ => czero) h czero) 0.
  Proof.
    intros HB Hh. destruct HB as [H1 H2 H3 H4 H5].
    assert (Z : forall Es os ns, Forall (fun c => c = czero) ns -> Forall (fun c => c = czero) (erk_stages (fun _ => czero) h czero Es os ns)).
    { induction Es as [|E Es IH]; intros os ns Hn; [exact Hn|]. destruct os as [|o os]; [exact Hn|]. cbn [erk_stages]. apply IH.
      apply Forall_app. split; [exact Hn|]. constructor; [reflexivity|constructor]. }
    unfold erk_step, erk_value. apply (vle_mono n _ (1 * 0 + Rabs h * 0)); [|lra]. apply vle_add.
    - apply H2; [lra|apply vle_zero; lra].
    - apply vle_rscal. apply (comb_zero bs); [exact H5|]. apply Z. constructor.
  Qed.
  Lemma step_lipschitz N N' Lam mu h v w d rows bs m : 0 <= Lam -> 0 <= mu -> 0 <= h -> 0 <= d ->
    (forall v w x, 0 <= x -> vle n (csub v w) x -> vle n (csub (N v) (N' w)) (Lam * (x + mu))) -> vle n (csub v w) d -> bounded rows bs m ->
    vle n (csub (erk_step m N h v) (erk_step m N' h w)) (amp rows bs (h * Lam) * (d + mu) - mu).
  Proof.
    intros HL Hmu Hh Hd HN Hv HB. apply (step_apart N N' Lam mu h d HL Hmu Hh Hd (fun _ => True) (fun _ => True)); auto.
  Qed.
  Lemma step_growth N Lam mu h v d rows bs m : 0 <= Lam -> 0 <= mu -> 0 <= h -> 0 <= d ->
    (forall v x, 0 <= x -> vle n v x -> vle n (N v) (Lam * (x + mu))) -> vle n v d -> bounded rows bs m ->
    vle n (erk_step m N h v) (amp rows bs (h * Lam) * (d + mu) - mu).
  Proof.
    intros HL Hmu Hh Hd HN Hv HB.
    apply (vle_ext n (cadd (csub (erk_step m N h v) (erk_step m (fun _ => czero) h czero)) (erk_step m (fun _ => czero) h czero))).
    { intros i _. unfold cadd, csub. ring. }
    replace (amp rows bs (h * Lam) * (d + mu) - mu) with (amp rows bs (h * Lam) * (d + mu) - mu + 0) by ring.
    apply vle_add; [|apply (step_zero rows bs m h HB Hh)].
    assert (E : forall a b x, vle n b 0 -> vle n (csub a b) x -> vle n a x).
    { intros a b x Hb Ha i Hi. specialize (Hb i Hi). specialize (Ha i Hi). unfold csub in Ha.
      assert (Zb : b i = RtoC 0) by (apply Cmod_eq_0; assert (X := Cmod_ge_0 (b i)); lra). rewrite Zb in Ha. replace (a i - 0)%C with (a i) in Ha by ring. exact Ha. }
    apply (step_apart N (fun _ => czero) Lam mu h d HL Hmu Hh Hd (fun w => vle n w 0) (fun w => w = czero)); try assumption.
    - intros a b x Hx Hb Hab. apply (vle_ext n (N a)); [intros i _; unfold csub, czero; ring|]. apply HN; [exact Hx|]. apply (E a b); assumption.
    - apply (vle_ext n v); [intros i _; unfold csub, czero; ring|exact Hv].
    - intros P cs os ns HE Ho Hn. unfold erk_value. apply (vle_mono n _ (1 * 0 + Rabs h * 0)); [|lra]. apply vle_add.
      + apply HE; [lra|apply vle_zero; lra].
      + apply vle_rscal. apply (comb_zero cs); assumption.
    - intros; reflexivity.
  Qed.
End Ops.

(** ** The methods of the package *)
Ltac bop_bound := eapply bop_weak; [repeat first [eassumption | apply bop_scal | apply bop_add | apply bop_sub | apply bop_zero; apply Rle_refl]
                                   | repeat (match goal with |- context [Rabs ?c] => first [rewrite (Rabs_pos_eq c) by lra | rewrite (Rabs_left c) by lra] end); lra].
Lemma exp_7 y : 0 <= y -> 1 + y + y ^ 2 / 2 + y ^ 3 / 6 + y ^ 4 / 24 + y ^ 5 / 120 + y ^ 6 / 720 <= exp y.
Proof.
  intros Hy. eapply Rle_trans; [|apply (exp_partial y 7 Hy)]. cbn [sumf]. right.
  assert (F : forall k z, Z.of_nat (fact k) = z -> INR (fact k) = IZR z) by (intros k z <-; apply INR_IZR_INZ).
  rewrite (F 0%nat 1%Z), (F 1%nat 1%Z), (F 2%nat 2%Z), (F 3%nat 6%Z), (F 4%nat 24%Z), (F 5%nat 120%Z), (F 6%nat 720%Z) by reflexivity. cbn [pow]. field.
Qed.
Ltac poly_exp x c :=
  let H := fresh in
  assert (H : forall k, 0 <= x ^ k) by (intros; apply pow_le; assumption);
  eapply Rle_trans; [|apply (exp_7 (c * x) ltac:(lra))];
  cbn [amp_stages rdot app];
  pose proof (H 2%nat); pose proof (H 3%nat); pose proof (H 4%nat); pose proof (H 5%nat); pose proof (H 6%nat); cbn [pow] in *; lra.

Section Methods.
  Variable n : nat.
  Variable Ex : R -> op.
  Hypothesis HEx : forall t, 0 <= t -> bop n 1 (Ex t).
  Variable h : R.
  Hypothesis Hh : 0 <= h.

  Lemma law_coef (q : Q) b t : Rabs (Q2R q) <= b -> 0 <= t -> bop n b (oscal (Q2R q) (Ex t)).
  Proof. intros Hb Ht. eapply bop_weak; [apply bop_scal, HEx; exact Ht|lra]. Qed.
  Ltac law_goal := first
    [ apply HEx; unfold Q2R; cbn [Qnum Qden]; apply Rmult_le_pos; [lra|exact Hh]
    | apply law_coef; unfold Q2R; cbn [Qnum Qden]; [unfold Rabs; destruct (Rcase_abs _); lra|apply Rmult_le_pos; [lra|exact Hh]] ].
  Ltac law_bounds := unfold law_erk; cbn [tb_a tb_b tb_c er_E er_a er_E1 er_b map combine law_row fst snd]; unfold law_row; cbn [combine map fst snd];
    split; cbn [er_E er_a er_E1 er_b map combine length fst snd]; try reflexivity;
    repeat (apply Forall_cons || apply Forall_nil || apply Forall2_cons || apply Forall2_nil); law_goal.

  Definition rk4_rows : list (list R) := [[]; [1/2]; [0; 1/2]; [0; 0; 1]].
  Definition rk4_bs : list R := [1/6; 1/3; 1/3; 1/6].
  Lemma rk4_bounded : bounded n rk4_rows rk4_bs (law_erk RK4 Ex h).
  Proof. unfold RK4, rk4_rows, rk4_bs. law_bounds. Qed.
  Definition rk4f_rows : list (list R) := rk4_rows ++ [rk4_bs].
  Lemma rk4f_bounded : bounded n rk4f_rows (rk4_bs ++ [0]) (law_erk RK4_fsal Ex h).
  Proof. unfold RK4_fsal, rk4f_rows, rk4_rows, rk4_bs. cbn [app]. law_bounds. Qed.
  Definition dp_rows : list (list R) :=
    [[]; [0.2]; [0.08; 0.23]; [0.98; 3.74; 3.56]; [2.96; 11.6; 9.83; 0.3]; [2.85; 10.76; 8.91; 0.28; 0.28]; [0.1; 0; 0.45; 0.66; 0.33; 0.14]].
  Definition dp_bs : list R := [0.1; 0; 0.45; 0.66; 0.33; 0.14; 0].
  Lemma dp_bounded : bounded n dp_rows dp_bs (law_erk DP5 Ex h).
  Proof. unfold DP5, dp_rows, dp_bs. law_bounds. Qed.

  (** Bounds on approximate phi functions: [1/k! + 1/6]. *)
  Definition kro_rows : list (list R) := [[]; [7/12]; [5/4; 2/3]; [5/2; 0; 4/3]].
  Definition kro_bs : list R := [9/2; 8/3; 8/3; 2].
  Lemma kro_bounded E12 E1 f1h f2h f1 f2 f3 : bop n 1 E12 -> bop n 1 E1 -> bop n (7/6) f1h -> bop n (2/3) f2h -> bop n (7/6) f1 -> bop n (2/3) f2 -> bop n (1/3) f3 ->
    bounded n kro_rows kro_bs (krogstad E12 E1 f1h f2h f1 f2 f3).
  Proof.
    intros A1 A2 B1 B2 B3 B4 B5. split; unfold krogstad, kro_rows, kro_bs; cbn [er_E er_a er_E1 er_b length]; try reflexivity;
      repeat (apply Forall_cons || apply Forall_nil || apply Forall2_cons || apply Forall2_nil);
      try (apply bop_id); try assumption; bop_bound.
  Qed.
  Definition etd5_rows : list (list R) :=
    [[]; [7/24]; [11/24; 1/6]; [5/4; 0; 2/3]; [13/8; 7/16; 7/16; 3/4]; [4.02; 4/3; 8.77; 2; 2.93]].
  Definition etd5_bs : list R := [3.9; 0; 1.64; 5.27; 1.28; 2.63].
  Lemma etd5_bounded E14 E12 E34 E1 f1q f2q f1h f2h f1t f2t f1 f2 f3 :
    bop n 1 E14 -> bop n 1 E12 -> bop n 1 E34 -> bop n 1 E1 -> bop n (7/6) f1q -> bop n (2/3) f2q -> bop n (7/6) f1h -> bop n (2/3) f2h -> bop n (7/6) f1t -> bop n (2/3) f2t ->
    bop n (7/6) f1 -> bop n (2/3) f2 -> bop n (1/3) f3 ->
    bounded n etd5_rows etd5_bs (etd5_method E14 E12 E34 E1 f1q f2q f1h f2h f1t f2t f1 f2 f3).
  Proof.
    intros A1 A2 A3 A4 B1 B2 B3 B4 B5 B6 B7 B8 B9. split; unfold etd5_method, etd5_rows, etd5_bs; cbn [er_E er_a er_E1 er_b length]; try reflexivity;
      repeat (apply Forall_cons || apply Forall_nil || apply Forall2_cons || apply Forall2_nil);
      try (apply bop_id); try assumption; bop_bound.
  Qed.
End Methods.

(** Their amplification is that of an exponential. *)
Lemma amp_rk4 x : 0 <= x -> amp rk4_rows rk4_bs x <= exp x.
Proof. intros Hx. rewrite <- (Rmult_1_l x) at 2. unfold rk4_rows, rk4_bs, amp. poly_exp x 1. Qed.
Lemma amp_rk4f x : 0 <= x -> amp rk4f_rows (rk4_bs ++ [0]) x <= exp x.
Proof. intros Hx. rewrite <- (Rmult_1_l x) at 2. unfold rk4f_rows, rk4_rows, rk4_bs, amp. cbn [app]. poly_exp x 1. Qed.
Lemma amp_dp x : 0 <= x -> amp dp_rows dp_bs x <= exp (6 * x).
Proof. intros Hx. unfold dp_rows, dp_bs, amp. poly_exp x 6. Qed.
Lemma amp_kro x : 0 <= x -> amp kro_rows kro_bs x <= exp (12 * x).
Proof. intros Hx. unfold kro_rows, kro_bs, amp. poly_exp x 12. Qed.
Lemma amp_etd5 x : 0 <= x -> amp etd5_rows etd5_bs x <= exp (15 * x).
Proof. intros Hx. unfold etd5_rows, etd5_bs, amp. poly_exp x 15. Qed.
