(** * Local errors of the fifth-order methods

    Spec file: the methods of the package as tables, and the errors of their steps along smooth
    solutions, from the formal expansions. *)

From Coq Require Import ZArith List Bool Arith Reals Lra Lia QArith Qreals FunctionalExtensionality Setoid Morphisms.
From Coquelicot Require Import Complex.
From Verif Require Import CInst SpecRK SpecERK SchemeIFReal SpecPhi ContourReal SchemeETDReal ContourMatrix MatrixFlow Asym Solution Stable Converge Voc
     LocalKro MatExp ConvMethods OrderWords OrderLocal.
Import ListNotations.
Local Open Scope R_scope.

(** The integrating-factor method of a tableau. *)
Definition law_table (tb : tableau) : method :=
  mk_method (map (fun rc => mk_row (snd rc) (law_terms (snd rc) (fst rc) (tb_c tb))) (combine (tb_a tb) (tb_c tb)))
            (mk_row 1 (law_terms 1 (tb_b tb) (tb_c tb))).

(** ** phi functions of 1-D and matrix operators *)
Lemma diag_family n L T : 0 <= T -> phi_family n (dmat L) T (dexp L) (dPHI L).
Proof.
  intros HT. split; [apply dPHI_ops; exact HT| | |].
  - intros s v i Hi. rewrite (dexp_dflow n L s v i Hi). reflexivity.
  - intros k s v i Hi. unfold cadd, cscal, dmat. rewrite (mdot_diag n _ _ i Hi). unfold dPHI.
    transitivity ((RtoC (/ INR (fact k)) + RtoC s * L i * phi (S k) (RtoC s * L i)) * v i)%C; [|ring]. rewrite phi_rec. ring.
  - intros k. destruct (vle_exists n L) as (l & Hl & HL). exists (exp (T * l)). split; [left; apply exp_pos|]. intros s Hs v x Hx Hv i Hi.
    unfold dPHI. rewrite Cmod_mult. apply Rmult_le_compat; try apply Cmod_ge_0; [|apply Hv; exact Hi].
    eapply Rle_trans; [apply phi_bound|]. rewrite Cmod_mult, Cmod_R, Rabs_pos_eq by lra.
    assert (X : s * Cmod (L i) <= T * l) by (apply Rmult_le_compat; try apply Cmod_ge_0; [lra|lra|apply HL; exact Hi]).
    destruct X as [X|X]; [left; apply exp_increasing; exact X|rewrite X; lra].
Qed.
Lemma matrix_family n L T : 0 <= T -> phi_family n L T (mphi n L 0) (mPHI n L).
Proof.
  intros HT. split; [apply series_phi_ops; exact HT| | |].
  - intros s v. reflexivity.
  - intros k s v i Hi. unfold cadd, cscal, mPHI. rewrite (mdot_prod n L (mphi n L (S k) s) v i Hi).
    unfold mdot. rewrite <- csum_scal. rewrite (csum_ext n _ (fun j => RtoC (/ INR (fact k)) * (mident i j * v j) + RtoC s * mprod n L (mphi n L (S k) s) i j * v j)%C)
      by (intros j Hj; rewrite (mphi_rec n L k s i j Hi Hj); ring).
    rewrite csum_plus, csum_scal, (csum_mident n i v Hi). f_equal. apply csum_ext. intros j _. ring.
  - intros k. destruct (mphi_bound n L k T) as (B & HB & H). exists (INR n * B). split; [apply Rmult_le_pos; [apply pos_INR|exact HB]|].
    intros s Hs. unfold mPHI. apply opn_mdot; [exact HB|]. intros i j Hi Hj. apply H; [rewrite Rabs_pos_eq; lra|assumption|assumption].
Qed.

(** The method of [etd5.py] with the phi functions of [PH]. *)
Definition getd5 (n : nat) (Ex : R -> nat -> nat -> C) (PH : nat -> R -> cvec -> cvec) (h : R) : erk :=
  let E q := mflow n Ex (q * h) in let P k q := PH k (q * h) in
  etd5_method (E (1/4)) (E (1/2)) (E (3/4)) (E 1) (P 1%nat (1/4)) (P 2%nat (1/4)) (P 1%nat (1/2)) (P 2%nat (1/2)) (P 1%nat (3/4)) (P 2%nat (3/4))
    (P 1%nat 1) (P 2%nat 1) (P 3%nat 1).

Section Tables.
  Variable n : nat.
  Variable L : nat -> nat -> C.
  Variable T : R.
  Variable Ex : R -> nat -> nat -> C.
  Variable PH : nat -> R -> cvec -> cvec.
  Hypothesis HF : matflow n L Ex.
  Hypothesis HP : phi_family n L T Ex PH.
  Lemma PH_ext k s v w : 0 <= s <= T -> veq (below n) v w -> veq (below n) (PH k s v) (PH k s w).
  Proof. intros Hs. destruct (pf_bnd _ _ _ _ _ HP k) as (B & _ & H). apply (rl_ext n _ B); [apply (po_lin _ _ _ _ (pf_ops _ _ _ _ _ HP))|apply H; exact Hs]. Qed.
  Lemma PH_0 s : op_eq (below n) (PH 0%nat s) (mflow n Ex s).
  Proof.
    intros v w H i Hi. rewrite (pf_0 _ _ _ _ _ HP s v i Hi). unfold mflow, mdot. apply csum_ext. intros j Hj. rewrite (H j Hj). reflexivity.
  Qed.
  Lemma q14 : Q2R (1#4) = 1/4. Proof. unfold Q2R; cbn; lra. Qed.
  Lemma q12 : Q2R (1#2) = 1/2. Proof. unfold Q2R; cbn; lra. Qed.
  Lemma q34 : Q2R (3#4) = 3/4. Proof. unfold Q2R; cbn; lra. Qed.
  Lemma etd5_table_eq h : 0 < h <= T -> erk_eq (below n) (table_erk PH ETD5_table h) (getd5 n Ex PH h).
  Proof.
    intros Hh. assert (B : forall q, 0 <= q <= 1 -> 0 <= q * h <= T) by (intros q Hq; split; [apply Rmult_le_pos; lra|nra]).
    split; unfold table_erk, getd5, etd5_method, ETD5_table; cbn [er_E er_a er_E1 er_b map mt_stages mt_last r_c r_a row_E row_ops];
      unfold row_E, row_ops; cbn [r_c r_a map]; rewrite ?q14, ?q12, ?q34, ?Q2R_1, ?Q2R_0.
    - repeat constructor; try apply PH_0. intros v w H i Hi. rewrite Rmult_0_l, (PH_0 0 v w H i Hi).
      apply (flow_0 _ _ (mf_flow n L Ex HF) w i Hi).
    - repeat constructor; intros v w H i Hi; cbn [pop fold_right tp fst snd]; rewrite ?q14, ?q12, ?q34, ?Q2R_1; unfold osub; unfold oadd, oscal, ozero, cadd, cscal, czero;
        rewrite ?(PH_ext _ _ v w (B (1/4) ltac:(lra)) H i Hi), ?(PH_ext _ _ v w (B (1/2) ltac:(lra)) H i Hi),
                ?(PH_ext _ _ v w (B (3/4) ltac:(lra)) H i Hi), ?(PH_ext _ _ v w (B 1 ltac:(lra)) H i Hi);
        repeat match goal with |- context [PH ?k ?s w i] => let x := fresh "x" in set (x := PH k s w i); clearbody x; destruct x end;
        apply C_eq; cbn; unfold Q2R; cbn; lra.
    - apply PH_0.
    - repeat constructor; intros v w H i Hi; cbn [pop fold_right tp fst snd]; rewrite ?q14, ?q12, ?q34, ?Q2R_1; unfold osub; unfold oadd, oscal, ozero, cadd, cscal, czero;
        rewrite ?(PH_ext _ _ v w (B 1 ltac:(lra)) H i Hi);
        repeat match goal with |- context [PH ?k ?s w i] => let x := fresh "x" in set (x := PH k s w i); clearbody x; destruct x end;
        apply C_eq; cbn; unfold Q2R; cbn; lra.
  Qed.
  Lemma law_row_eq c cR h : Q2R c = cR -> forall qs cs,
    Forall2 (op_eq (below n)) (map (fun ts => pop PH ts h) (law_terms c qs cs)) (law_row (mflow n Ex) h cR qs cs).
  Proof.
    intros Hc qs cs. unfold law_terms, law_row. rewrite map_map. induction (combine qs cs) as [|[q c'] l IH]; cbn [map]; constructor; [|exact IH].
    cbn [fst snd]. intros v w H i Hi. destruct (Qeq_bool q 0) eqn:E.
    - apply Qeq_bool_eq in E. apply Qeq_eqR in E. rewrite Q2R_0 in E. cbn [pop fold_right]. unfold oscal, cscal, czero. rewrite E. ring.
    - cbn [pop fold_right tp fst snd]. unfold oscal, cadd, cscal, czero. rewrite (PH_0 _ v w H i Hi).
      rewrite (Qeq_eqR _ _ (Qred_correct (c - c'))), Q2R_minus, Hc. ring.
  Qed.
  Lemma law_table_eq tb h : length (tb_a tb) = length (tb_c tb) -> erk_eq (below n) (table_erk PH (law_table tb) h) (law_erk tb (mflow n Ex) h).
  Proof.
    intros Hl. split; unfold table_erk, law_table, law_erk; cbn [er_E er_a er_E1 er_b mt_stages mt_last].
    - assert (G : forall cs lc la, length la = length lc -> Forall2 (op_eq (below n))
                (map (fun r => row_E PH r h) (map (fun rc => mk_row (snd rc) (law_terms (snd rc) (fst rc) cs)) (combine la lc))) (map (fun c => mflow n Ex (Q2R c * h)) lc)).
      { intros cs. induction lc as [|c lc IH]; intros [|a la] Hla; try discriminate; [constructor|]. cbn [combine map]. constructor; [unfold row_E; cbn [r_c snd]; apply PH_0|].
        apply IH. cbn in Hla. lia. }
      apply G. exact Hl.
    - induction (combine (tb_a tb) (tb_c tb)) as [|x l IH]; cbn [map]; constructor; [|exact IH]. unfold row_ops. cbn [r_a]. apply law_row_eq. reflexivity.
    - unfold row_E. cbn [r_c]. rewrite Q2R_1. apply PH_0.
    - unfold row_ops. cbn [r_a]. apply law_row_eq. exact Q2R_1.
  Qed.
End Tables.

(** ** Local errors *)
Section Errors.
  Variables n p : nat.
  Variable L : nat -> nat -> C.
  Variable Ex : R -> nat -> nat -> C.
  Variable N : cvec -> cvec.
  Variables t0 tf rho K : R.
  Variable u : R -> cvec.
  Variable f : nat -> R -> cvec.
  Variables J J1 : R -> cvec -> cvec.
  Variable PH : nat -> R -> cvec -> cvec.
  Hypothesis HF : matflow n L Ex.
  Hypothesis HS : smooth n p L N t0 tf rho K u f J.
  Hypothesis HJ : Jsmooth n t0 tf K J J1.
  Hypothesis HP : phi_family n L (tf - t0) Ex PH.
  Notation O := (bigO n R (adm t0 tf)).
  Notation ex := (ex n p L t0 tf f J J1).
  Let HN := so_N _ _ _ _ _ _ _ _ _ _ _ HS.

  Lemma etd5_ex D : (D <= p)%nat ->
    ex (snd (flocal D ETD5_table)) (fun t h => csub (erk_step (getd5 n Ex PH h) N h (u t)) (u (t + h))) (fst (flocal D ETD5_table)).
  Proof.
    intros HD. assert (X := table_local n p L Ex N t0 tf rho K u f J J1 PH HF HS HJ HP D ETD5_table HD eq_refl).
    eapply ex_ext; [|exact X]. intros t h (A1 & A2 & A3) i Hi. unfold csub. f_equal.
    apply (erk_step_ext (below n) N HN _ _ h (u t) (u t) (etd5_table_eq n L (tf - t0) Ex PH HF HP h ltac:(lra))); [reflexivity|exact Hi].
  Qed.
  Theorem etd5_local : (4 <= p)%nat -> O 5 (fun t h => csub (erk_step (getd5 n Ex PH h) N h (u t)) (u (t + h))).
  Proof.
    intros H4. assert (X := etd5_ex 4 H4). assert (E : flocal 4 ETD5_table = ([], 4%nat)) by (vm_compute; reflexivity). rewrite E in X. cbn [fst snd] in X.
    eapply O_ext; [|exact X]. intros t h _ i _. rewrite fval_nil. unfold csub, czero. ring.
  Qed.
  (** The term of order five. *)
  Lemma etd5_term : (5 <= p)%nat ->
    O 6 (fun t h => csub (csub (erk_step (getd5 n Ex PH h) N h (u t)) (u (t + h)))
      (rscal (h ^ 5) (cadd (rscal (/ 34560) (csub (J t (mdot n L (f 2%nat t))) (mdot n L (J t (f 2%nat t)))))
                           (rscal (/ 17280) (csub (J t (mdot n L (J t (f 1%nat t)))) (mdot n L (J t (J t (f 1%nat t))))))))).
  Proof.
    intros H5. assert (X := etd5_ex 5 H5).
    assert (E : flocal 5 ETD5_table = ([((-1#34560)%Q, ([AL; AJ], 2%nat)); ((-1#17280)%Q, ([AL; AJ; AJ], 1%nat)); ((1#34560)%Q, ([AJ; AL], 2%nat)); ((1#17280)%Q, ([AJ; AL; AJ], 1%nat))], 5%nat))
      by (vm_compute; reflexivity).
    rewrite E in X. clear E. cbn [fst snd] in X. eapply O_ext; [|exact X]. intros t h _ i _. unfold csub at 1 4. f_equal. f_equal.
    rewrite !fval_cons, fval_nil. unfold tval, wval, wbase. cbn [fst snd fold_right letter_op].
    rewrite (proj2 (Nat.leb_le 2 p)), (proj2 (Nat.leb_le 1 p)) by lia. unfold wdeg. cbn [fst snd fold_right ldeg Nat.add].
    unfold cadd, cscal, csub, czero.
    replace (Q2R (-1 # 34560)) with (- / 34560) by (unfold Q2R; cbn; lra). replace (Q2R (1 # 34560)) with (/ 34560) by (unfold Q2R; cbn; lra).
    replace (Q2R (-1 # 17280)) with (- / 17280) by (unfold Q2R; cbn; lra). replace (Q2R (1 # 17280)) with (/ 17280) by (unfold Q2R; cbn; lra).
    rewrite !RtoC_mult, !RtoC_opp. ring.
  Qed.
  Theorem etd5_local_commuting : (5 <= p)%nat -> (forall t v, t0 <= t <= tf -> veq (below n) (mdot n L (J t v)) (J t (mdot n L v))) ->
    O 6 (fun t h => csub (erk_step (getd5 n Ex PH h) N h (u t)) (u (t + h))).
  Proof.
    intros H5 Hc. eapply O_ext; [|exact (etd5_term H5)]. intros t h Ha i Hi. assert (Ht := adm_t t0 tf t h Ha). unfold csub at 1. unfold csub at 2 3 4. unfold cscal, cadd, csub.
    rewrite (Hc t (f 2%nat t) Ht i Hi), (Hc t (J t (f 1%nat t)) Ht i Hi). ring.
  Qed.
  (** The integrating-factor method of Dormand and Prince. *)
  Theorem dp5_local : (5 <= p)%nat -> O 6 (fun t h => csub (erk_step (law_erk DP5 (mflow n Ex) h) N h (u t)) (u (t + h))).
  Proof.
    intros H5. assert (X := table_local n p L Ex N t0 tf rho K u f J J1 PH HF HS HJ HP 5 (law_table DP5) H5 ltac:(vm_compute; reflexivity)).
    assert (E : flocal 5 (law_table DP5) = ([], 5%nat)) by (vm_compute; reflexivity). rewrite E in X. clear E. cbn [fst snd] in X.
    eapply O_ext; [|exact X]. intros t h _ i Hi. rewrite fval_nil. unfold csub, czero.
    rewrite (erk_step_ext (below n) N HN _ _ h (u t) (u t) (law_table_eq n L (tf - t0) Ex PH HP DP5 h eq_refl) (fun _ _ => eq_refl) i Hi). ring.
  Qed.
End Errors.

(** ** Approximate phi functions *)
Section Close.
  Variable n : nat.
  Ltac ar := repeat match goal with H : context [Rabs ?c] |- _ => first [rewrite (Rabs_pos_eq c) in H by lra | rewrite (Rabs_left c) in H by lra] end.
  Ltac cf := match goal with
    | H : coef n _ _ ?P ?Q |- coef n _ _ ?P ?Q => exact H
    | |- coef n _ _ (osub _ _) _ => eapply coef_sub; cf
    | |- coef n _ _ (oadd _ _) _ => eapply coef_add; cf
    | |- coef n _ _ (oscal _ _) _ => eapply coef_scal; cf
    | |- coef n _ _ ozero _ => eapply coef_zero end.
  Ltac abs := repeat match goal with |- context [Rabs ?c] => first [rewrite (Rabs_pos_eq c) by lra | rewrite (Rabs_left c) by lra] end; lra.
  Ltac goco := eapply coef_weak; [| |cf]; abs.
  Lemma etd5_close A h e E14 E12 E34 E1 f1q f2q f1h f2h f1t f2t f1 f2 f3 g1q g2q g1h g2h g1t g2t g1 g2 g3 : 0 <= A -> 0 <= e -> 0 <= h ->
    near_id n A h E14 -> near_id n A h E12 -> near_id n A h E34 -> near_id n A h E1 ->
    coef n A e f1q g1q -> coef n A e f2q g2q -> coef n A e f1h g1h -> coef n A e f2h g2h -> coef n A e f1t g1t -> coef n A e f2t g2t ->
    coef n A e f1 g1 -> coef n A e f2 g2 -> coef n A e f3 g3 ->
    erk_close n (12 * A) 6 h (12 * e) (etd5_method E14 E12 E34 E1 f1q f2q f1h f2h f1t f2t f1 f2 f3) (etd5_method E14 E12 E34 E1 g1q g2q g1h g2h g1t g2t g1 g2 g3).
  Proof.
    intros HA He Hh N1 N2 N3 N4 C1 C2 C3 C4 C5 C6 C7 C8 C9.
    assert (P : 0 <= A * h) by (apply Rmult_le_pos; assumption).
    assert (NI : forall E, near_id n A h E -> near_id n (12 * A) h E) by (intros E [X1 X2]; split; [exact X1|]; apply (opn_mono n _ (A * h)); [exact X2|lra]).
    assert (I0 : near_id n (12 * A) h (fun v => v)).
    { split; [split; intros; reflexivity|]. intros v x Hx Hv. apply vle_mono with 0; [apply vle_eq_0; reflexivity|]. apply Rmult_le_pos; lra. }
    split; unfold etd5_method; cbn [er_E er_a er_E1 er_b]; try reflexivity; try (apply NI; assumption);
      try (cbn [length]; lia); repeat (apply Forall2_cons || apply Forall2_nil || apply Forall_cons || apply Forall_nil); try assumption; try (cbn [length]; lia); try (apply NI; assumption); goco.
  Qed.
End Close.
