(** * C81: runs of the contour strategies for matrices in rounded arithmetic

    ETD4, ETD34, ETD5 and ETD35 with a matrix linear part and contour sums of inverses ([diag=False]), over an arithmetic with relative
    errors and underflow errors of size [eps] ([Rounding.v]). Matrix exponentials and inverses come from library routines: the exponentials are
    within a multiple of [eps] of exact ones, the inverses obey the usual bound with the condition number ([inv_near]). The nodes of the
    contour, the functions [psi] at the nodes, the sums over the contour, the coefficients and the stages are rounded. *)

From Coq Require Import ZArith List Bool Reals Lra Lia FunctionalExtensionality QArith Qreals Setoid Morphisms.
From Coquelicot Require Import Complex.
From Verif Require Import Scalars Control ControlCS ControlCSReal ControlAS ControlASReal ControlSim ControlSound PropsControl Arrays SchemeBase
     SchemeIF SchemeETD4 SchemeETD5 Solvers SchemeFacts SchemeSound SchemeFamily SchemePartial SchemeForm CInst SpecRK
     SchemeIFReal PropsCache PropsIF SpecPhi SpecPoly ContourReal SpecERK SchemeETDReal SchemeETDCoefs PropsPsi PropsETD
     PropsLinear ContourMatrix MatrixFlow PropsMatrix Asym Solution LocalRK4 Stable Converge Voc LocalKro MatExp ConvRuns ConvMethods PropsConverge
     OrderWords OrderLocal OrderMethods PropsOrder5 Estimate Rounding RoundingB64 RoundingETD PropsRounding PropsRoundingETD RoundingMat PropsRoundingMat
     Neumann RoundingMatETD.
Import ListNotations.
Local Open Scope R_scope.

(** An exact problem: matrix exponentials are sums of their series, inverses are exact where they are needed. *)
Definition full_problem (n : nat) (L : cmat) (cfg : etdcfg Rops) : problem Cops unit :=
  mk_problem (A := Cops) (fun v w => (inr v, w)) n (fun _ => RtoC 0) L cfg (fun M => inr (mexp n M)) (find_inv n cfg (contour_points cfg))
    (fun _ _ => RtoC 0) (fun _ _ => RtoC 0) (fun _ => RtoC 0).
(** What is claimed: [C], [r0] depend on the equation and the solution; for every contour and every radius [x] up to half of the
    contour's there are bounds on step, precision and exponent range. *)
Definition full_claim (n : nat) (L : cmat) (N : cvec -> cvec) (t0 t1 rho : R) (u : R -> cvec) (kap : R) (p : nat) (k : cs_kind) (k' : as_kind) (c : R) : Prop :=
  exists C r0, 0 <= C /\ 0 < r0 /\
  forall (cfg : etdcfg Rops) x, 0 < contour_radius cfg -> (0 < contour_points cfg)%nat -> 0 < x <= contour_radius cfg / 2 ->
  exists B h0 e0 O0, 0 <= B /\ 0 < h0 /\ 0 < e0 /\
    forall a eps Om, rounds a eps Om -> 0 <= eps <= e0 -> O0 <= Om ->
    forall W (pr : problem (Fops a) W) Nf, p_cfg pr = cfg -> p_size pr = n -> (forall v w y w', p_nl pr v w = (inr y, w') -> y = Nf v) ->
      computes_near n u N t0 t1 rho kap eps Nf -> mle n (mdiff (p_mat pr) L) (kap * eps) -> expm_near n kap eps (p_expm pr) -> inv_near n kap eps Om (p_inv pr) ->
      cs_rclaim n t0 t1 u p C h0 r0 pr k (c * merr cfg x) (B * eps) /\ as_rclaim n t0 t1 u p C h0 r0 pr k' (c * merr cfg x) (B * eps).

Section FullExact.
  Variable n : nat.
  Variable L : cmat.
  Variable cfg : etdcfg Rops.
  Hypothesis Hr : 0 < contour_radius cfg.
  Hypothesis HM : (0 < contour_points cfg)%nat.
  Notation p0 := (full_problem n L cfg).
  Lemma full_exp : exp_series p0.
  Proof. intros m e E. cbn [p_expm full_problem] in E. assert (X : mexp n m = e) by congruence. rewrite <- X. apply mexp_psi. Qed.
  Lemma full_inv : inv_ok p0.
  Proof. intros m e E. exact (proj1 (find_inv_spec n cfg Hr HM _ _ _ E)). Qed.
  Lemma ident_inv : is_inv n mident mident.
  Proof. split; apply mprod_ident_l. Qed.
  Lemma ident_rows i : (i < n)%nat -> rown n mident i <= 1.
  Proof. intros Hi. right. apply rown_ident. exact Hi. Qed.
  Lemma full_fits x h : 0 <= x < contour_radius cfg -> (forall i, (i < n)%nat -> rown n (scaled 1 h L) i <= x) -> fits p0 mident mident x h.
  Proof.
    intros Hx H. split; [exact HM|]. split; [apply ident_inv|]. split; [exact Hx|]. intros i Hi. cbn [p_size p_mat full_problem] in *.
    rewrite (rown_ext n _ (scaled 1 h L) i); [apply H; exact Hi| |exact Hi]. unfold simto. intros a b Ha Hb.
    rewrite (mprod_ident_l n _ a b Ha Hb). exact (mprod_ident_r n _ a b Ha Hb).
  Qed.
  Lemma scaled_mscal h : scaled 1 h L = mscal (A := Cops) h L.
  Proof. apply functional_extensionality; intros i. apply functional_extensionality; intros j. unfold scaled, mscal. cbn [emul eofT Cops]. rewrite Rmult_1_l. reflexivity. Qed.
  (** In short steps nothing raises an exception, and the steps are the closed forms. *)
  Lemma full_steps h : (forall i, (i < n)%nat -> rown n (scaled 1 h L) i <= contour_radius cfg / 2) -> forall N,
    (cs_good p0 ETD4n h /\ cs_good p0 ETD5n h) /\
    forall i : inst fulldata, i_h i = h -> cs_Phi p0 N ETD4n h (i_v i) = step4X n L N cfg i /\ cs_Phi p0 N ETD5n h (i_v i) = step5X n L N cfg i.
  Proof.
    intros Hh N. rewrite scaled_mscal in Hh.
    assert (TE : forall k, exists x, p_expm p0 (zq Cops k (mscal (A := Cops) h L)) = inr x) by (intros k; eexists; reflexivity).
    assert (TI : forall k l, (l < contour_points cfg)%nat -> exists x, p_inv p0 (zm Cops cfg k (mscal (A := Cops) h L) l) = inr x).
    { intros k l Hl. apply inverses_exist; assumption. }
    destruct (etd4n_total Cops cfg (p_inv p0) (p_expm p0) L h (cs_k0 Cops ETD4n) TE TI) as (c4 & E4).
    destruct (etd5n_total Cops cfg (p_inv p0) (p_expm p0) L h (cs_k0 Cops ETD5n) TE TI) as (c5 & E5).
    split; [split; unfold cs_good; cbn [cs_uc p_cfg p_expm p_inv p_mat full_problem]; [exact (f_equal fst E4)|exact (f_equal fst E5)]|].
    intros i Hi.
    assert (RX : forall k x, p_expm p0 (zq Cops k (mscal (A := Cops) h L)) = inr x -> eX n L i k = x).
    { intros k x E. unfold eX, zx. rewrite Hi. cbn [p_expm full_problem] in E. congruence. }
    assert (RQ : forall k l, (l < contour_points cfg)%nat -> forall x, p_inv p0 (zm Cops cfg k (mscal (A := Cops) h L) l) = inr x -> qX n L cfg i k l = x).
    { intros k l Hl x E. unfold qX, zx. rewrite Hi. cbn [p_inv full_problem] in E. rewrite E. reflexivity. }
    assert (F4 := etd4n_is Cops cfg (p_inv p0) (p_expm p0) L h _ c4 _ _ RX RQ E4). assert (F5 := etd5n_is Cops cfg (p_inv p0) (p_expm p0) L h _ c5 _ _ RX RQ E5).
    split.
    - rewrite (cs_Phi_form p0 N ETD4n h (c := c4) (i_v i) E4). unfold cs_form, step4X. rewrite Hi, F4. reflexivity.
    - rewrite (cs_Phi_form p0 N ETD5n h (c := c5) (i_v i) E5). unfold cs_form, step5X. rewrite Hi, F5. reflexivity.
  Qed.
End FullExact.

(** The rounded steps are the closed forms. *)
Lemma full_rounded {a W} (pr : problem (Fops a) W) n L Nf x h v eps Om : p_size pr = n ->
  let i := mk_inst x h v a eps Om Nf (mk_fulldata (p_mat pr) (p_expm pr) (p_inv pr)) in
  (cs_good pr ETD4n h -> cs_Phi pr Nf ETD4n h v = step4Y n L (p_cfg pr) i) /\ (as_good pr ETD34n h -> fst (as_Phi pr Nf ETD34n h v) = step4Y n L (p_cfg pr) i) /\
  (cs_good pr ETD5n h -> cs_Phi pr Nf ETD5n h v = step5Y n L (p_cfg pr) i) /\ (as_good pr ETD35n h -> fst (as_Phi pr Nf ETD35n h v) = step5Y n L (p_cfg pr) i).
Proof.
  intros En i.
  assert (RX : forall k x, p_expm pr (zq (Fops a) k (mscal (A := Fops a) h (p_mat pr))) = inr x -> eY n L i k = x).
  { intros k e E. unfold eY, or_exact, zf, i. cbn [i_L i_h i_a y_f y_L]. rewrite E. reflexivity. }
  assert (RQ : forall k l, (l < contour_points (p_cfg pr))%nat -> forall x, p_inv pr (zm (Fops a) (p_cfg pr) k (mscal (A := Fops a) h (p_mat pr)) l) = inr x -> qY n L (p_cfg pr) i k l = x).
  { intros k l Hl e E. change (match p_inv pr (zm (Fops a) (p_cfg pr) k (mscal (A := Fops a) h (p_mat pr)) l) with inr Q => Q | inl _ => qX n L (p_cfg pr) i k l end = e). rewrite E. reflexivity. }
  assert (I4 := fun c c' => etd4n_is (Fops a) (p_cfg pr) (p_inv pr) (p_expm pr) (p_mat pr) h c c' _ _ RX RQ).
  assert (I5 := fun c c' => etd5n_is (Fops a) (p_cfg pr) (p_inv pr) (p_expm pr) (p_mat pr) h c c' _ _ RX RQ).
  repeat split; intros Hg.
  - unfold cs_good in Hg. destruct (cs_uc pr ETD4n h (cs_k0 (Fops a) ETD4n)) as [r c'] eqn:U. cbn [fst] in Hg. subst r.
    rewrite (cs_Phi_form pr Nf ETD4n h v U). rewrite (I4 _ _ U). unfold cs_form, step4Y. rewrite En. reflexivity.
  - unfold as_good in Hg. destruct (as_uc pr ETD34n h (as_k0 (Fops a) ETD34n)) as [r c'] eqn:U. cbn [fst] in Hg. subst r.
    rewrite (as_Phi_form pr Nf ETD34n h v U). rewrite (I4 _ _ U). unfold as_form, step4Y. rewrite En. reflexivity.
  - unfold cs_good in Hg. destruct (cs_uc pr ETD5n h (cs_k0 (Fops a) ETD5n)) as [r c'] eqn:U. cbn [fst] in Hg. subst r.
    rewrite (cs_Phi_form pr Nf ETD5n h v U). rewrite (I5 _ _ U). unfold cs_form, step5Y. rewrite En. reflexivity.
  - unfold as_good in Hg. destruct (as_uc pr ETD35n h (as_k0 (Fops a) ETD35n)) as [r c'] eqn:U. cbn [fst] in Hg. subst r.
    rewrite (as_Phi_form pr Nf ETD35n h v U). rewrite (I5 _ _ U). unfold as_form, step5Y. rewrite En. reflexivity.
Qed.

(** ** Runs *)
Section FullRuns.
  Variables n q ord : nat.
  Variable L : cmat.
  Variable N : cvec -> cvec.
  Variables t0 t1 rho K : R.
  Variable u : R -> cvec.
  Variable f : nat -> R -> cvec.
  Variable J : R -> cvec -> cvec.
  Hypothesis Hord : (0 < ord)%nat.
  Hypothesis HS : smooth n q L N t0 t1 rho K u f J.
  Variable kap : R.
  Hypothesis Hkap : 0 <= kap.
  Variable m : R -> erk.
  Hypothesis Hloc : bigO n R (adm t0 t1) (S ord) (fun t h => csub (erk_step (m h) N h (u t)) (u (t + h))).
  Variables (A : R) (Z : nat) (c : R).
  Hypothesis HA : 0 <= A.
  Hypothesis Hc : 0 <= c.
  Variables (k : cs_kind) (k' : as_kind).
  Variables stepX stepY : etdcfg Rops -> inst fulldata -> cvec.
  Hypothesis Hok : forall cfg : etdcfg Rops, 0 < contour_radius cfg -> (0 < contour_points cfg)%nat -> Rounding.ok n (Lfull n L kap) N t0 t1 rho u kap (stepX cfg) (stepY cfg).
  Hypothesis HX : forall (cfg : etdcfg Rops) x h, 0 < contour_radius cfg -> (0 < contour_points cfg)%nat -> 0 < x <= contour_radius cfg / 2 -> 0 < h <= t1 - t0 ->
    (forall i, (i < n)%nat -> rown n (scaled 1 h L) i <= x) ->
    exists m', erk_close n A Z h (c * merr cfg x) (m h) m' /\ forall i : inst fulldata, i_h i = h -> veq (below n) (stepX cfg i) (erk_step m' N h (i_v i)).
  Hypothesis HY : forall a W (pr : problem (Fops a) W) Nf x h v eps Om, p_size pr = n ->
    let i := mk_inst x h v a eps Om Nf (mk_fulldata (p_mat pr) (p_expm pr) (p_inv pr)) in
    (cs_good pr k h -> cs_Phi pr Nf k h v = stepY (p_cfg pr) i) /\ (as_good pr k' h -> fst (as_Phi pr Nf k' h v) = stepY (p_cfg pr) i).
  Lemma full_runs : full_claim n L N t0 t1 rho u kap ord k k' c.
  Proof.
    destruct (rounded_runs n q L N t0 t1 rho K u f J HS m ord Hord Hloc A Z 1 HA ltac:(lra)) as (C & h0 & r0 & H1 & H2 & H3 & H4).
    exists C, r0. split; [exact H1|]. split; [exact H3|]. intros cfg x Hr HM Hx.
    destruct (Hok cfg Hr HM) as (B0 & B & HB0 & HB & h1 & e1 & O1 & Hh1 & He1 & HW).
    destruct (mle_exists n L) as (l & Hl & HL). assert (Pn := pos_INR n). assert (Pl : 0 <= INR n * l) by (apply Rmult_le_pos; assumption).
    set (h2 := x / (INR n * l + 1)). assert (Hh2 : 0 < h2) by (apply Rdiv_lt_0_compat; lra).
    assert (Fit : forall h, 0 < h <= h2 -> forall i, (i < n)%nat -> rown n (scaled 1 h L) i <= x).
    { intros h Hh i Hi. eapply Rle_trans; [apply (mle_rown n _ (h * l)); [|exact Hi]|].
      - intros a b Ha Hb. unfold scaled. rewrite Rmult_1_l, Cmod_mult, Cmod_R, Rabs_pos_eq by lra. apply Rmult_le_compat_l; [lra|apply HL; assumption].
      - apply Rle_trans with ((INR n * l + 1) * h2); [|unfold h2; right; field; lra]. replace (INR n * (h * l)) with (INR n * l * h) by ring. apply Rmult_le_compat; lra. }
    set (hb := Rmin h0 (Rmin h1 h2)). assert (Hb0 : 0 < hb) by (unfold hb; repeat apply Rmin_glb_lt; assumption).
    assert (Hb1 : hb <= h0) by apply Rmin_l. assert (Hb2 : hb <= h1) by (eapply Rle_trans; [apply Rmin_r|apply Rmin_l]). assert (Hb3 : hb <= h2) by (eapply Rle_trans; [apply Rmin_r|apply Rmin_r]).
    clearbody hb. exists B, hb, e1, O1. split; [exact HB|]. split; [exact Hb0|]. split; [exact He1|].
    intros a eps Om Ha Heps HO W pr Nf Ecfg En Hnl HNf HLp HE HI.
    assert (HBe : 0 <= B * eps) by (apply Rmult_le_pos; lra).
    assert (HMe : 0 <= c * merr cfg x) by (apply Rmult_le_pos; [exact Hc|apply (merr_pos cfg HM Hr x); lra]).
    assert (Step : forall h, 0 < h <= hb -> h <= t1 - t0 -> exists m', erk_close n A Z h (c * merr cfg x) (m h) m' /\
      forall y v, t0 <= y <= t1 -> vle n (csub v (u y)) (rho / 4) ->
        vle n (csub (stepY cfg (mk_inst y h v a eps Om Nf (mk_fulldata (p_mat pr) (p_expm pr) (p_inv pr)))) (erk_step m' N h v)) (1 * (B * eps))).
    { intros h Hh Hh'. destruct (HX cfg x h Hr HM Hx ltac:(lra) (Fit h ltac:(lra))) as (m' & Hm & Hst). exists m'. split; [exact Hm|]. intros y v Hy Hv. rewrite Rmult_1_l.
      set (i := mk_inst y h v a eps Om Nf (mk_fulldata (p_mat pr) (p_expm pr) (p_inv pr))).
      assert (V : valid n (Lfull n L kap) N t0 t1 rho u kap i).
      { split; cbn [i i_t i_h i_v i_a i_eps i_Om i_N i_L]; try assumption; try lra. unfold Lfull. cbn [i i_L i_eps i_Om y_L y_f y_inv]. tauto. }
      assert (Q := HW i V). cbn [i i_h i_eps i_Om] in Q. specialize (Q ltac:(lra) ltac:(lra) HO). intros j Hj. unfold csub.
      assert (Ev := Hst i eq_refl j Hj). change (i_v i) with v in Ev. rewrite <- Ev. exact (proj2 (Q j Hj)). }
    destruct (H4 a W pr Nf (c * merr cfg x) (B * eps) hb Hnl HMe HBe Hb1) as [G1 G2].
    split; [apply G1|apply G2]; intros h Hh Hh' Hg; destruct (Step h Hh Hh') as (m' & Hm & Hst); exists m'; (split; [exact Hm|]); intros y v Hy Hv;
      destruct (HY a W pr Nf y h v eps Om En) as [Y1 Y2]; rewrite Ecfg in Y1, Y2; [rewrite (Y1 Hg)|rewrite (Y2 Hg)]; exact (Hst y v Hy Hv).
  Qed.
End FullRuns.

(** ** The methods behind the exact problem *)
Section FullMethods.
  Variables n : nat.
  Variable L : cmat.
  Variable N : cvec -> cvec.
  Variable T : R.
  Hypothesis HT : 0 <= T.
  Hypothesis HN : respects (below n) N.
  Variable cfg : etdcfg Rops.
  Hypothesis Hr : 0 < contour_radius cfg.
  Hypothesis HM : (0 < contour_points cfg)%nat.
  Variables x h : R.
  Hypothesis Hx : 0 < x <= contour_radius cfg / 2.
  Hypothesis Hh : 0 < h <= T.
  Hypothesis Hz : forall i, (i < n)%nat -> rown n (scaled 1 h L) i <= x.
  Notation p0 := (full_problem n L cfg).
  Lemma e_one : 1 * (merr cfg x * 1) = merr cfg x.
  Proof. ring. Qed.
  Lemma Hmerr : 0 <= merr cfg x.
  Proof. apply (merr_pos cfg HM Hr x). lra. Qed.
  Lemma Hfit : fits p0 mident mident x h.
  Proof. apply (full_fits n L cfg HM x h); [lra|exact Hz]. Qed.
  Lemma Hhalf i : (i < n)%nat -> rown n (scaled 1 h L) i <= contour_radius cfg / 2.
  Proof. intros Hi. specialize (Hz i Hi). lra. Qed.
  Lemma near1 r P : near_psi p0 mident mident x 1 r h P -> opn n (fun v => csub (mPHI n L 1 (r * h) v) (mdot n P v)) (merr cfg x).
  Proof.
    intros HP. assert (X := near_op p0 mident mident x 1 1 Hmerr (ident_rows n) (ident_rows n) Rle_0_1 (ident_inv n) 1 r h P (mdot n P) HP). rewrite <- e_one. apply X.
    intros v i _. replace (/ INR (fact 1)) with 1 by (cbn; lra). rewrite Cmult_1_l. reflexivity.
  Qed.
  Lemma near2 r P : near_psi p0 mident mident x 2 r h P -> opn n (fun v => csub (mPHI n L 2 (r * h) v) (oscal (1/2) (mdot n P) v)) (merr cfg x).
  Proof.
    intros HP. assert (X := near_op p0 mident mident x 1 1 Hmerr (ident_rows n) (ident_rows n) Rle_0_1 (ident_inv n) 2 r h P (oscal (1/2) (mdot n P)) HP). rewrite <- e_one. apply X.
    intros v i _. unfold oscal, cscal. replace (/ INR (fact 2)) with (1/2) by (cbn; lra). reflexivity.
  Qed.
  Lemma near3 r P : near_psi p0 mident mident x 3 r h P -> opn n (fun v => csub (mPHI n L 3 (r * h) v) (oscal (1/6) (mdot n P) v)) (merr cfg x).
  Proof.
    intros HP. assert (X := near_op p0 mident mident x 1 1 Hmerr (ident_rows n) (ident_rows n) Rle_0_1 (ident_inv n) 3 r h P (oscal (1/6) (mdot n P)) HP). rewrite <- e_one. apply X.
    intros v i _. unfold oscal, cscal. replace (/ INR (fact 3)) with (1/6) by (cbn; lra). reflexivity.
  Qed.
  Lemma exp_flow r E : is_psi n 0 (scaled r h L) E -> op_eq (below n) (mdot n E) (mflow n (mphi n L 0) (r * h)).
  Proof.
    intros HE0 a b Hab i Hi. unfold mflow, mdot. apply csum_ext. intros j Hj. rewrite (Hab j Hj). f_equal.
    rewrite (psi_unique n 0 (scaled r h L) _ _ HE0 (mphi_psi n L 0 (r * h)) i j Hi Hj). unfold mtimes. cbn [fact INR]. ring.
  Qed.
  Lemma mdot_eq P : op_eq (below n) (mdot n P) (mdot n P).
  Proof. intros a b Hab i Hi. rewrite (mdot_ext_eq n P a b Hab). reflexivity. Qed.
  Lemma omdot_eq c P : op_eq (below n) (oscal c (mdot n P)) (oscal c (mdot n P)).
  Proof. intros a b Hab i Hi. unfold oscal, cscal. rewrite (mdot_eq P a b Hab i Hi). reflexivity. Qed.
  Lemma full_method4 A : (forall h e (g1h g2h g1 g2 g3 : op), 0 < h <= T -> 0 <= e ->
      let near k q (g : op) := opn n (fun v => csub (mPHI n L k (q * h) v) (g v)) e in
      near 1%nat (1/2) g1h -> near 2%nat (1/2) g2h -> near 1%nat 1 g1 -> near 2%nat 1 g2 -> near 3%nat 1 g3 ->
      erk_close n A 4 h (8 * e) (gkro n (mphi n L 0) (mPHI n L) h) (krogstad (mflow n (mphi n L 0) (1/2 * h)) (mflow n (mphi n L 0) (1 * h)) g1h g2h g1 g2 g3)) ->
    exists m', erk_close n A 4 h (8 * merr cfg x) (gkro n (mphi n L 0) (mPHI n L) h) m' /\
      forall i : inst fulldata, i_h i = h -> veq (below n) (step4X n L N cfg i) (erk_step m' N h (i_v i)).
  Proof.
    intros Hcl. destruct (full_steps n L cfg HM h Hhalf N) as [[Hg _] Hs].
    destruct (C36_matrix_operators unit p0 N h mident mident x (full_inv n L cfg Hr HM) (full_exp n L cfg) Hfit Hg) as (E12 & E1 & P1h & P2h & P1 & P2 & P3 & X1 & X2 & G1 & G2 & G3 & G4 & G5 & G6).
    cbn [p_size p_mat full_problem] in X1, X2, G6. eexists. split.
    - apply (Hcl h (merr cfg x) (mdot n P1h) (oscal (1/2) (mdot n P2h)) (mdot n P1) (oscal (1/2) (mdot n P2)) (oscal (1/6) (mdot n P3)) Hh Hmerr);
        [apply near1|apply near2|apply near1|apply near2|apply near3]; assumption.
    - intros i Hi. rewrite <- (proj1 (Hs i Hi)). rewrite (proj1 (G6 (i_v i))). apply (erk_step_ext (below n) N HN); [|reflexivity].
      apply krogstad_eq; first [apply exp_flow; assumption|apply mdot_eq|apply omdot_eq].
  Qed.
  Lemma full_method5 A : (forall h e (g1q g2q g1h g2h g1t g2t g1 g2 g3 : op), 0 < h <= T -> 0 <= e ->
      let near k q (g : op) := opn n (fun v => csub (mPHI n L k (q * h) v) (g v)) e in
      near 1%nat (1/4) g1q -> near 2%nat (1/4) g2q -> near 1%nat (1/2) g1h -> near 2%nat (1/2) g2h -> near 1%nat (3/4) g1t -> near 2%nat (3/4) g2t ->
      near 1%nat 1 g1 -> near 2%nat 1 g2 -> near 3%nat 1 g3 ->
      erk_close n A 6 h (12 * e) (getd5 n (mphi n L 0) (mPHI n L) h)
        (etd5_method (mflow n (mphi n L 0) (1/4 * h)) (mflow n (mphi n L 0) (1/2 * h)) (mflow n (mphi n L 0) (3/4 * h)) (mflow n (mphi n L 0) (1 * h)) g1q g2q g1h g2h g1t g2t g1 g2 g3)) ->
    exists m', erk_close n A 6 h (12 * merr cfg x) (getd5 n (mphi n L 0) (mPHI n L) h) m' /\
      forall i : inst fulldata, i_h i = h -> veq (below n) (step5X n L N cfg i) (erk_step m' N h (i_v i)).
  Proof.
    intros Hcl. destruct (full_steps n L cfg HM h Hhalf N) as [[_ Hg] Hs].
    destruct (C37_matrix_operators unit p0 N h mident mident x (full_inv n L cfg Hr HM) (full_exp n L cfg) Hfit Hg)
      as (E14 & E12 & E34 & E1 & P1q & P2q & P1h & P2h & P1t & P2t & P1 & P2 & P3 & X1 & X2 & X3 & X4 & G1 & G2 & G3 & G4 & G5 & G6 & G7 & G8 & G9 & G0).
    cbn [p_size p_mat full_problem] in X1, X2, X3, X4, G0. eexists. split.
    - apply (Hcl h (merr cfg x) (mdot n P1q) (oscal (1/2) (mdot n P2q)) (mdot n P1h) (oscal (1/2) (mdot n P2h)) (mdot n P1t) (oscal (1/2) (mdot n P2t))
               (mdot n P1) (oscal (1/2) (mdot n P2)) (oscal (1/6) (mdot n P3)) Hh Hmerr);
        [apply near1|apply near2|apply near1|apply near2|apply near1|apply near2|apply near1|apply near2|apply near3]; assumption.
    - intros i Hi. rewrite <- (proj2 (Hs i Hi)). rewrite (proj1 (G0 (i_v i))). apply (erk_step_ext (below n) N HN); [|reflexivity].
      apply etd5_eq; first [apply exp_flow; assumption|apply mdot_eq|apply omdot_eq].
  Qed.
End FullMethods.

(** C81 for ETD4 and ETD34. *)
Theorem C81_etd4_etd34 :
  forall n (L : cmat) N t0 t1 rho K u f J, smooth n 4 L N t0 t1 rho K u f J -> forall kap, 0 <= kap -> full_claim n L N t0 t1 rho u kap 4 ETD4n ETD34n 8.
Proof.
  intros n L N t0 t1 rho K u f J HS kap Hkap. assert (HT : 0 <= t1 - t0) by (assert (X := so_time _ _ _ _ _ _ _ _ _ _ _ HS); lra).
  assert (HF := series_is_flow n L). assert (HP := series_phi_ops n L (t1 - t0) HT). assert (HN := so_N _ _ _ _ _ _ _ _ _ _ _ HS).
  destruct (gkro_close n L (mphi n L 0) (mPHI n L) (t1 - t0) HF HP HT) as (A & HA & Hcl).
  apply (full_runs n 4 4 L N t0 t1 rho K u f J ltac:(lia) HS kap (gkro n (mphi n L 0) (mPHI n L))
    (kro_local n 4 L (mphi n L 0) N t0 t1 rho K u f J (mPHI n L) HF HS HP ltac:(lia)) A 4 8 HA ltac:(lra) ETD4n ETD34n (step4X n L N) (step4Y n L)).
  - intros cfg Hr HM. exact (proj1 (steps_ok n 4 L N t0 t1 rho K u f J HS kap Hkap cfg Hr HM)).
  - intros cfg x h Hr HM Hx Hh Hz. exact (full_method4 n L N (t1 - t0) HN cfg Hr HM x h Hx Hh Hz A Hcl).
  - intros a W pr Nf x h v eps Om En i. destruct (full_rounded pr n L Nf x h v eps Om En) as (Y1 & Y2 & _). split; assumption.
Qed.
Lemma etd5_full_runs n q ord L N t0 t1 rho K u f J : (0 < ord)%nat -> smooth n q L N t0 t1 rho K u f J ->
  bigO n R (adm t0 t1) (S ord) (fun t h => csub (erk_step (getd5 n (mphi n L 0) (mPHI n L) h) N h (u t)) (u (t + h))) ->
  forall kap, 0 <= kap -> full_claim n L N t0 t1 rho u kap ord ETD5n ETD35n 12.
Proof.
  intros Hord HS Hloc kap Hkap. assert (HT : 0 <= t1 - t0) by (assert (X := so_time _ _ _ _ _ _ _ _ _ _ _ HS); lra).
  assert (HF := series_is_flow n L). assert (HP := series_phi_ops n L (t1 - t0) HT). assert (HN := so_N _ _ _ _ _ _ _ _ _ _ _ HS).
  destruct (getd5_close n L (mphi n L 0) (mPHI n L) (t1 - t0) HF HP HT) as (A & HA & Hcl).
  apply (full_runs n q ord L N t0 t1 rho K u f J Hord HS kap (getd5 n (mphi n L 0) (mPHI n L)) Hloc A 6 12 HA ltac:(lra) ETD5n ETD35n (step5X n L N) (step5Y n L)).
  - intros cfg Hr HM. exact (proj2 (steps_ok n q L N t0 t1 rho K u f J HS kap Hkap cfg Hr HM)).
  - intros cfg x h Hr HM Hx Hh Hz. exact (full_method5 n L N (t1 - t0) HN cfg Hr HM x h Hx Hh Hz A Hcl).
  - intros a W pr Nf x h v eps Om En i. destruct (full_rounded pr n L Nf x h v eps Om En) as (_ & _ & Y1 & Y2). split; assumption.
Qed.
(** ETD5 and ETD35: order four, and five if the linear part commutes with the derivative of the nonlinear function along the solution. *)
Theorem C81_etd5_etd35 :
  forall n (L : cmat) N t0 t1 rho K u f J J1, smooth n 4 L N t0 t1 rho K u f J -> Jsmooth n t0 t1 K J J1 -> forall kap, 0 <= kap ->
  full_claim n L N t0 t1 rho u kap 4 ETD5n ETD35n 12.
Proof.
  intros n L N t0 t1 rho K u f J J1 HS HJ. assert (HT : 0 <= t1 - t0) by (assert (X := so_time _ _ _ _ _ _ _ _ _ _ _ HS); lra).
  apply (etd5_full_runs n 4 4 L N t0 t1 rho K u f J ltac:(lia) HS).
  exact (etd5_local n 4 L (mphi n L 0) N t0 t1 rho K u f J J1 (mPHI n L) (series_is_flow n L) HS HJ (matrix_family n L _ HT) ltac:(lia)).
Qed.
Theorem C81_etd5_etd35_commuting :
  forall n (L : cmat) N t0 t1 rho K u f J J1, smooth n 5 L N t0 t1 rho K u f J -> Jsmooth n t0 t1 K J J1 -> commutes n L t0 t1 J ->
  forall kap, 0 <= kap -> full_claim n L N t0 t1 rho u kap 5 ETD5n ETD35n 12.
Proof.
  intros n L N t0 t1 rho K u f J J1 HS HJ Hc. assert (HT : 0 <= t1 - t0) by (assert (X := so_time _ _ _ _ _ _ _ _ _ _ _ HS); lra).
  apply (etd5_full_runs n 5 5 L N t0 t1 rho K u f J ltac:(lia) HS).
  exact (etd5_local_commuting n 5 L (mphi n L 0) N t0 t1 rho K u f J J1 (mPHI n L) (series_is_flow n L) HS HJ (matrix_family n L _ HT) ltac:(lia) Hc).
Qed.

(** ** Not vacuous *)
Lemma fine_merr e : 0 < e -> exists M, (0 < M)%nat /\ 12 * merr (fine_cfg M) (1/2) <= e.
Proof.
  intros He. destruct (cv_speed_pow_fact 1 (e / 144)) as [M1 H1]; [lra|].
  destruct (pow_lt_1_zero (1/2) ltac:(rewrite Rabs_pos_eq; lra) (e / 288) ltac:(lra)) as [M2 H2].
  assert (Hm : exists m, (M1 <= m /\ M2 <= m)%nat) by (exists (M1 + M2)%nat; lia). destruct Hm as (m & Hm1 & Hm2). specialize (H1 m ltac:(lia)). specialize (H2 (S m) ltac:(lia)). unfold R_dist in H1. rewrite Rminus_0_r, pow1 in H1.
  assert (Pf := INR_fact_lt_0 m). assert (Pf1 := INR_fact_lt_0 (S m)). assert (Q : 0 < 1 / INR (fact m)) by (apply Rdiv_lt_0_compat; lra). rewrite Rabs_pos_eq in H1 by lra.
  assert (P : 0 < (1/2) ^ S m) by (apply pow_lt; lra). rewrite Rabs_pos_eq in H2 by lra.
  assert (P2 : (1/2) ^ S m <= 1/2). { cbn [pow]. assert ((1/2) ^ m <= 1) by (apply Rle_trans with (1 ^ m); [apply pow_incr; lra|rewrite pow1; lra]). lra. }
  exists (S m). split; [lia|]. unfold merr, fine_cfg. cbn [contour_points contour_radius]. rewrite pow1. replace (1 / 2 / 1) with (1 / 2) by lra.
  set (y := (1/2) ^ S m) in *. assert (E1 : 1 < exp 1) by (apply Rle_lt_trans with (exp 0); [rewrite exp_0; lra|apply exp_increasing; lra]). assert (E3 := exp_le_3).
  assert (E2 : exp (1/2) <= 3) by (left; apply Rlt_le_trans with (exp 1); [apply exp_increasing; lra|exact E3]). assert (Pe := exp_pos (1/2)).
  assert (F1 : INR (S m) * (1 / INR (fact (S m)) * exp 1) <= 3 * (1 / INR (fact m))).
  { replace (INR (S m) * (1 / INR (fact (S m)) * exp 1)) with (exp 1 * (1 / INR (fact m))); [apply Rmult_le_compat_r; lra|].
    rewrite fact_simpl, mult_INR. field. split; [lra|]. apply not_0_INR. lia. }
  assert (F2 : y / INR (fact (S m)) * exp (1/2) <= 3 * y).
  { assert (F3 : y / INR (fact (S m)) <= y).
    { apply Rmult_le_reg_r with (INR (fact (S m))); [exact Pf1|]. unfold Rdiv. rewrite Rmult_assoc, Rinv_l by lra. apply Rmult_le_compat_l; [lra|].
      change 1 with (INR 1). apply le_INR. assert (G := lt_O_fact (S m)). lia. }
    assert (0 < y / INR (fact (S m))) by (apply Rdiv_lt_0_compat; lra). apply Rle_trans with (y * 3); [apply Rmult_le_compat; lra|lra]. }
  assert (F4 : y * exp (1/2) <= y * 3) by (apply Rmult_le_compat_l; lra).
  apply Rle_trans with (12 * ((3 * y + 3 * (1 / INR (fact m)) + y * 3) * 2)); [|lra].
  apply Rmult_le_compat_l; [lra|]. unfold Rdiv at 1. apply Rmult_le_compat; [| |lra|].
  - assert (0 < y / INR (fact (S m)) * exp (1/2)) by (apply Rmult_lt_0_compat; [apply Rdiv_lt_0_compat; lra|lra]).
    assert (0 < y * exp (1/2)) by (apply Rmult_lt_0_compat; lra).
    assert (0 <= INR (S m) * (1 / INR (fact (S m)) * exp 1)). { apply Rmult_le_pos; [apply pos_INR|]. apply Rmult_le_pos; [left; apply Rdiv_lt_0_compat; lra|lra]. } lra.
  - left. apply Rinv_0_lt_compat. lra.
  - replace 2 with (/ (1/2)) by field. apply Rinv_le_contravar; lra.
Qed.
(** Inverses of 2 by 2 matrices by the adjugate, correctly rounded. *)
Definition adj2 (M : cmat) : cmat := fun i j =>
  match i, j with O, O => M 1%nat 1%nat | O, _ => (- M 0%nat 1%nat)%C | _, O => (- M 1%nat 0%nat)%C | _, _ => M 0%nat 0%nat end.
Definition det2 (M : cmat) : C := (M 0%nat 0%nat * M 1%nat 1%nat - M 0%nat 1%nat * M 1%nat 0%nat)%C.
Lemma adj_inverse M Q : is_inv 2 M Q -> forall i j, (i < 2)%nat -> (j < 2)%nat -> Q i j = (adj2 M i j / det2 M)%C.
Proof.
  intros [H1 H2]. 
  assert (A := fun i j Hi Hj => H1 i j Hi Hj). assert (B := fun i j Hi Hj => H2 i j Hi Hj).
  assert (A00 := A 0%nat 0%nat ltac:(lia) ltac:(lia)). assert (A01 := A 0%nat 1%nat ltac:(lia) ltac:(lia)). assert (A10 := A 1%nat 0%nat ltac:(lia) ltac:(lia)). assert (A11 := A 1%nat 1%nat ltac:(lia) ltac:(lia)).
  assert (B00 := B 0%nat 0%nat ltac:(lia) ltac:(lia)). assert (B01 := B 0%nat 1%nat ltac:(lia) ltac:(lia)). assert (B10 := B 1%nat 0%nat ltac:(lia) ltac:(lia)). assert (B11 := B 1%nat 1%nat ltac:(lia) ltac:(lia)).
  clear A B H1 H2. unfold mprod, mident in *. cbn in A00, A01, A10, A11, B00, B01, B10, B11.
  set (a := M 0%nat 0%nat) in *. set (b := M 0%nat 1%nat) in *. set (c := M 1%nat 0%nat) in *. set (d := M 1%nat 1%nat) in *.
  set (x := Q 0%nat 0%nat) in *. set (y := Q 0%nat 1%nat) in *. set (z := Q 1%nat 0%nat) in *. set (w := Q 1%nat 1%nat) in *.
  assert (D : ((a * d - b * c) * (x * w - y * z) = 1)%C).
  { transitivity ((0 + a * x + b * z) * (0 + c * y + d * w) - (0 + a * y + b * w) * (0 + c * x + d * z))%C; [ring|]. rewrite A00, A01, A10, A11. ring. }
  assert (D0 : (a * d - b * c <> 0)%C).
  { intros E. rewrite E in D. rewrite Cmult_0_l in D. apply (f_equal fst) in D. cbn in D. lra. }
  assert (S : forall q r, (q * (a * d - b * c) = r)%C -> q = (r / (a * d - b * c))%C) by (intros q r E; rewrite <- E; field; exact D0).
  intros i j Hi Hj. unfold det2. fold a b c d.
  destruct i as [|[|i]]; try lia; destruct j as [|[|j]]; try lia; cbn [adj2]; fold a b c d x y z w; apply S.
  - transitivity ((0 + x * a + y * c) * d - (0 + x * b + y * d) * c)%C; [ring|]. rewrite B00, B01. ring.
  - transitivity ((0 + x * b + y * d) * a - (0 + x * a + y * c) * b)%C; [ring|]. rewrite B00, B01. ring.
  - transitivity ((0 + z * a + w * c) * d - (0 + z * b + w * d) * c)%C; [ring|]. rewrite B10, B11. ring.
  - transitivity ((0 + z * b + w * d) * a - (0 + z * a + w * c) * b)%C; [ring|]. rewrite B10, B11. ring.
Qed.
(** The linear equation of C73 in a format of [prec] bits: matrix exponentials and inverses correctly rounded. *)
Definition rfull (emin prec : Z) (M : nat) : problem (Fops (fmtc emin prec)) unit :=
  mk_problem (A := Fops (fmtc emin prec)) (fun (v : cvec) w => (inr (ncN v), w)) 2 ncL (dmat ncL) (fine_cfg M)
    (fun Z => inr (fun i j => fl_add (fmtc emin prec) (mexp 2 Z i j) (RtoC 0))) (fun Z => inr (fun i j => fl_add (fmtc emin prec) (adj2 Z i j / det2 Z)%C (RtoC 0))) swap2 swap2 swL.
Lemma rfull_inv emin prec M eps Om : rounds (fmtc emin prec) eps Om -> 0 <= eps -> inv_near 2 4 eps Om (p_inv (rfull emin prec M)).
Proof.
  intros HR He Z Q Q' x y HI Hx Hy X1 Y1 _ HO EZ i j Hi Hj. cbn [p_inv rfull] in EZ.
  assert (X : (fun i j => fl_add (fmtc emin prec) (adj2 Z i j / det2 Z)%C (RtoC 0)) = Q') by congruence. rewrite <- X. unfold mdiff. rewrite <- (adj_inverse Z Q HI i j Hi Hj).
  set (q := Q i j). assert (B : Cmod q <= y) by (eapply Rle_trans; [apply (entry_rown 2 Q i j Hj)|apply Hy; exact Hi]).
  assert (Y2 : y <= x * y * y). { apply Rle_trans with (1 * y * 1); [lra|]. apply Rmult_le_compat; [lra|lra|apply Rmult_le_compat_r; lra|exact Y1]. }
  assert (R := ro_add _ _ _ HR q (RtoC 0)). rewrite Cplus_0_r, Cmod_0 in R. specialize (R ltac:(lra) ltac:(lra) ltac:(lra)).
  eapply Rle_trans; [exact R|]. apply Rle_trans with (eps * (4 * (x * y * y))); [apply Rmult_le_compat_l; lra|right; ring].
Qed.
(** With fine contours, precise and wide formats, both error terms are as small as wanted. *)
Example C81_not_vacuous :
  smooth 2 5 (dmat ncL) ncN 0 1 1 300 ncu ncf ncJ /\ Jsmooth 2 0 1 300 ncJ ncJ1 /\
  exists C r0 C' r0', 0 <= C /\ 0 < r0 /\ 0 <= C' /\ 0 < r0' /\
  forall e, 0 < e -> exists M emin prec h0 h0' c d c' d', 0 < h0 /\ 0 < h0' /\ 0 <= c <= e /\ 0 <= d <= e /\ 0 <= c' <= e /\ 0 <= d' <= e /\
    cs_rclaim 2 0 1 ncu 4 C h0 r0 (rfull emin prec M) ETD4n c d /\ as_rclaim 2 0 1 ncu 4 C h0 r0 (rfull emin prec M) ETD34n c d /\
    cs_rclaim 2 0 1 ncu 4 C' h0' r0' (rfull emin prec M) ETD5n c' d' /\ as_rclaim 2 0 1 ncu 4 C' h0' r0' (rfull emin prec M) ETD35n c' d'.
Proof.
  split; [exact nc_smooth|]. split; [exact nc_J|]. assert (HS4 := smooth_weak 2 5 4 _ _ _ _ _ _ _ _ _ ltac:(lia) nc_smooth).
  destruct (C81_etd4_etd34 2 (dmat ncL) ncN 0 1 1 300 ncu ncf ncJ HS4 4 ltac:(lra)) as (C & r0 & H1 & H2 & H3).
  destruct (C81_etd5_etd35 2 (dmat ncL) ncN 0 1 1 300 ncu ncf ncJ ncJ1 HS4 nc_J 4 ltac:(lra)) as (C' & r0' & Q1 & Q2 & Q3).
  exists C, r0, C', r0'. split; [exact H1|]. split; [exact H2|]. split; [exact Q1|]. split; [exact Q2|].
  intros e He. destruct (fine_merr e He) as (M & HM & HE).
  assert (Hr : 0 < contour_radius (fine_cfg M)) by (cbn; lra). assert (Hx : 0 < 1/2 <= contour_radius (fine_cfg M) / 2) by (cbn; lra).
  assert (P0 : 0 <= merr (fine_cfg M) (1/2)) by (apply (merr_pos (fine_cfg M) HM Hr); cbn; lra).
  destruct (H3 (fine_cfg M) (1/2) Hr HM Hx) as (B & h0 & e0 & O0 & B1 & B2 & B3 & H5).
  destruct (Q3 (fine_cfg M) (1/2) Hr HM Hx) as (B' & h0' & e0' & O0' & B1' & B2' & B3' & Q5).
  assert (PB : 0 < e / (B + B' + 1)) by (apply Rdiv_lt_0_compat; lra).
  set (z := Rmin (e / (B + B' + 1)) (Rmin e0 e0')). assert (Hz : 0 < z) by (unfold z; repeat apply Rmin_glb_lt; assumption).
  destruct (fmt_any z (Rmax 4 (Rmax O0 O0')) Hz) as (emin & prec & eps & Om & _ & HR & Heps & HOm).
  assert (M1 := Rmin_l (e / (B + B' + 1)) (Rmin e0 e0')). assert (M2 := Rmin_r (e / (B + B' + 1)) (Rmin e0 e0')). fold z in M1, M2.
  assert (M5 := Rmin_l e0 e0'). assert (M6 := Rmin_r e0 e0').
  assert (N1 := Rmax_l 4 (Rmax O0 O0')). assert (N2 := Rmax_r 4 (Rmax O0 O0')). assert (N3 := Rmax_l O0 O0'). assert (N4 := Rmax_r O0 O0').
  assert (Ed : forall b, 0 <= b <= B + B' + 1 -> 0 <= b * eps <= e).
  { intros b Hb. split; [apply Rmult_le_pos; lra|]. apply Rle_trans with ((B + B' + 1) * (e / (B + B' + 1))); [apply Rmult_le_compat; lra|right; field; lra]. }
  exists M, emin, prec, h0, h0', (8 * merr (fine_cfg M) (1/2)), (B * eps), (12 * merr (fine_cfg M) (1/2)), (B' * eps).
  split; [exact B2|]. split; [exact B2'|]. split; [lra|]. split; [apply Ed; lra|]. split; [lra|]. split; [apply Ed; lra|].
  assert (HN : forall v w y w', p_nl (rfull emin prec M) v w = (inr y, w') -> y = ncN v) by (intros v w y w' E; cbn [p_nl rfull] in E; congruence).
  assert (HC : computes_near 2 ncu ncN 0 1 1 4 eps ncN).
  { intros t v Ht Hv i Hi. unfold csub. replace (ncN v i - ncN v i)%C with (RtoC 0) by ring. rewrite Cmod_0. lra. }
  assert (HM0 : mle 2 (mdiff (p_mat (rfull emin prec M)) (dmat ncL)) (4 * eps)).
  { intros i j Hi Hj. unfold mdiff. cbn [p_mat rfull]. replace (dmat ncL i j - dmat ncL i j)%C with (RtoC 0) by ring. rewrite Cmod_0. lra. }
  assert (HE1 : expm_near 2 4 eps (p_expm (rfull emin prec M))) by (apply (rlinear_expm emin prec M eps Om HR); lra).
  assert (HI1 := rfull_inv emin prec M eps Om HR ltac:(lra)).
  destruct (H5 (fmtc emin prec) eps Om HR ltac:(lra) ltac:(lra) unit (rfull emin prec M) ncN eq_refl eq_refl HN HC HM0 HE1 HI1) as [R1 R2].
  destruct (Q5 (fmtc emin prec) eps Om HR ltac:(lra) ltac:(lra) unit (rfull emin prec M) ncN eq_refl eq_refl HN HC HM0 HE1 HI1) as [R3 R4].
  exact (conj R1 (conj R2 (conj R3 R4))).
Qed.

Print Assumptions C81_etd4_etd34.
Print Assumptions C81_etd5_etd35.
Print Assumptions C81_etd5_etd35_commuting.
