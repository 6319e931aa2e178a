(** * C32-C35, C39, and the integrating-factor part of C47, C48 *)

From Coq Require Import ZArith List Bool Reals Lra Lia FunctionalExtensionality QArith Qreals Setoid Morphisms.
From Coquelicot Require Import Complex.
From Verif Require Import Scalars Control ControlCS ControlCSReal ControlSim ControlSound Arrays SchemeBase
     SchemeIF SchemeETD4 SchemeETD5 Solvers SchemeFacts SchemeSound SchemeFamily SchemeForm CInst SpecRK
     SchemeIFReal PropsCache.
Import ListNotations.
Local Open Scope R_scope.

Definition without_weights (tb : tableau) (b : list Q) : tableau := mk_tableau (tb_a tb) b (tb_c tb).

(** [Ex t] is what [scipy.linalg.expm] returns for [t L], and behaves like an exponential: the
    semigroup law and the value at 0 (on the [n] x [n] entries that exist). *)
Definition expm_ok {W} (p : problem Cops W) (Ex : R -> nat -> nat -> C) : Prop :=
  (forall t : R, p_expm p (fun i j => RtoC t * p_mat p i j)%C = inr (Ex t)) /\
  meq (p_size p) (Ex 0) mident /\
  (forall s t, meq (p_size p) (mprod (p_size p) (Ex s) (Ex t)) (Ex (s + t))).
(** [p_S] and [p_Sinv] are inverse to each other. *)
Definition eig_ok {W} (p : problem Cops W) : Prop :=
  meq (p_size p) (mprod (p_size p) (p_S p) (p_Sinv p)) mident /\
  meq (p_size p) (mprod (p_size p) (p_Sinv p) (p_S p)) mident.

Lemma half_mat (h : R) (L : mat Cops) :
  mdivz (A := Cops) (mscal (A := Cops) h L) 2 = (fun i j => RtoC (h / 2) * L i j)%C.
Proof.
  apply functional_extensionality; intros i. apply functional_extensionality; intros j.
  unfold mdivz, mdivs, mscal. csimp. set (a := L i j). clearbody a. ceq. cfield.
Qed.

Section Steps.
  Variable W : Type.
  Variable p : problem Cops W.
  Variable N : vec Cops -> vec Cops.
  Notation n := (p_size p).

  Lemma if4d_ref (h : R) u : cs_Phi p N IF4d h u = vk (dflow (p_vec p)) N h u.
  Proof.
    erewrite cs_Phi_form by reflexivity. cbn [cs_form]. rewrite if_form_d_ref. reflexivity.
  Qed.
  Lemma if34d_ref (h : R) u :
    as_Phi p N IF34d h u = (vk (dflow (p_vec p)) N h u, verr (dflow (p_vec p)) N h u).
  Proof.
    erewrite as_Phi_form by reflexivity. cbn [as_form]. rewrite if_form_d_ref. reflexivity.
  Qed.
  Lemma dp_ref (h : R) u :
    as_Phi p N IF45DPd h u = (dk N h (p_vec p) u, derr N h (p_vec p) u).
  Proof. erewrite as_Phi_form by reflexivity. reflexivity. Qed.

  Section Mat.
    Variable Ex : R -> nat -> nat -> C.
    Hypothesis HE : expm_ok p Ex.
    Hypothesis HN : respects (below n) N.
    Lemma if4n_ref (h : R) u : veq (below n) (cs_Phi p N IF4n h u) (vk (mflow n Ex) N h u).
    Proof.
      destruct HE as (H1 & H2 & H3).
      rewrite (@cs_Phi_form _ _ _ p N IF4n h (mk_if_coefs (Ex h) (Ex (h / 2)))).
      - cbn [cs_form]. apply if_form_n_ref. exact HN.
      - cbn [cs_uc]. unfold if4n_coeffs. cbv zeta. rewrite (half_mat h (p_mat p)).
        change (mscal (A := Cops) h (p_mat p)) with (fun i j => RtoC h * p_mat p i j)%C. rewrite !H1. reflexivity.
    Qed.
    Lemma if34n_ref (h : R) u :
      veq (below n) (fst (as_Phi p N IF34n h u)) (vk (mflow n Ex) N h u) /\
      veq (below n) (snd (as_Phi p N IF34n h u)) (verr (mflow n Ex) N h u).
    Proof.
      destruct HE as (H1 & H2 & H3).
      rewrite (@as_Phi_form _ _ _ p N IF34n h (mk_if_coefs (Ex h) (Ex (h / 2)))).
      - cbn [as_form]. apply if_form_n_ref. exact HN.
      - cbn [as_uc]. unfold if34n_coeffs. cbv zeta. rewrite (half_mat h (p_mat p)).
        change (mscal (A := Cops) h (p_mat p)) with (fun i j => RtoC h * p_mat p i j)%C. rewrite !H1. reflexivity.
    Qed.
  End Mat.

  Section Eig.
    Hypothesis HS : eig_ok p.
    Hypothesis HN : respects (below n) N.
    Notation Z := (zflow n (p_S p) (p_Sinv p) (p_eigs p)).
    Lemma if34z_ref (h : R) u :
      veq (below n) (fst (as_Phi p N IF34z h u)) (vk Z N h u) /\
      veq (below n) (snd (as_Phi p N IF34z h u)) (mdot n (p_Sinv p) (verr Z N h u)).
    Proof.
      destruct HS as [H1 H2]. erewrite as_Phi_form by reflexivity. cbn [as_form].
      apply (if_form_z_ref N h n (p_S p) (p_Sinv p) (p_eigs p) u HN H1 H2).
    Qed.
  End Eig.
End Steps.

(** ** C32: IF4 is classical RK4 in the integrating-factor variable

    1-D operators: [exp(tL)] multiplies entry [i] by [exp(t L_i)]. *)
Theorem C32_if4_diagonal :
  forall (W : Type) (p : problem Cops W) (N : vec Cops -> vec Cops) (h : R) (u : vec Cops),
    cs_Phi p N IF4d h u = lawson RK4 (dflow (p_vec p)) N h u.
Proof.
  intros. rewrite if4d_ref. apply veq_all. symmetry.
  rewrite (lawson_if_step all (dflow (p_vec p)) N (dflow_flow _) (respects_all N)).
  apply rk4_step; [apply dflow_flow|apply respects_all].
Qed.

(** Every successful [step] of a newly built IF4 solver, whatever happened before (other step
    sizes, exceptions raised by the nonlinear function), is that step. *)
Theorem C32_if4_every_step :
  forall (W : Type) (p : problem Cops W) (N : vec Cops -> vec Cops),
    (forall v w y w', p_nl p v w = (inr y, w') -> y = N v) -> linalg_total p ->
    forall (hs : list (T Rops)) (u : vec Cops) w,
      cs_session_ok Rops (fun h u => lawson RK4 (dflow (p_vec p)) N h u) u hs
                    (cs_session u hs (cs_new_obj p IF4d) w).
Proof.
  intros W p N Hp Ht hs u w.
  match goal with |- cs_session_ok _ ?f _ _ _ => replace f with (cs_Phi p N IF4d) end.
  - apply (C13_constant_step_crash_safe Rops Cops W p N IF4d Hp Ht).
    intros a b H. cbn in H. unfold Reqb_ in H. destruct (Req_EM_T a b); [subst; reflexivity|discriminate].
  - apply functional_extensionality; intros h. apply functional_extensionality; intros v. apply C32_if4_diagonal.
Qed.

Theorem C32_if4_matrix :
  forall (W : Type) (p : problem Cops W) (N : vec Cops -> vec Cops) Ex,
    expm_ok p Ex -> respects (below (p_size p)) N ->
    forall (h : R) u i, (i < p_size p)%nat ->
      cs_Phi p N IF4n h u i = lawson RK4 (mflow (p_size p) Ex) N h u i.
Proof.
  intros W p N Ex HE HN h u i Hi.
  assert (HF : flow (below (p_size p)) (mflow (p_size p) Ex)) by (apply mflow_flow; apply HE).
  rewrite (if4n_ref W p N Ex HE HN h u i Hi).
  rewrite (lawson_if_step _ _ N HF HN RK4 h u i Hi). symmetry. exact (rk4_step _ _ N HF HN h u i Hi).
Qed.

(** Classical RK4 has order four: every rooted tree with at most four nodes. *)
Theorem C32_classical_order : has_order (tb_a RK4) (tb_b RK4) (tb_c RK4) 4.
Proof. exact RK4_order. Qed.

(** A nilpotent 2 x 2 matrix, for which the exponential is [I + tL]; and a nonlinear function
    looking at the two entries only. *)
Definition nil_L : mat Cops := fun i j => if (Nat.eqb i 0 && Nat.eqb j 1)%bool then RtoC 1 else RtoC 0.
Definition nil_problem : problem Cops unit :=
  mk_problem (A := Cops) (fun v w => (inr v, w)) 2 (fun _ => RtoC 0) nil_L (mk_etdcfg (F := Rops) 1 32 1)
    (fun m => inr (fun i j => mident i j + m i j)%C) (fun m => inr m) mident mident (fun _ => RtoC 0).
Example C32_not_vacuous :
  expm_ok nil_problem (fun t i j => mident i j + RtoC t * nil_L i j)%C /\ eig_ok nil_problem /\
  respects (below 2) (fun v i => v i * v i)%C.
Proof.
  repeat split.
  - intros i j Hi Hj. cbn in Hi, Hj. rewrite Cmult_0_l, Cplus_0_r. reflexivity.
  - intros s t i j Hi Hj. cbn in Hi, Hj. unfold mprod. cbn [p_size nil_problem csum].
    assert (i = 0%nat \/ i = 1%nat) by lia. assert (j = 0%nat \/ j = 1%nat) by lia.
    destruct H as [-> | ->], H0 as [-> | ->]; unfold mident, nil_L; cbn [Nat.eqb andb]; apply C_eq; cbn; ring.
  - intros i j Hi Hj. cbn in Hi, Hj. unfold mprod. cbn [p_size nil_problem p_S p_Sinv csum].
    assert (i = 0%nat \/ i = 1%nat) by lia. assert (j = 0%nat \/ j = 1%nat) by lia.
    destruct H as [-> | ->], H0 as [-> | ->]; unfold mident; cbn [Nat.eqb]; ring.
  - intros i j Hi Hj. cbn in Hi, Hj. unfold mprod. cbn [p_size nil_problem p_S p_Sinv csum].
    assert (i = 0%nat \/ i = 1%nat) by lia. assert (j = 0%nat \/ j = 1%nat) by lia.
    destruct H as [-> | ->], H0 as [-> | ->]; unfold mident; cbn [Nat.eqb]; ring.
  - intros a b H i Hi. rewrite H by exact Hi. reflexivity.
Qed.

(** ** C33: the IF34 pair *)

(** Candidate: classical RK4 (the five-stage form with the same first four stages); error vector:
    difference to the embedded method with weights 1/6, 1/3, 1/3, 0, 1/6. *)
Theorem C33_if34_diagonal :
  forall (W : Type) (p : problem Cops W) (N : vec Cops -> vec Cops) (h : R) (u : vec Cops) i,
    fst (as_Phi p N IF34d h u) i = lawson RK4 (dflow (p_vec p)) N h u i /\
    fst (as_Phi p N IF34d h u) i = lawson RK4_fsal (dflow (p_vec p)) N h u i /\
    snd (as_Phi p N IF34d h u) i =
      (lawson RK4_fsal (dflow (p_vec p)) N h u i
       - lawson (without_weights RK4_fsal RK4_fsal_hat) (dflow (p_vec p)) N h u i)%C.
Proof.
  intros W p N h u i. rewrite if34d_ref. cbn [fst snd].
  assert (HF := dflow_flow (p_vec p)). assert (HN := respects_all N). assert (Hi : all i) by exact I.
  rewrite !(lawson_if_step _ _ N HF HN _ h u i Hi).
  rewrite (rk4_step _ _ N HF HN h u i Hi), (rk4_fsal_step _ _ N HF HN h u i Hi).
  repeat split. symmetry. apply (rk4_fsal_hat_step _ _ N HF HN h u i Hi).
Qed.

Theorem C33_if34_matrix :
  forall (W : Type) (p : problem Cops W) (N : vec Cops -> vec Cops) Ex,
    expm_ok p Ex -> respects (below (p_size p)) N ->
    forall (h : R) u i, (i < p_size p)%nat ->
      fst (as_Phi p N IF34n h u) i = lawson RK4_fsal (mflow (p_size p) Ex) N h u i /\
      snd (as_Phi p N IF34n h u) i =
        (lawson RK4_fsal (mflow (p_size p) Ex) N h u i
         - lawson (without_weights RK4_fsal RK4_fsal_hat) (mflow (p_size p) Ex) N h u i)%C.
Proof.
  intros W p N Ex HE HN h u i Hi.
  assert (HF : flow (below (p_size p)) (mflow (p_size p) Ex)) by (apply mflow_flow; apply HE).
  destruct (if34n_ref W p N Ex HE HN h u) as [H1 H2].
  rewrite (H1 i Hi), (H2 i Hi), !(lawson_if_step _ _ N HF HN _ h u i Hi), (rk4_fsal_step _ _ N HF HN h u i Hi).
  split; [reflexivity|]. symmetry. apply (rk4_fsal_hat_step _ _ N HF HN h u i Hi).
Qed.

Theorem C33_orders :
  has_order (tb_a RK4_fsal) (tb_b RK4_fsal) (tb_c RK4_fsal) 4 /\
  has_order (tb_a RK4_fsal) RK4_fsal_hat (tb_c RK4_fsal) 3 /\
  ~ has_order (tb_a RK4_fsal) RK4_fsal_hat (tb_c RK4_fsal) 4.
Proof. exact (conj RK4_fsal_order (conj RK4_fsal_hat_order RK4_fsal_hat_not_4)). Qed.

(** ** C34: IF45DP propagates the Dormand-Prince method of order 5 *)
Theorem C34_if45dp_candidate :
  forall (W : Type) (p : problem Cops W) (N : vec Cops -> vec Cops) (h : R) (u : vec Cops),
    fst (as_Phi p N IF45DPd h u) = lawson DP5 (dflow (p_vec p)) N h u.
Proof.
  intros. rewrite dp_ref. cbn [fst]. rewrite <- dp_step. apply veq_all. symmetry.
  apply lawson_if_step; [apply dflow_flow|apply respects_all].
Qed.
Theorem C34_order : has_order (tb_a DP5) (tb_b DP5) (tb_c DP5) 5.
Proof. exact DP5_order. Qed.

(** ** C35: the error vector of IF45DP *)

Lemma if_comb_minus (Phi : R -> cvec -> cvec) h c : forall qs ps ns i, length qs = length ps ->
  if_comb Phi h c (map (fun xy => Qminus (fst xy) (snd xy)) (combine qs ps)) ns i
  = (if_comb Phi h c qs ns i - if_comb Phi h c ps ns i)%C.
Proof.
  induction qs as [|q qs IH]; intros [|r ps] ns i Hl; try discriminate; [cbn; ring|].
  destruct ns as [|[cj nj] ns]; [cbn; ring|]. cbn [combine map if_comb fst snd]. unfold cadd, cscal.
  rewrite IH by (injection Hl; auto). rewrite Q2R_minus, RtoC_minus. ring.
Qed.

Lemma if_comb_Qeq (Phi : R -> cvec -> cvec) h c : forall qs ps ns i, Forall2 Qeq qs ps ->
  if_comb Phi h c qs ns i = if_comb Phi h c ps ns i.
Proof.
  intros qs ps ns i H. revert ns. induction H as [|x y qs ps Hq H IH]; intros ns; [reflexivity|].
  destruct ns as [|[cj nj] ns]; [reflexivity|]. cbn [if_comb]. unfold cadd, cscal. rewrite IH, (Qeq_eqR _ _ Hq). reflexivity.
Qed.

(** Weights of the second solution that the coded error vector compares with: those of the
    embedded method, except 393/640 + 54/1920 in place of 393/640. *)
Definition DP5_hat_coded : list Q :=
  [5179#57600; 0; 7571#16695; 1233#1920; -92097#339200; 187#2100; 1#40]%Q.

(** What the code computes: the difference to a method with these weights. *)
Theorem C35_error_vector :
  forall (W : Type) (p : problem Cops W) (N : vec Cops -> vec Cops) (h : R) (u : vec Cops) i,
    snd (as_Phi p N IF45DPd h u) i =
      (lawson DP5 (dflow (p_vec p)) N h u i
       - lawson (without_weights DP5 DP5_hat_coded) (dflow (p_vec p)) N h u i)%C.
Proof.
  intros W p N h u i. rewrite dp_ref. cbn [snd]. rewrite dp_err.
  assert (HF := dflow_flow (p_vec p)). assert (HN := respects_all N). assert (Hi : all i) by exact I.
  rewrite !(lawson_if_step _ _ N HF HN _ h u i Hi).
  unfold if_step, if_value, cadd, cscal, without_weights. cbn [tb_a tb_b tb_c].
  set (ns := if_stages _ _ _ _ _ _ _).
  rewrite (if_comb_Qeq (dflow (p_vec p)) h 1 dp_err_code
            (map (fun xy => Qminus (fst xy) (snd xy)) (combine (tb_b DP5) DP5_hat_coded)) ns i).
  - rewrite if_comb_minus by reflexivity. ceq. ring.
  - cbn. repeat constructor.
Qed.
(** Those weights do not even sum to one. *)
Theorem C35_coded_weights_refuted : ~ has_order (tb_a DP5) DP5_hat_coded (tb_c DP5) 1.
Proof.
  intros [_ H]. specialize (H (Node []) (le_n _)). unfold order_condition in H. vm_compute in H. discriminate.
Qed.
(** The embedded method of Dormand and Prince has order 4 and not 5. *)
Theorem C35_embedded_order :
  has_order (tb_a DP5) DP5_hat (tb_c DP5) 4 /\ ~ has_order (tb_a DP5) DP5_hat (tb_c DP5) 5.
Proof. exact (conj DP5_hat_order DP5_hat_not_5). Qed.

(** Counterexample to the property: L = 0, N = 1. All stages agree, both Dormand-Prince solutions
    are exact, and the error vector is -9h/320. *)
Definition dp_problem : problem Cops unit :=
  mk_problem (A := Cops) (fun _ w => (inr (const_vec 1), w)) 1 (const_vec 0) (fun _ _ => RtoC 0)
    (mk_etdcfg (F := Rops) 1 32 1) (fun m => inr m) (fun m => inr m) mident mident (const_vec 0).
Lemma const_chain (b : list Q) h u : length b = 7%nat ->
  lawson (without_weights DP5 b) (dflow (const_vec 0)) (fun _ => const_vec 1) h u 0%nat
  = (u 0%nat + RtoC (h * Q2R (fold_right Qplus 0%Q b)))%C.
Proof.
  intros Hb. do 7 (destruct b as [|? b]; [discriminate|]). destruct b; [|discriminate].
  assert (HF := dflow_flow (const_vec 0)).
  assert (HN := respects_all (fun _ => const_vec 1)). assert (Hi : all 0%nat) by exact I.
  rewrite (lawson_if_step _ _ _ HF HN _ h u 0%nat Hi).
  unfold if_step, without_weights, DP5. cbn [tb_a tb_b tb_c if_stages app].
  unfold if_value. cbn [if_comb]. unfold cadd, cscal, dflow, const_vec. rewrite !Cmult_0_r, !Cexp_0, !Cmult_1_l.
  cbn [fold_right]. rewrite !Q2R_plus, Q2R_0. set (a := u 0%nat). clearbody a. cfield.
Qed.
Theorem C35_error_estimate_refuted :
  forall h : R, h <> 0 ->
    let p := dp_problem in let N := fun _ => const_vec 1 in let u := const_vec 1 in
    snd (as_Phi p N IF45DPd h u) 0%nat = RtoC (- 9 * h / 320) /\
    (lawson DP5 (dflow (p_vec p)) N h u 0%nat
     - lawson (without_weights DP5 DP5_hat) (dflow (p_vec p)) N h u 0%nat)%C = RtoC 0 /\
    snd (as_Phi p N IF45DPd h u) 0%nat <>
      (lawson DP5 (dflow (p_vec p)) N h u 0%nat
       - lawson (without_weights DP5 DP5_hat) (dflow (p_vec p)) N h u 0%nat)%C.
Proof.
  intros h Hh p N u. rewrite C35_error_vector. unfold p, N. cbn [dp_problem p_vec].
  change (lawson DP5) with (lawson (without_weights DP5 (tb_b DP5))).
  rewrite !const_chain by reflexivity.
  assert (S1 : Q2R (fold_right Qplus 0%Q (tb_b DP5)) = 1) by (unfold Q2R; vm_compute fold_right; cbn; field).
  assert (S2 : Q2R (fold_right Qplus 0%Q DP5_hat) = 1) by (unfold Q2R; vm_compute fold_right; cbn; field).
  assert (S3 : Q2R (fold_right Qplus 0%Q DP5_hat_coded) = 329 / 320) by (unfold Q2R; vm_compute fold_right; cbn; field).
  rewrite S1, S2, S3. set (a := u 0%nat). clearbody a. destruct a as [a b].
  split; [|split].
  - apply C_eq; cbn; field.
  - apply C_eq; cbn; field.
  - intros H. injection H as H. cbn in H. lra.
Qed.

(** ** C39: equilibria of integrating-factor schemes *)

(** Entry 0 with L = -1, N = 1, u = 1 is an equilibrium: L u + N(u) = 0. None of the schemes
    stays there. *)
Definition eq_problem : problem Cops unit :=
  mk_problem (A := Cops) (fun _ w => (inr (const_vec 1), w)) 1 (const_vec (-1)) (fun _ _ => RtoC (-1))
    (mk_etdcfg (F := Rops) 1 32 1) (fun m => inr (fun i j => Cexp (m i j))) (fun m => inr m) mident mident
    (const_vec (-1)).

Lemma rk4_eq_value (h : R) :
  vk (dflow (const_vec (-1))) (fun _ => const_vec 1) h (const_vec 1) 0%nat
  = RtoC (exp (- h) + h * (/ 6 * exp (- h) + / 3 * exp (- (h / 2)) + / 3 * exp (- (h / 2)) + / 6)).
Proof.
  unfold vk, dflow, const_vec. rewrite <- !RtoC_mult, !Cexp_R, <- !RtoC_mult, <- !RtoC_plus, <- !RtoC_mult, <- RtoC_plus.
  replace (h * -1) with (- h) by ring. replace (h / 2 * -1) with (- (h / 2)) by field. f_equal. ring.
Qed.
Lemma dp_eq_value (h : R) :
  if_step DP5 (dflow (const_vec (-1))) (fun _ => const_vec 1) h (const_vec 1) 0%nat
  = RtoC (exp (- h) + h * (35/384 * exp (- h) + 500/1113 * exp (- (7/10 * h)) + 125/192 * exp (- (h / 5))
                           - 2187/6784 * exp (- (h / 9)) + 11/84)).
Proof.
  unfold if_step, DP5. cbn [tb_a tb_b tb_c if_stages app]. qtimes. unfold dflow, const_vec.
  rewrite <- !RtoC_mult, !Cexp_R, <- !RtoC_mult, <- !RtoC_plus, <- !RtoC_mult, <- RtoC_plus. f_equal.
  replace (h * -1) with (- h) by ring.
  replace (Q2R (7#10) * h * -1) with (- (7/10 * h)) by (unfold Q2R; cbn; field).
  replace (Q2R (1#5) * h * -1) with (- (h / 5)) by (unfold Q2R; cbn; field).
  replace (Q2R (1#9) * h * -1) with (- (h / 9)) by (unfold Q2R; cbn; field).
  replace (0 * -1) with 0 by ring. rewrite exp_0. unfold Q2R; cbn. field.
Qed.

Theorem C39_if_equilibrium_refuted :
  let p := eq_problem in let N := fun _ => const_vec 1 in let u := const_vec 1 in
  (forall i, (p_vec p i * u i + N u i)%C = RtoC 0) /\
  cs_Phi p N IF4d 12 u 0%nat <> u 0%nat /\
  fst (as_Phi p N IF34d 12 u) 0%nat <> u 0%nat /\
  fst (as_Phi p N IF45DPd 90 u) 0%nat <> u 0%nat.
Proof.
  intros p N u. split; [|split; [|split]].
  - intros i. apply C_eq; cbn; ring.
  - rewrite if4d_ref. unfold p, N, u. cbn [eq_problem p_vec]. rewrite rk4_eq_value. unfold const_vec.
    intros H. injection H as H.
    assert (H1 := exp_pos (Ropp 12)). assert (H2 := exp_pos (- (12 / 2))). lra.
  - rewrite if34d_ref. cbn [fst]. unfold p, N, u. cbn [eq_problem p_vec]. rewrite rk4_eq_value. unfold const_vec.
    intros H. injection H as H.
    assert (H1 := exp_pos (Ropp 12)). assert (H2 := exp_pos (- (12 / 2))). lra.
  - rewrite dp_ref. cbn [fst]. rewrite <- dp_step. unfold p, N, u. cbn [eq_problem p_vec]. rewrite dp_eq_value. unfold const_vec.
    intros H. injection H as H.
    assert (H1 := exp_pos (Ropp 90)). assert (H2 := exp_pos (- (7/10 * 90))). assert (H3 := exp_pos (- (90 / 5))).
    assert (H4 : exp (- (90 / 9)) <= / 11).
    { rewrite exp_Ropp. apply Rinv_le_contravar; [lra|]. assert (H4 := exp_ineq1_le (90 / 9)). lra. }
    assert (H5 := exp_pos (- (90 / 9))). lra.
Qed.

(** What does hold: equilibria with [N(u) = 0] and [L u = 0] are kept, for any step size. *)
Theorem C39_if_trivial_equilibrium :
  forall (W : Type) (p : problem Cops W) (N : vec Cops -> vec Cops) (u : vec Cops),
    N u = (fun _ => RtoC 0) -> (forall i, (p_vec p i * u i)%C = RtoC 0) ->
    forall h : R, cs_Phi p N IF4d h u = u /\ fst (as_Phi p N IF34d h u) = u /\ fst (as_Phi p N IF45DPd h u) = u.
Proof.
  intros W p N u HNu HL h.
  assert (HF : forall t, dflow (p_vec p) t u = u).
  { intros t. apply functional_extensionality; intros i. unfold dflow.
    destruct (Ceq_dec (u i) 0) as [E|E]; [rewrite E; ring|].
    replace (p_vec p i) with (RtoC 0); [rewrite Cmult_0_r, Cexp_0; ring|].
    specialize (HL i). transitivity ((p_vec p i * u i) / u i)%C; [rewrite HL|]; field; exact E. }
  assert (H0 : forall t, dflow (p_vec p) t (fun _ => RtoC 0) = (fun _ => RtoC 0)).
  { intros t. apply functional_extensionality; intros i. unfold dflow. ring. }
  assert (HK : vk (dflow (p_vec p)) N h u = u).
  { assert (E2 : v2 (dflow (p_vec p)) N h u = u).
    { unfold v2. rewrite HNu, HF, H0. apply functional_extensionality; intros i. unfold cadd, cscal. ring. }
    assert (E3 : v3 (dflow (p_vec p)) N h u = u).
    { unfold v3. rewrite E2, HNu, HF. apply functional_extensionality; intros i. unfold cadd, cscal. ring. }
    assert (E4 : v4 (dflow (p_vec p)) N h u = u).
    { unfold v4. rewrite E3, HNu, HF, H0. apply functional_extensionality; intros i. unfold cadd, cscal. ring. }
    apply functional_extensionality; intros i. unfold vk. rewrite E2, E3, E4, HNu, HF, !H0. ring. }
  rewrite if4d_ref, if34d_ref, dp_ref. cbn [fst]. rewrite HK. split; [reflexivity|]. split; [reflexivity|].
  rewrite <- dp_step.
  assert (HV : forall c qs ns, Forall (fun cn => snd cn = (fun _ => RtoC 0)) ns ->
            if_value (dflow (p_vec p)) h c qs ns u = u).
  { intros c qs ns Hn. apply functional_extensionality; intros i. unfold if_value, cadd, cscal. rewrite HF.
    assert (G : if_comb (dflow (p_vec p)) h c qs ns i = RtoC 0).
    { revert ns Hn. induction qs as [|q qs IH]; intros ns Hn; [reflexivity|].
      destruct Hn as [|[cj nj] ns E Hn]; [reflexivity|]. cbn in E. subst nj. cbn [if_comb].
      unfold cadd, cscal. rewrite IH by exact Hn. rewrite H0. ring. }
    rewrite G. ring. }
  unfold if_step. apply HV.
  assert (HS : forall rows cs ns, Forall (fun cn => snd cn = (fun _ => RtoC 0)) ns ->
            Forall (fun cn => snd cn = (fun _ => RtoC 0)) (if_stages (dflow (p_vec p)) N h u rows cs ns)).
  { induction rows as [|r rows IH]; intros [|c cs] ns Hn; try exact Hn. cbn [if_stages]. apply IH.
    apply Forall_app. split; [exact Hn|]. constructor; [|constructor]. cbn [snd]. rewrite HV by exact Hn. exact HNu. }
  apply HS. constructor.
Qed.
Example C39_not_vacuous : exists (u : vec Cops), u 0%nat <> RtoC 0 /\
  let N := (fun (v : vec Cops) i => v i * v i - v i)%C in
  N u = (fun _ => RtoC 0) /\ (forall i, ((fun _ => RtoC 0) i * u i)%C = RtoC 0).
Proof.
  exists (fun _ => RtoC 1). split; [intros H; injection H; lra|]. split.
  - apply functional_extensionality; intros i. ring.
  - intros. ring.
Qed.

(** ** C47, C48 for IF34 *)

Section FlowExt.
  Variable dom : nat -> Prop.
  Variables P Q : R -> cvec -> cvec.
  Variable N : cvec -> cvec.
  Hypothesis HN : respects dom N.
  Hypothesis HQ : forall t, linear dom (Q t).
  Hypothesis HE : forall t v, veq dom (P t v) (Q t v).
  Lemma pq t a b : veq dom a b -> veq dom (P t a) (Q t b).
  Proof. intros H. rewrite (HE t a). apply (lin_ext _ _ (HQ t)). exact H. Qed.
  Lemma vk_ext h u : veq dom (vk P N h u) (vk Q N h u) /\ veq dom (verr P N h u) (verr Q N h u).
  Proof.
    assert (R : forall a : cvec, veq dom a a) by reflexivity.
    assert (E2 : veq dom (N (v2 P N h u)) (N (v2 Q N h u))).
    { apply HN. unfold v2. rewrite (HE (h / 2) u), (HE (h / 2) (N u)). reflexivity. }
    assert (E3 : veq dom (N (v3 P N h u)) (N (v3 Q N h u))).
    { apply HN. unfold v3. rewrite (HE (h / 2) u), E2. reflexivity. }
    assert (E4 : veq dom (N (v4 P N h u)) (N (v4 Q N h u))).
    { apply HN. unfold v4. rewrite (HE h u), (pq (h / 2) _ _ E3). reflexivity. }
    assert (EK : veq dom (vk P N h u) (vk Q N h u)).
    { intros i Hi. unfold vk.
      rewrite (HE h u i Hi), (HE h (N u) i Hi), (pq (h / 2) _ _ E2 i Hi), (pq (h / 2) _ _ E3 i Hi), (E4 i Hi). reflexivity. }
    split; [exact EK|]. intros i Hi. unfold verr. rewrite (E4 i Hi), (HN _ _ EK i Hi). reflexivity.
  Qed.
End FlowExt.

(** [S diag(exp(t lambda)) S^-1], the matrix exponential of [t S diag(lambda) S^-1]. *)
Definition eig_exp {W} (p : problem Cops W) (t : R) (i j : nat) : C :=
  csum (p_size p) (fun k => p_S p i k * Cexp (RtoC t * p_eigs p k) * p_Sinv p k j)%C.

Lemma zflow_eig_exp {W} (p : problem Cops W) t v :
  veq (below (p_size p)) (mflow (p_size p) (eig_exp p) t v)
      (zflow (p_size p) (p_S p) (p_Sinv p) (p_eigs p) t v).
Proof.
  intros i _. unfold mflow, zflow, mdot, eig_exp, dflow.
  transitivity (csum (p_size p) (fun k => csum (p_size p) (fun j =>
     p_S p i k * Cexp (RtoC t * p_eigs p k) * p_Sinv p k j * v j)%C)).
  - rewrite csum_swap. apply csum_ext. intros j _. rewrite Cmult_comm, <- csum_scal. apply csum_ext. intros. ring.
  - apply csum_ext. intros k _. rewrite <- !csum_scal. apply csum_ext. intros. ring.
Qed.

(** The candidate with [diagonalize=True] is the integrating-factor step with the matrix functions
    [S exp(t lambda) S^-1]. *)
Theorem C47_if34_diagonalized :
  forall (W : Type) (p : problem Cops W) (N : vec Cops -> vec Cops),
    eig_ok p -> respects (below (p_size p)) N ->
    forall (h : R) u i, (i < p_size p)%nat ->
      fst (as_Phi p N IF34z h u) i = lawson RK4_fsal (mflow (p_size p) (eig_exp p)) N h u i.
Proof.
  intros W p N HS HN h u i Hi.
  set (n := p_size p) in *. set (Z := zflow n (p_S p) (p_Sinv p) (p_eigs p)).
  assert (HZ : flow (below n) Z) by (apply zflow_flow; apply HS).
  assert (HE : forall t v, veq (below n) (mflow n (eig_exp p) t v) (Z t v)) by (intros; apply zflow_eig_exp).
  assert (HF : flow (below n) (mflow n (eig_exp p))).
  { split.
    - intros t. apply mdot_linear.
    - intros a. rewrite (HE 0 a). apply (flow_0 _ _ HZ).
    - intros s t a. rewrite (HE s _), (HE (s + t) a), <- (flow_comp _ _ HZ s t a).
      apply (lin_ext _ _ (flow_lin _ _ HZ s)). apply HE. }
  rewrite (proj1 (if34z_ref W p N HS HN h u) i Hi).
  rewrite (lawson_if_step _ _ N HF HN _ h u i Hi), (rk4_fsal_step _ _ N HF HN h u i Hi).
  symmetry. apply (vk_ext (below n) _ Z N HN); [|exact HE|exact Hi]. intros t. apply (flow_lin _ _ HZ).
Qed.

(** It is the candidate computed with [diagonalize=False] when [expm] returns those matrices. *)
Theorem C47_if34_same_candidate :
  forall (W : Type) (p : problem Cops W) (N : vec Cops -> vec Cops),
    eig_ok p -> expm_ok p (eig_exp p) -> respects (below (p_size p)) N ->
    forall (h : R) u i, (i < p_size p)%nat ->
      fst (as_Phi p N IF34z h u) i = fst (as_Phi p N IF34n h u) i.
Proof.
  intros W p N HS HX HN h u i Hi. rewrite (C47_if34_diagonalized W p N HS HN h u i Hi). symmetry.
  apply (proj1 (C33_if34_matrix W p N _ HX HN h u i Hi)).
Qed.

(** The error vectors differ by the change of basis. *)
Theorem C48_if34_error_in_eigenbasis :
  forall (W : Type) (p : problem Cops W) (N : vec Cops -> vec Cops),
    eig_ok p -> expm_ok p (eig_exp p) -> respects (below (p_size p)) N ->
    forall (h : R) u i, (i < p_size p)%nat ->
      snd (as_Phi p N IF34z h u) i = csum (p_size p) (fun j => p_Sinv p i j * snd (as_Phi p N IF34n h u) j)%C.
Proof.
  intros W p N HS HX HN h u i Hi.
  rewrite (proj2 (if34z_ref W p N HS HN h u) i Hi). apply csum_ext. intros j Hj. f_equal.
  rewrite (proj2 (if34n_ref W p N _ HX HN h u) j Hj). symmetry.
  apply (vk_ext (below (p_size p)) _ (zflow (p_size p) (p_S p) (p_Sinv p) (p_eigs p)) N HN); [|apply zflow_eig_exp|exact Hj].
  intros t. apply (flow_lin _ _ (zflow_flow _ _ _ _ (proj1 HS) (proj2 HS))).
Qed.

(** Witness: L = ln 2 [[0,1],[1,0]] with its orthonormal eigenvectors; N keeps the first entry. *)
Definition rot_S : mat Cops := fun i j => if (Nat.eqb i 1 && Nat.eqb j 1)%bool then RtoC (- / sqrt 2) else RtoC (/ sqrt 2).
Definition rot_eigs : vec Cops := fun i => if Nat.eqb i 0 then RtoC (ln 2) else RtoC (- ln 2).
Definition rot_problem : problem Cops unit :=
  mk_problem (A := Cops) (fun v w => (inr (fun i => if Nat.eqb i 0 then v i else RtoC 0), w)) 2 rot_eigs
    (fun i j => if Nat.eqb i j then RtoC 0 else RtoC (ln 2))
    (mk_etdcfg (F := Rops) 1 32 1)
    (fun m => inr (fun i j => csum 2 (fun k => rot_S i k * Cexp (if Nat.eqb k 0 then m 0%nat 1%nat else - m 0%nat 1%nat) * rot_S k j)%C))
    (fun m => inr m) rot_S rot_S rot_eigs.
Definition first_entry : vec Cops -> vec Cops := fun v i => if Nat.eqb i 0 then v i else RtoC 0.
Lemma sqrt2_half : / sqrt 2 * / sqrt 2 = / 2.
Proof. rewrite <- Rinv_mult, sqrt_sqrt by lra. reflexivity. Qed.
Lemma rot_eig_ok : eig_ok rot_problem.
Proof.
  assert (G : meq 2 (mprod 2 rot_S rot_S) mident).
  { intros i j Hi Hj. assert (H := sqrt2_half). assert (i = 0%nat \/ i = 1%nat) by lia. assert (j = 0%nat \/ j = 1%nat) by lia.
    destruct H0 as [-> | ->], H1 as [-> | ->]; unfold mprod, rot_S, mident; cbn [csum Nat.eqb andb];
      apply C_eq; cbn; ring_simplify; nra. }
  split; exact G.
Qed.
Lemma rot_expm_ok : expm_ok rot_problem (eig_exp rot_problem).
Proof.
  assert (HZ := zflow_flow 2 rot_S rot_S rot_eigs (proj1 rot_eig_ok) (proj2 rot_eig_ok)).
  split; [|split].
  - intros t. cbn [rot_problem p_expm p_mat]. f_equal. apply functional_extensionality; intros i.
    apply functional_extensionality; intros j. unfold eig_exp. cbn [rot_problem p_size p_S p_Sinv p_eigs].
    cbn [csum Nat.eqb]. unfold rot_eigs. cbn [Nat.eqb].
    replace (- (RtoC t * RtoC (ln 2)))%C with (RtoC t * RtoC (- ln 2))%C; [reflexivity|].
    rewrite RtoC_opp. ring.
  - intros i j Hi Hj. unfold eig_exp. cbn [rot_problem p_size p_S p_Sinv p_eigs].
    rewrite <- (proj1 rot_eig_ok i j Hi Hj). unfold mprod. apply csum_ext. intros k _.
    rewrite Cmult_0_l, Cexp_0. cbn [rot_problem p_S p_Sinv]. ring.
  - intros s t i j Hi Hj. cbn [rot_problem p_size] in *.
    assert (E := mdot_prod 2 (eig_exp rot_problem s) (eig_exp rot_problem t) (fun k => mident k j) i Hi).
    assert (E2 : forall m, mdot 2 m (fun k => mident k j) i = m i j).
    { intros m. unfold mdot, mident. cbn [csum]. assert (j = 0%nat \/ j = 1%nat) by lia.
      destruct H as [-> | ->]; cbn [Nat.eqb]; ring. }
    rewrite E2 in E. rewrite <- E. rewrite <- (E2 (eig_exp rot_problem (s + t))).
    assert (HE : forall t v, veq (below 2) (mflow 2 (eig_exp rot_problem) t v) (zflow 2 rot_S rot_S rot_eigs t v))
      by (intros; apply (zflow_eig_exp rot_problem)).
    change (mflow 2 (eig_exp rot_problem) s (mflow 2 (eig_exp rot_problem) t (fun k => mident k j)) i
            = mflow 2 (eig_exp rot_problem) (s + t) (fun k => mident k j) i).
    rewrite (HE s _ i Hi), (HE (s + t) _ i Hi), <- (flow_comp _ _ HZ s t _ i Hi).
    apply (lin_ext _ _ (flow_lin _ _ HZ s)); [apply HE|exact Hi].
Qed.
Lemma first_entry_ok : respects (below 2) first_entry.
Proof. intros a b H i Hi. unfold first_entry. rewrite (H i Hi). reflexivity. Qed.

Lemma rot_flow t x y : exp (t * ln 2) = x -> exp (t * - ln 2) = y -> forall v,
  mflow 2 (eig_exp rot_problem) t v 0%nat = (RtoC ((x + y) / 2) * v 0%nat + RtoC ((x - y) / 2) * v 1%nat)%C.
Proof.
  intros Hx Hy v. assert (H := sqrt2_half). unfold mflow, mdot, eig_exp.
  cbn [rot_problem p_size p_S p_Sinv p_eigs csum rot_S rot_eigs Nat.eqb andb]. unfold rot_S, rot_eigs. cbn [Nat.eqb andb].
  rewrite <- !RtoC_mult, !Cexp_R, Hx, Hy, <- !RtoC_mult, <- !RtoC_plus.
  set (r := / sqrt 2) in *. clearbody r.
  replace (0 + r * x * r + r * y * r) with ((x + y) * (r * r)) by ring.
  replace (0 + r * x * r + r * y * - r) with ((x - y) * (r * r)) by ring.
  rewrite H. unfold Rdiv. ring.
Qed.

Theorem C48_if34_error_refuted :
  let u := fun i : nat => if Nat.eqb i 0 then RtoC 1 else RtoC 0 in
  snd (as_Phi rot_problem first_entry IF34n 2 u) 0%nat = RtoC (- / 8) /\
  snd (as_Phi rot_problem first_entry IF34z 2 u) 0%nat = RtoC (- / 8 * / sqrt 2) /\
  snd (as_Phi rot_problem first_entry IF34z 2 u) 0%nat <> snd (as_Phi rot_problem first_entry IF34n 2 u) 0%nat.
Proof.
  intros u. set (p := rot_problem).
  assert (H0 : (0 < 2)%nat) by lia. assert (H1 : (1 < 2)%nat) by lia.
  destruct (if34n_ref _ p first_entry _ rot_expm_ok first_entry_ok 2 u) as [_ HE].
  set (P := mflow (p_size p) (eig_exp p)) in *. change (mflow (p_size p) (eig_exp rot_problem)) with P in HE.
  assert (F1 : forall v, P (2 / 2) v 0%nat = (RtoC (5/4) * v 0%nat + RtoC (3/4) * v 1%nat)%C).
  { intros v. unfold P, p. rewrite (rot_flow (2 / 2) 2 (/ 2)).
    - f_equal; f_equal; f_equal; field.
    - replace (2 / 2 * ln 2) with (ln 2) by field. apply exp_ln. lra.
    - replace (2 / 2 * - ln 2) with (- ln 2) by field. rewrite exp_Ropp, exp_ln; lra. }
  assert (F2 : forall v, P 2 v 0%nat = (RtoC (17/8) * v 0%nat + RtoC (15/8) * v 1%nat)%C).
  { intros v. unfold P, p. rewrite (rot_flow 2 4 (/ 4)).
    - f_equal; f_equal; f_equal; field.
    - replace (2 * ln 2) with (ln 2 + ln 2) by ring. rewrite exp_plus, exp_ln; lra.
    - replace (2 * - ln 2) with (- ln 2 + - ln 2) by ring. rewrite exp_plus, exp_Ropp, exp_ln; lra. }
  assert (N0 : forall v, first_entry v 0%nat = v 0%nat) by reflexivity.
  assert (N1 : forall v, first_entry v 1%nat = RtoC 0) by reflexivity.
  assert (V2 : v2 P first_entry 2 u 0%nat = RtoC (5 / 2)).
  { unfold v2, cadd, cscal. rewrite !F1, N0, N1. unfold u. cbn [Nat.eqb]. apply C_eq; cbn; field. }
  assert (V3 : v3 P first_entry 2 u 0%nat = RtoC (15 / 4)).
  { unfold v3, cadd, cscal. rewrite !F1, N0, V2. unfold u. cbn [Nat.eqb]. apply C_eq; cbn; field. }
  assert (V4 : v4 P first_entry 2 u 0%nat = RtoC (23 / 2)).
  { unfold v4, cadd, cscal. rewrite F1, F2, N0, N1, V3. unfold u. cbn [Nat.eqb]. apply C_eq; cbn; field. }
  assert (VK : vk P first_entry 2 u 0%nat = RtoC (95 / 8)).
  { unfold vk. rewrite !F1, !F2, !N0, !N1, V2, V3, V4. unfold u. cbn [Nat.eqb]. apply C_eq; cbn; field. }
  assert (EN : snd (as_Phi p first_entry IF34n 2 u) 0%nat = RtoC (- / 8)).
  { rewrite (HE 0%nat H0). unfold verr. rewrite !N0, V4, VK. apply C_eq; cbn; field. }
  assert (EN1 : snd (as_Phi p first_entry IF34n 2 u) 1%nat = RtoC 0).
  { rewrite (HE 1%nat H1). unfold verr. rewrite !N1. ceq. ring. }
  assert (EZ : snd (as_Phi p first_entry IF34z 2 u) 0%nat = RtoC (- / 8 * / sqrt 2)).
  { rewrite (C48_if34_error_in_eigenbasis _ p first_entry rot_eig_ok rot_expm_ok first_entry_ok 2 u 0%nat H0).
    cbn [p rot_problem p_size csum]. unfold p in *. rewrite EN, EN1. cbn [rot_problem p_Sinv].
    unfold rot_S. cbn [Nat.eqb andb]. rewrite <- !RtoC_mult, <- !RtoC_plus. f_equal. ring. }
  split; [exact EN|]. split; [exact EZ|]. rewrite EN, EZ. intros H. injection H as H.
  assert (S := sqrt2_half). assert (S' : / sqrt 2 = 1) by lra. rewrite S' in S. lra.
Qed.

Print Assumptions C32_if4_every_step.
Print Assumptions C48_if34_error_refuted.
