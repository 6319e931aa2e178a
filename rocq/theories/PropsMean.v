(** * The mean along runs of the Burgers and KdV models (C61) *)

From Coq Require Import ZArith List Bool Reals Lra Lia FunctionalExtensionality QArith Qreals.
From Coquelicot Require Import Complex.
From Verif Require Import Scalars Control ControlCS ControlCSReal ControlAS ControlASReal ControlSim ControlSound ControlInv Arrays SchemeBase SchemeIF SchemeETD4 SchemeETD5 Solvers
     SchemeFacts SchemeSound SchemeFamily SchemeForm CInst SpecRK SchemeIFReal SpecPhi SpecERK ContourReal SchemeETDReal
     SchemeETDCoefs PropsCache PropsIF PropsETD Config Grids Derivatives Fourier PropsGrids PropsDeriv Models PropsSpectral.
Import ListNotations.
Local Open Scope R_scope.

(** ** Real coefficients at real arguments *)
Lemma Cexp_conj z : Cexp (Cconj z) = Cconj (Cexp z).
Proof. unfold Cexp, Cconj. cbn [fst snd]. rewrite cos_neg, sin_neg. apply C_eq; cbn [fst snd]; ring. Qed.
Lemma Cinv_conj z : (/ Cconj z)%C = Cconj (/ z)%C.
Proof.
  destruct z as [x y]. unfold Cinv, Cconj. cbn [fst snd]. replace (x ^ 2 + (- y) ^ 2) with (x ^ 2 + y ^ 2) by ring.
  apply C_eq; cbn [fst snd]; unfold Rdiv; ring.
Qed.
Lemma Cminus_conj a b : Cconj (a - b)%C = (Cconj a - Cconj b)%C.
Proof. unfold Cconj, Cminus, Cplus, Copp. cbn. apply C_eq; cbn; ring. Qed.
Lemma Cdiv_conj a b : Cconj (a / b)%C = (Cconj a / Cconj b)%C.
Proof. unfold Cdiv. now rewrite Cmult_conj, Cinv_conj. Qed.
Lemma psi_conj r z : psi_code r (Cconj z) = Cconj (psi_code r z).
Proof.
  destruct r as [|[|[|r]]]; cbn [psi_code]; unfold psi1, psi2, psi3, lit; cbn [Cops eofT eadd esub emul ediv eexp eneg Rops tofZ];
    rewrite ?Cexp_conj; repeat rewrite ?Cdiv_conj, ?Cminus_conj, ?Cplus_conj, ?Cmult_conj, ?Cconj_R; reflexivity.
Qed.
Section Real.
  Variable cfg : etdcfg Rops.
  Notation M := (contour_points cfg).
  Lemma rho_conj j : (j < M)%nat -> Cconj (rho cfg j) = rho cfg (M - 1 - j).
  Proof.
    intros H. rewrite !rho_eq by lia. rewrite Cmult_conj, Cconj_R, <- Cexp_conj. f_equal.
    assert (M0 : INR M <> 0) by (apply not_0_INR; lia).
    replace (Cconj (0, 2 * PI * (1 / 2 + INR j) / INR M)) with ((0, 2 * PI * (1 / 2 + INR (M - 1 - j)) / INR M)%R - (0, 2 * PI)%R)%C.
    - unfold Cminus. rewrite Cexp_plus, Cexp_opp. replace (Cexp (0, 2 * PI)) with (RtoC 1); [field; intros X; injection X; lra|].
      unfold Cexp. cbn [fst snd]. rewrite exp_0, cos_2PI, sin_2PI. apply C_eq; cbn; ring.
    - unfold Cconj, Cminus, Cplus, Copp. cbn [fst snd]. apply C_eq; cbn [fst snd]; [ring|].
      rewrite !minus_INR by lia. cbn [INR]. field. exact M0.
  Qed.
  Lemma psi_used_real r q x : snd (psi_used cfg r q (RtoC x)) = 0.
  Proof.
    unfold psi_used. apply Creal. destruct (Rlt_dec (Cmod (RtoC x)) (modecutoff cfg)).
    - rewrite Cdiv_conj, Cconj_R. f_equal. rewrite csum_conj, (csum_rev M (fun j => psi_code r (RtoC q * (RtoC x + rho cfg j))%C)).
      apply csum_ext. intros j Hj. rewrite <- psi_conj, Cmult_conj, Cplus_conj, !Cconj_R, rho_conj by exact Hj. reflexivity.
    - rewrite <- psi_conj, Cmult_conj, !Cconj_R. reflexivity.
  Qed.
  Lemma ph_real r q x : snd (ph cfg r q (RtoC x)) = 0.
  Proof. unfold ph, Cmult. cbn [fst snd RtoC]. rewrite psi_used_real. ring. Qed.
End Real.

(** ** Sets that exponential Runge-Kutta and Lawson steps do not leave *)
Section Invariant.
  Variables G Z : cvec -> Prop.
  Hypothesis Z0 : Z (fun _ => RtoC 0).
  Hypothesis Zadd : forall v w, Z v -> Z w -> Z (cadd v w).
  Hypothesis Zscal : forall (r : R) v, Z v -> Z (cscal (RtoC r) v).
  Hypothesis GZ : forall u v, G u -> Z v -> G (cadd u v).
  Variable N : cvec -> cvec.
  Hypothesis HN : forall v, G v -> Z (N v).

  Definition zop (o : cvec -> cvec) : Prop := forall v, Z v -> Z (o v).
  Definition gop (o : cvec -> cvec) : Prop := forall v, G v -> G (o v).
  Lemma zop_add a b : zop a -> zop b -> zop (oadd a b).
  Proof. intros Ha Hb v Hv. apply Zadd; auto. Qed.
  Lemma zop_scal r a : zop a -> zop (oscal r a).
  Proof. intros Ha v Hv. apply Zscal; auto. Qed.
  Lemma zop_sub a b : zop a -> zop b -> zop (osub a b).
  Proof. intros Ha Hb. apply zop_add; [exact Ha|]. now apply zop_scal. Qed.
  Lemma zop_zero : zop ozero.
  Proof. intros v _. exact Z0. Qed.
  Lemma gop_id : gop (fun v => v).
  Proof. intros v Hv. exact Hv. Qed.

  Lemma ocomb_Z os : Forall zop os -> forall ns, Forall Z ns -> Z (ocomb os ns).
  Proof.
    induction 1 as [|o os Ho _ IH]; intros ns Hn; [exact Z0|]. destruct Hn as [|n ns Hn Hns]; [exact Z0|].
    cbn [ocomb]. apply Zadd; [apply Ho, Hn|apply IH, Hns].
  Qed.
  Lemma erk_value_G h u E row ns : gop E -> Forall zop row -> Forall Z ns -> G u -> G (erk_value h u E row ns).
  Proof. intros HE Hr Hn Hu. unfold erk_value. apply GZ; [apply HE, Hu|]. apply Zscal, ocomb_Z; assumption. Qed.
  Lemma erk_stages_Z h u : G u -> forall Es rows ns, Forall gop Es -> Forall (Forall zop) rows -> Forall Z ns -> Forall Z (erk_stages N h u Es rows ns).
  Proof.
    intros Hu. induction Es as [|E Es IH]; intros rows ns HE Hr Hn; [exact Hn|]. destruct rows as [|row rows]; [exact Hn|].
    inversion HE; subst. inversion Hr; subst. cbn [erk_stages]. apply IH; [assumption|assumption|].
    apply Forall_app. split; [exact Hn|]. constructor; [|constructor]. apply HN, erk_value_G; assumption.
  Qed.
  Definition inv_erk (m : erk) : Prop := Forall gop (er_E m) /\ Forall (Forall zop) (er_a m) /\ gop (er_E1 m) /\ Forall zop (er_b m).
  Lemma erk_step_G m h u : inv_erk m -> G u -> G (erk_step m N h u).
  Proof. intros (H1 & H2 & H3 & H4) Hu. apply erk_value_G; [exact H3|exact H4|apply erk_stages_Z; auto|exact Hu]. Qed.
  Lemma krogstad_inv E12 E1 f1h f2h f1 f2 f3 : gop E12 -> gop E1 -> Forall zop [f1h; f2h; f1; f2; f3] -> inv_erk (krogstad E12 E1 f1h f2h f1 f2 f3).
  Proof.
    intros G1 G2 H. repeat match goal with H : Forall _ (_ :: _) |- _ => inversion H; clear H; subst end.
    split; [|split; [|split]]; cbn [krogstad er_E er_a er_E1 er_b];
      repeat (first [assumption | apply Forall_nil | apply Forall_cons | apply zop_sub | apply zop_add | apply zop_scal | apply zop_zero | apply gop_id]).
  Qed.
  Lemma etd5_inv E14 E12 E34 E1 f1q f2q f1h f2h f1t f2t f1 f2 f3 : gop E14 -> gop E12 -> gop E34 -> gop E1 ->
    Forall zop [f1q; f2q; f1h; f2h; f1t; f2t; f1; f2; f3] -> inv_erk (etd5_method E14 E12 E34 E1 f1q f2q f1h f2h f1t f2t f1 f2 f3).
  Proof.
    intros G1 G2 G3 G4 H. repeat match goal with H : Forall _ (_ :: _) |- _ => inversion H; clear H; subst end.
    split; [|split; [|split]]; cbn [etd5_method er_E er_a er_E1 er_b];
      repeat (first [assumption | apply Forall_nil | apply Forall_cons | apply zop_sub | apply zop_add | apply zop_scal | apply zop_zero | apply gop_id]).
  Qed.

  (** Lawson. *)
  Variable Phi : R -> cvec -> cvec.
  Hypothesis PG : forall t, gop (Phi t).
  Hypothesis PZ : forall t, zop (Phi t).
  Lemma lincomb_Z qs : forall ks, Forall Z ks -> Z (lincomb qs ks).
  Proof.
    induction qs as [|q qs IH]; intros ks Hk; [exact Z0|]. destruct Hk as [|k ks Hk Hks]; [exact Z0|].
    change (Z (cadd (cscal (RtoC (Q2R q)) k) (lincomb qs ks))). apply Zadd; [apply Zscal, Hk|apply IH, Hks].
  Qed.
  Lemma rk_stages_Z t h u : G u -> forall rows cs ks, Forall Z ks ->
    Forall Z (rk_stages (fun t w => Phi (- t) (N (Phi t w))) t h u rows cs ks).
  Proof.
    intros Hu. induction rows as [|row rows IH]; intros cs ks Hk; [exact Hk|]. destruct cs as [|c cs]; [exact Hk|].
    cbn [rk_stages]. apply IH. apply Forall_app. split; [exact Hk|]. constructor; [|constructor].
    apply PZ, HN, PG. change (G (cadd u (cscal (RtoC h) (lincomb row ks)))). apply GZ; [exact Hu|]. apply Zscal, lincomb_Z, Hk.
  Qed.
  Lemma lawson_G tb h u : G u -> G (lawson tb Phi N h u).
  Proof.
    intros Hu. unfold lawson. apply PG. match goal with |- G (rk_step ?tb ?g ?t ?h ?u) =>
      change (G (cadd u (cscal (RtoC h) (lincomb (tb_b tb) (rk_stages g t h u (tb_a tb) (tb_c tb) []))))) end.
    apply GZ; [exact Hu|]. apply Zscal, lincomb_Z, rk_stages_Z; [exact Hu|constructor].
  Qed.
End Invariant.

(** The seven solvers for 1-D operators: what one step returns (the candidate, for the adaptive ones). *)
Definition diag_candidates {W} (p : problem Cops W) (N : vec Cops -> vec Cops) (h : R) (u : vec Cops) : list (vec Cops) :=
  [cs_Phi p N IF4d h u; cs_Phi p N ETD4d h u; cs_Phi p N ETD5d h u; fst (as_Phi p N IF34d h u); fst (as_Phi p N IF45DPd h u);
   fst (as_Phi p N ETD34d h u); fst (as_Phi p N ETD35d h u)].

(** A set that is kept by multiplication with [f(h L)] for every [f] with real values at real arguments and by the exponentials. *)
Lemma diag_candidates_G {W} (p : problem Cops W) (N : vec Cops -> vec Cops) (G Z : cvec -> Prop) :
  Z (fun _ => RtoC 0) -> (forall v w, Z v -> Z w -> Z (cadd v w)) -> (forall (r : R) v, Z v -> Z (cscal (RtoC r) v)) ->
  (forall u v, G u -> Z v -> G (cadd u v)) -> (forall v, G v -> Z (N v)) ->
  (forall h f, (forall x, snd (f (RtoC x)) = 0) -> zop Z (dfun h (p_vec p) f)) ->
  (forall h q, gop G (dfun h (p_vec p) (fun z => Cexp (RtoC q * z))%C)) ->
  forall h u, G u -> Forall G (diag_candidates p N h u).
Proof.
  intros Z0 Zadd Zscal GZ HN HZ HG h u Hu.
  assert (PG : forall t, gop G (dflow (p_vec p) t)).
  { intros t v Hv. assert (Q := HG t 1 v Hv). replace (dflow (p_vec p) t v) with (dfun t (p_vec p) (fun z => Cexp (RtoC 1 * z))%C v); [exact Q|].
    apply functional_extensionality. intros i. unfold dfun, dflow. f_equal. f_equal. ring. }
  assert (PZ : forall t, zop Z (dflow (p_vec p) t)).
  { intros t v Hv. refine (HZ t Cexp _ v Hv). intros x. rewrite Cexp_R. reflexivity. }
  assert (HE : forall q, gop G (dE h (p_vec p) q)) by (intros q; apply HG).
  assert (HP : forall r q, zop Z (dph (p_cfg p) h (p_vec p) r q)) by (intros r q; apply HZ; apply ph_real).
  assert (I4 : G (lawson RK4 (dflow (p_vec p)) N h u)) by (apply (lawson_G G Z); assumption).
  assert (K4 : G (erk_step (d_krogstad (p_cfg p) h (p_vec p)) N h u)).
  { apply (erk_step_G G Z); [assumption..| |exact Hu]. apply krogstad_inv; auto. repeat (apply Forall_cons; [apply HP|]). apply Forall_nil. }
  assert (K5 : G (erk_step (d_etd5 (p_cfg p) h (p_vec p)) N h u)).
  { apply (erk_step_G G Z); [assumption..| |exact Hu]. apply etd5_inv; auto. repeat (apply Forall_cons; [apply HP|]). apply Forall_nil. }
  unfold diag_candidates. repeat apply Forall_cons; [| | | | | | |apply Forall_nil].
  - rewrite C32_if4_diagonal. exact I4.
  - rewrite etd4d_erk. exact K4.
  - rewrite etd5d_erk. exact K5.
  - replace (fst (as_Phi p N IF34d h u)) with (lawson RK4 (dflow (p_vec p)) N h u); [exact I4|].
    apply functional_extensionality. intros i. symmetry. apply C33_if34_diagonal.
  - rewrite C34_if45dp_candidate. apply (lawson_G G Z); assumption.
  - rewrite etd34d_erk. exact K4.
  - rewrite etd35d_erk. exact K5.
Qed.

(** ** Operators of models.py as solver input: lists of [n] numbers as functions of the index. *)
Definition of_list (l : list C) : cvec := fun i => nth i l (RtoC 0).
Definition applied (f : list C -> exn + list C) (n : nat) (v : cvec) : exn + cvec :=
  match f (tab n v) with inl e => inl e | inr r => inr (of_list r) end.
(** The nonlinear function of [p] is [f], and [f] never fails on arrays of [n] entries. *)
Definition computes {W} (p : problem Cops W) (f : list C -> exn + list C) (n : nat) : Prop :=
  (forall v w, fst (p_nl p v w) = applied f n v) /\ linalg_total p.

Lemma tab_at0 n (v : cvec) k : (k < n)%nat -> nth k (tab n v) (RtoC 0) = v k.
Proof. intros H. change (at_ (RtoC 0) (tab n v) k = v k). now rewrite tab_nth. Qed.

Section Burgers.
  Variable W : Type.
  Variable p : problem Cops W.
  Variable kx : list R.
  Variables (mu : R) (h : nat).
  Hypothesis Hh : (0 < h)%nat.
  Hypothesis Hk : length kx = S h.
  Hypothesis K0 : nth 0 kx 0 = 0.
  Hypothesis HL : p_vec p = of_list (burgers_lin kx mu).
  Variable N : cvec -> cvec.
  Hypothesis HN : forall v, applied (burgers_nl kx) (S h) v = inr (N v).
  Variable c0 : C.
  Let G (v : cvec) := v O = c0 /\ snd (v h) = 0.
  Let Z (v : cvec) := v O = RtoC 0 /\ snd (v h) = 0.

  Lemma burgers_L i : exists x, p_vec p i = RtoC x /\ (i = O -> x = 0).
  Proof.
    rewrite HL. unfold of_list, burgers_lin. destruct (lt_dec i (length kx)) as [L|L].
    - exists (- mu * nth i kx 0 ^ 2). split.
      + rewrite (nth_indep _ _ (RtoC (- mu * 0 ^ 2))) by (rewrite map_length; exact L).
        now rewrite (map_nth (fun k => RtoC (- mu * k ^ 2))).
      + intros ->. rewrite K0. ring.
    - exists 0. split; [|reflexivity]. apply nth_overflow. rewrite map_length. lia.
  Qed.
  Lemma burgers_G tau u : G u -> Forall G (diag_candidates p N tau u).
  Proof.
    apply (diag_candidates_G p N G Z).
    - split; reflexivity.
    - intros v w [A1 A2] [B1 B2]. split; unfold cadd.
      + rewrite A1, B1. ring.
      + unfold Cplus. cbn [snd]. rewrite A2, B2. ring.
    - intros r v [A1 A2]. split; unfold cscal.
      + rewrite A1. ring.
      + unfold Cmult. cbn [fst snd RtoC]. rewrite A2. ring.
    - intros u0 v [A1 A2] [B1 B2]. split; unfold cadd.
      + rewrite A1, B1. ring.
      + unfold Cplus. cbn [snd]. rewrite A2, B2. ring.
    - intros v [A1 A2]. assert (E := HN v). unfold applied in E.
      destruct (C61_zero_mode kx (tab (S h) v) h Hk (tab_len _ _) Hh) as (r1 & r2 & _ & E2 & _ & L2 & X).
      rewrite E2 in E. apply inr_inj in E. rewrite <- E. cbv zeta in X. destruct X as (_ & Y & _ & Yh). unfold of_list.
      split; [|exact Yh]. rewrite Y, K0, !tab_at0 by lia. rewrite A2. f_equal. ring.
    - intros t f Hf v [A1 A2]. unfold dfun. split.
      + rewrite A1. ring.
      + destruct (burgers_L h) as (x & -> & _). rewrite <- RtoC_mult. unfold Cmult. cbn [snd]. rewrite Hf, A2. ring.
    - intros t q v [A1 A2]. unfold dfun. split.
      + destruct (burgers_L 0) as (x & -> & X). rewrite (X eq_refl), !Cmult_0_r, Cexp_0, A1. ring.
      + destruct (burgers_L h) as (x & -> & _). rewrite <- !RtoC_mult, Cexp_R. unfold Cmult. cbn [fst snd RtoC]. rewrite A2. ring.
  Qed.
End Burgers.

(** C61, Burgers: a step of any of the seven solvers keeps the zero mode (the mean) exactly, and keeps the Nyquist component real. *)
Theorem C61_burgers_mean_step {W} (p : problem Cops W) (kx : list R) (mu : R) (h : nat) (N : cvec -> cvec) :
  (0 < h)%nat -> length kx = S h -> nth 0 kx 0 = 0 -> p_vec p = of_list (burgers_lin kx mu) ->
  (forall v, applied (burgers_nl kx) (S h) v = inr (N v)) ->
  forall (tau : R) (u : cvec), snd (u h) = 0 -> Forall (fun c => c O = u O /\ snd (c h) = 0) (diag_candidates p N tau u).
Proof.
  intros Hh Hk K0 HL HN tau u Hu. apply (burgers_G W p kx mu h Hh Hk K0 HL N HN (u O) tau u). split; [reflexivity|exact Hu].
Qed.

Definition diag_cs (k : cs_kind) : bool := match k with IF4d | ETD4d | ETD5d => true | _ => false end.
Definition diag_as (k : as_kind) : bool := match k with IF34d | IF45DPd | ETD34d | ETD35d => true | _ => false end.

(** Whole runs: every state stored by [evolve] and the state it returns have the mean of the initial state, whatever the
    outcome of the run, the step sizes and the history of the solver object. *)
Theorem C61_burgers_mean_runs {W} (p : problem Cops W) (kx : list R) (mu : R) (h : nat) :
  (0 < h)%nat -> length kx = S h -> nth 0 kx 0 = 0 -> p_vec p = of_list (burgers_lin kx mu) -> computes p (burgers_nl kx) (S h) ->
  forall u : cvec, snd (u h) = 0 -> let ok := fun c : cvec => c O = u O in
  (forall k fuel t0 tf hstep sd sf (o : csobj Rops (vec Cops) W (cs_model p k)) w r o' w', diag_cs k = true ->
     cs_evolve fuel u t0 tf hstep sd sf o w = (r, o', w') -> Forall ok (c_u o') /\ forall u', r = Ret u' -> ok u') /\
  (forall k ks cfg cs fuel t0 tf hi sd sf (o : asobj Rops (vec Cops) W (as_model p k)) w r o' w', diag_as k = true ->
     as_evolve ks cfg cs fuel u t0 tf hi sd sf o w = (r, o', w') -> Forall ok (a_u o') /\ forall u', r = Ret u' -> ok u').
Proof.
  intros Hh Hk K0 HL [HP HT] u Hu ok.
  set (N := fun v => match applied (burgers_nl kx) (S h) v with inr y => y | inl _ => fun _ => RtoC 0 end).
  assert (HN : forall v, applied (burgers_nl kx) (S h) v = inr (N v)).
  { intros v. unfold N, applied. destruct (C61_zero_mode kx (tab (S h) v) h Hk (tab_len _ _) Hh) as (r1 & r2 & _ & -> & _). reflexivity. }
  assert (HNL : forall v w y w', p_nl p v w = (inr y, w') -> y = N v).
  { intros v w y w' E. assert (Q := HP v w). rewrite E, HN in Q. cbn [fst] in Q. now apply inr_inj in Q. }
  set (G := fun c : cvec => c O = u O /\ snd (c h) = 0).
  assert (HG := fun tau v => burgers_G W p kx mu h Hh Hk K0 HL N HN (u O) tau v).
  assert (Gu : G u) by (split; [reflexivity|exact Hu]).
  split.
  - intros k fuel t0 tf hs sd sf o w r o' w' Dk E.
    assert (H1 : cs_sound (cs_model p k) (cs_Phi p N k) (cs_inv p N k)).
    { apply cs_model_sound; [exact HNL|exact HT|]. intros a b X. apply Reqb_true in X. now subst. }
    assert (H2 : forall tau v, G v -> G (cs_Phi p N k tau v)).
    { intros tau v Gv. assert (Q := HG tau v Gv). unfold diag_candidates in Q.
      apply Forall_cons_iff in Q; destruct Q as [Q1 Q]. apply Forall_cons_iff in Q; destruct Q as [Q2 Q].
      apply Forall_cons_iff in Q; destruct Q as [Q3 Q]. apply Forall_cons_iff in Q; destruct Q as [Q4 Q].
      apply Forall_cons_iff in Q; destruct Q as [Q5 Q]. apply Forall_cons_iff in Q; destruct Q as [Q6 Q].
      apply Forall_cons_iff in Q; destruct Q as [Q7 _].
      destruct k; try discriminate Dk; [exact Q1|exact Q2|exact Q3]. }
    destruct (@cs_evolve_inv Rops (vec Cops) W (cs_model p k) _ _ G H1 H2 _ _ _ _ _ _ _ _ _ _ _ _ Gu E) as [A B].
    split; [eapply Forall_impl; [|exact A]; intros c [X _]; exact X|]. intros u' X. apply (B u' X).
  - intros k ks cfg cs fuel t0 tf hi sd sf o w r o' w' Dk E.
    assert (H1 : as_sound (as_model p k) (as_Phi p N k) (as_inv p N k)).
    { apply as_model_sound; [exact HNL|exact HT|]. intros a b X. apply Reqb_true in X. now subst. }
    assert (H2 : forall tau v, G v -> G (fst (as_Phi p N k tau v))).
    { intros tau v Gv. assert (Q := HG tau v Gv). unfold diag_candidates in Q.
      apply Forall_cons_iff in Q; destruct Q as [Q1 Q]. apply Forall_cons_iff in Q; destruct Q as [Q2 Q].
      apply Forall_cons_iff in Q; destruct Q as [Q3 Q]. apply Forall_cons_iff in Q; destruct Q as [Q4 Q].
      apply Forall_cons_iff in Q; destruct Q as [Q5 Q]. apply Forall_cons_iff in Q; destruct Q as [Q6 Q].
      apply Forall_cons_iff in Q; destruct Q as [Q7 _].
      destruct k; try discriminate Dk; [exact Q4|exact Q5|exact Q6|exact Q7]. }
    destruct (@as_evolve_inv Rops (vec Cops) W (as_model p k) _ _ G H1 H2 ks cfg cs _ _ _ _ _ _ _ _ _ _ _ _ Gu E) as [A B].
    split; [eapply Forall_impl; [|exact A]; intros c [X _]; exact X|]. intros u' X. apply (B u' X).
Qed.

(** ** KdV: the mean is not conserved

    The linear operator of the KdV equation turns the phase of the Nyquist component, whose imaginary part the inverse
    transform ignores; the two factors of [u u_x] are then not the samples of a function and its derivative. *)
Lemma w_half h j : (0 < h)%nat -> w (2 * h) (Z.of_nat j * Z.of_nat h) = RtoC ((-1) ^ j).
Proof.
  intros Hh. rewrite <- w_pow by lia. assert (E : w (2 * h) (Z.of_nat h) = RtoC (-1)).
  { unfold w. rewrite <- INR_IZR_INZ, mult_INR. cbn [INR].
    replace (2 * PI * INR h / ((1 + 1) * INR h)) with PI by (field; apply not_0_INR; lia).
    unfold Cexp. cbn [fst snd]. rewrite exp_0, cos_PI, sin_PI. apply C_eq; cbn; ring. }
  rewrite E. clear E. induction j as [|j IH]; [reflexivity|]. cbn [cpow pow]. rewrite IH, <- RtoC_mult. reflexivity.
Qed.
Lemma csum_two n i j f : (i < n)%nat -> (j < n)%nat -> i <> j -> (forall k, (k < n)%nat -> k <> i -> k <> j -> f k = RtoC 0) ->
  csum n f = (f i + f j)%C.
Proof.
  intros Hi Hj Q H. apply injective_projections.
  - rewrite csum_fst. rewrite (rsum_two n i j) by (auto; intros k K1 K2 K3; now rewrite H). reflexivity.
  - rewrite csum_snd. rewrite (rsum_two n i j) by (auto; intros k K1 K2 K3; now rewrite H). reflexivity.
Qed.
Lemma sq1 j : (-1) ^ j * (-1) ^ j = 1.
Proof. rewrite <- pow_add. replace (j + j)%nat with (2 * j)%nat by lia. apply pow_1_even. Qed.

(** States with components 0 and [h] only. *)
Lemma two_modes_idft h v j : (0 < h)%nat -> (forall k, (0 < k < h)%nat -> v k = RtoC 0) ->
  fst (idft (2 * h) (hermitian (2 * h) v) j) = / INR (2 * h) * (fst (v O) + (-1) ^ j * fst (v h)).
Proof.
  intros Hh Hv. rewrite idft_w by lia.
  rewrite (csum_two (2 * h) 0 h); [|lia|lia|lia|].
  - rewrite Z.mul_0_r, w_0, w_half by lia. unfold hermitian. cbn [Nat.eqb orb].
    replace (Nat.eqb h 0) with false by (symmetry; apply Nat.eqb_neq; lia). rewrite Nat.eqb_refl. cbn [orb].
    unfold Cmult, Cplus, RtoC. cbn [fst snd]. ring.
  - intros k Hk Q0 Qh. unfold hermitian. replace (Nat.eqb k 0) with false by (symmetry; apply Nat.eqb_neq; lia).
    replace (Nat.eqb (2 * k) (2 * h)) with false by (symmetry; apply Nat.eqb_neq; lia). cbn [orb].
    destruct (Nat.ltb_spec (2 * k) (2 * h)).
    + rewrite Hv by lia. ring.
    + rewrite Hv by lia. rewrite Cconj_R. ring.
Qed.
Lemma two_modes_prod kx v h j : (0 < h)%nat -> (forall k, (0 < k < h)%nat -> nth k v (RtoC 0) = RtoC 0) -> nth 0 kx 0 = 0 ->
  prod_samples kx v h j = - (nth h kx 0 * snd (nth h v (RtoC 0))) / INR (2 * h) ^ 2 *
    ((-1) ^ j * fst (nth 0 v (RtoC 0)) + fst (nth h v (RtoC 0))).
Proof.
  intros Hh Hv K0. unfold prod_samples. rewrite two_modes_idft by (try assumption; exact Hv).
  rewrite two_modes_idft by (try assumption; intros k Hk; unfold at_; rewrite Hv by exact Hk; ring).
  unfold at_. rewrite K0. unfold Cmult. cbn [fst snd]. assert (S1 := sq1 j).
  assert (N0 : INR (2 * h) <> 0) by (apply not_0_INR; lia).
  set (a := fst (nth 0 v (RtoC 0))). set (b := fst (nth h v (RtoC 0))). set (y := snd (nth h v (RtoC 0))). set (K := nth h kx 0).
  transitivity (- (K * y) / INR (2 * h) ^ 2 * ((-1) ^ j * a + ((-1) ^ j * (-1) ^ j) * b)); [field; exact N0|]. rewrite S1. now rewrite Rmult_1_l.
Qed.
Lemma two_modes_kdv kx v r h : (0 < h)%nat -> length kx = S h -> length v = S h -> nth 0 kx 0 = 0 ->
  (forall k, (0 < k < h)%nat -> nth k v (RtoC 0) = RtoC 0) -> kdv_nl kx v = inr r ->
  forall k, (0 < k <= h)%nat -> nth k r (RtoC 0) =
    if Nat.eqb k h then RtoC (3 * nth h kx 0 / INR h * (snd (nth h v (RtoC 0)) * fst (nth 0 v (RtoC 0)))) else RtoC 0.
Proof.
  intros Hh Lk Lv K0 Hv E k Hk. rewrite (advection_at (-6) kx v r h k) by (assumption || lia).
  assert (N0 : INR (2 * h) <> 0) by (apply not_0_INR; lia). assert (H0 : INR h <> 0) by (apply not_0_INR; lia).
  rewrite dft_w by lia. set (A := - (nth h kx 0 * snd (nth h v (RtoC 0))) / INR (2 * h) ^ 2).
  set (a := fst (nth 0 v (RtoC 0))). set (b := fst (nth h v (RtoC 0))).
  rewrite (csum_ext _ _ (fun j => RtoC (A * a) * w (2 * h) (Z.of_nat j * (Z.of_nat h - Z.of_nat k)) +
    RtoC (A * b) * w (2 * h) (Z.of_nat j * (- Z.of_nat k)))%C).
  2:{ intros j _. rewrite two_modes_prod by assumption. fold A a b.
      replace (Z.of_nat j * (Z.of_nat h - Z.of_nat k))%Z with (Z.of_nat j * Z.of_nat h + - (Z.of_nat j * Z.of_nat k))%Z by lia.
      rewrite w_add, w_half by lia. replace (Z.of_nat j * - Z.of_nat k)%Z with (- (Z.of_nat j * Z.of_nat k))%Z by lia.
      rewrite !RtoC_mult, RtoC_plus, !RtoC_mult. ring. }
  rewrite csum_plus, !csum_scal, !w_sum by lia. rewrite delta_small by lia.
  replace (- Z.of_nat k)%Z with (Z.of_nat 0 - Z.of_nat k)%Z by lia. rewrite delta_small by lia.
  replace (Nat.eqb 0 k) with false by (symmetry; apply Nat.eqb_neq; lia). rewrite (Nat.eqb_sym h k).
  destruct (Nat.eqb_spec k h) as [->|Q].
  - rewrite !Cmult_0_r, Cplus_0_r, Cmult_1_r, <- !RtoC_mult. f_equal. unfold A. rewrite mult_INR in *. cbn [INR] in *. field. exact H0.
  - ring.
Qed.

Section KdV.
  Variable W : Type.
  Variable p : problem Cops W.
  Variable kx : list R.
  Variable h : nat.
  Hypothesis Hh : (0 < h)%nat.
  Hypothesis Hk : length kx = S h.
  Hypothesis K0 : nth 0 kx 0 = 0.
  Hypothesis HL : p_vec p = of_list (kdv_lin kx).
  Variable N : cvec -> cvec.
  Hypothesis HN : forall v, applied (kdv_nl kx) (S h) v = inr (N v).
  Let K := nth h kx 0.
  Hypothesis KP : 0 < K.
  Let g := 3 * K / INR h.

  Lemma kdv_L i : (i <= h)%nat -> p_vec p i = (0, nth i kx 0 ^ 3).
  Proof.
    intros Hi. rewrite HL. unfold of_list, kdv_lin.
    rewrite (nth_indep _ _ ((0, 1)%R * RtoC (0 ^ 3))%C) by (rewrite map_length; lia).
    rewrite (map_nth (fun k => (0, 1)%R * RtoC (k ^ 3))%C). unfold Cmult. cbn [fst snd RtoC]. apply C_eq; cbn [fst snd]; ring.
  Qed.
  Lemma kdv_N v : (forall k, (0 < k < h)%nat -> v k = RtoC 0) ->
    N v O = RtoC (g * (fst (v h) * snd (v h))) /\ (forall k, (0 < k < h)%nat -> N v k = RtoC 0) /\
    N v h = RtoC (g * (snd (v h) * fst (v O))).
  Proof.
    intros Hv. assert (E := HN v). unfold applied in E.
    destruct (C61_zero_mode kx (tab (S h) v) h Hk (tab_len _ _) Hh) as (r1 & r2 & E1 & _ & _ & _ & X).
    rewrite E1 in E. apply inr_inj in E. rewrite <- E. cbv zeta in X. destruct X as (Y & _ & _ & _). unfold of_list.
    rewrite !tab_at0 in Y by lia. assert (H0 : INR h <> 0) by (apply not_0_INR; lia).
    assert (T := two_modes_kdv kx (tab (S h) v) r1 h Hh Hk (tab_len _ _) K0).
    assert (Hv' : forall k, (0 < k < h)%nat -> nth k (tab (S h) v) (RtoC 0) = RtoC 0) by (intros k Hk'; rewrite tab_at0 by lia; now apply Hv).
    specialize (T Hv' E1). split.
    - rewrite Y, K0. f_equal. unfold g. fold K. field. exact H0.
    - split.
      + intros k Hk'. rewrite T by lia. destruct (Nat.eqb_spec k h); [lia|reflexivity].
      + rewrite T by lia. rewrite Nat.eqb_refl, !tab_at0 by lia. reflexivity.
  Qed.

  (** One IF4 step of size [tau = pi / (2 K^3)] from the Nyquist component [a]. *)
  Variable a : R.
  Hypothesis Ha : a <> 0.
  Let u : cvec := fun i => if Nat.eqb i h then RtoC a else RtoC 0.
  Let tau := PI / (2 * K ^ 3).
  Lemma kdv_step_mean : exists x, cs_Phi p N IF4d tau u O = RtoC x /\ 0 < x.
  Proof.
    rewrite if4d_ref. set (Phi := dflow (p_vec p)).
    assert (K3 : 0 < K ^ 3) by (apply pow_lt; exact KP). assert (HI : 0 < INR h) by (apply lt_0_INR; lia).
    assert (P0 : forall t v, Phi t v O = v O).
    { intros t v. unfold Phi, dflow. rewrite kdv_L by lia. rewrite K0. replace (RtoC t * (0, 0 ^ 3)%R)%C with (RtoC 0).
      - rewrite Cexp_0. ring.
      - unfold Cmult, RtoC. cbn [fst snd]. apply C_eq; cbn [fst snd]; ring. }
    assert (Pz : forall t v k, v k = RtoC 0 -> Phi t v k = RtoC 0) by (intros t v k E; unfold Phi, dflow; rewrite E; ring).
    assert (Ph : forall t v, Phi t v h = ((cos (t * K ^ 3), sin (t * K ^ 3))%R * v h)%C).
    { intros t v. unfold Phi, dflow. rewrite kdv_L by lia. fold K. f_equal. unfold Cexp, Cmult, RtoC. cbn [fst snd].
      replace (t * 0 - 0 * K ^ 3) with 0 by ring. replace (t * K ^ 3 + 0 * 0) with (t * K ^ 3) by ring. rewrite exp_0. apply C_eq; cbn [fst snd]; ring. }
    assert (T1 : tau * K ^ 3 = PI / 2) by (unfold tau; field; lra).
    assert (T2 : tau / 2 * K ^ 3 = PI / 4) by (unfold tau; field; lra).
    assert (tp : 0 < tau). { unfold tau. apply Rdiv_lt_0_compat; [apply PI_RGT_0|]. nra. }
    assert (gp : 0 < g). { unfold g. apply Rdiv_lt_0_compat; [nra|exact HI]. }
    assert (u0 : u O = RtoC 0) by (unfold u; destruct (Nat.eqb_spec 0 h); [lia|reflexivity]).
    assert (uh : u h = RtoC a) by (unfold u; now rewrite Nat.eqb_refl).
    assert (uk : forall k, (0 < k < h)%nat -> u k = RtoC 0) by (intros k Hkk; unfold u; destruct (Nat.eqb_spec k h); [lia|reflexivity]).
    set (c := cos (PI / 4)). assert (cs : sin (PI / 4) = c) by (unfold c; rewrite cos_PI4, sin_PI4; reflexivity).
    assert (c2 : c * c = / 2).
    { unfold c. rewrite cos_PI4. assert (S2 := sqrt_def 2 ltac:(lra)). assert (Q := sqrt_lt_R0 2 ltac:(lra)).
      replace (1 / sqrt 2 * (1 / sqrt 2)) with (1 / (sqrt 2 * sqrt 2)) by (field; lra). rewrite S2. field. }
    (* first stage *)
    destruct (kdv_N u uk) as (A0 & Ak & Ah). rewrite uh in A0, Ah. cbn [fst snd RtoC] in A0, Ah.
    assert (A0' : N u O = RtoC 0) by (rewrite A0; f_equal; ring). assert (Ah' : N u h = RtoC 0) by (rewrite Ah; f_equal; ring).
    (* second stage *)
    assert (B : v2 Phi N tau u O = RtoC 0 /\ (forall k, (0 < k < h)%nat -> v2 Phi N tau u k = RtoC 0) /\ v2 Phi N tau u h = (c * a, c * a)).
    { unfold v2, cadd, cscal. split; [|split].
      - rewrite !P0, u0, A0'. ring.
      - intros k Hkk. rewrite (Pz _ u), (Pz _ (N u)) by auto. ring.
      - rewrite !Ph, uh, Ah', T2. fold c. rewrite cs. unfold Cmult, Cplus, RtoC. cbn [fst snd]. apply C_eq; cbn [fst snd]; ring. }
    destruct B as (B0 & Bk & Bh). destruct (kdv_N _ Bk) as (C0 & Ck & Ch). rewrite B0, Bh in *. cbn [fst snd RtoC] in C0, Ch.
    assert (C0' : N (v2 Phi N tau u) O = RtoC (g * a ^ 2 / 2)) by (rewrite C0; f_equal; replace (c * a * (c * a)) with (c * c * a ^ 2) by ring; rewrite c2; field).
    assert (Ch' : N (v2 Phi N tau u) h = RtoC 0) by (rewrite Ch; f_equal; ring).
    (* third stage *)
    set (r := tau * g ^ 2 * a ^ 3 * c / 4).
    assert (D : v3 Phi N tau u O = RtoC (tau * g * a ^ 2 / 4) /\ (forall k, (0 < k < h)%nat -> v3 Phi N tau u k = RtoC 0) /\ v3 Phi N tau u h = (c * a, c * a)).
    { unfold v3, cadd, cscal. split; [|split].
      - rewrite P0, u0, C0'. rewrite <- RtoC_mult, Cplus_0_l. f_equal. field.
      - intros k Hkk. rewrite (Pz _ u), Ck by auto. ring.
      - rewrite Ph, uh, Ch', T2. fold c. rewrite cs. unfold Cmult, Cplus, RtoC. cbn [fst snd]. apply C_eq; cbn [fst snd]; ring. }
    destruct D as (D0 & Dk & Dh). destruct (kdv_N _ Dk) as (E0 & Ek & Eh). rewrite D0, Dh in *. cbn [fst snd RtoC] in E0, Eh.
    assert (E0' : N (v3 Phi N tau u) O = RtoC (g * a ^ 2 / 2)) by (rewrite E0; f_equal; replace (c * a * (c * a)) with (c * c * a ^ 2) by ring; rewrite c2; field).
    assert (Eh' : N (v3 Phi N tau u) h = RtoC r) by (rewrite Eh; f_equal; unfold r; field).
    (* fourth stage *)
    set (t := tau * c * r).
    assert (F : (forall k, (0 < k < h)%nat -> v4 Phi N tau u k = RtoC 0) /\ v4 Phi N tau u h = (t, a + t)).
    { unfold v4, cadd, cscal. split.
      - intros k Hkk. rewrite (Pz _ u), (Pz _ (N _)) by auto. ring.
      - rewrite !Ph, uh, Eh', T1, T2. fold c. rewrite cs, cos_PI2, sin_PI2. unfold Cmult, Cplus, RtoC, t. cbn [fst snd]. apply C_eq; cbn [fst snd]; ring. }
    destruct F as (Fk & Fh). destruct (kdv_N _ Fk) as (H0 & _ & _). rewrite Fh in H0. cbn [fst snd] in H0.
    exists (tau * g / 6 * ((t + a / 2) ^ 2 + 7 * a ^ 2 / 4)). split.
    - unfold vk. rewrite !P0, u0, A0', C0', E0', H0. rewrite <- !RtoC_mult, <- !RtoC_plus, <- RtoC_mult, <- RtoC_plus. f_equal. field.
    - assert (0 < a ^ 2) by (simpl; rewrite Rmult_1_r; apply Rsqr_pos_lt; exact Ha).
      assert (0 <= (t + a / 2) ^ 2) by apply pow2_ge_0. apply Rmult_lt_0_compat; [|lra]. apply Rdiv_lt_0_compat; [|lra]. now apply Rmult_lt_0_compat.
  Qed.
End KdV.

(** C61, KdV: on every grid of the package (any even number of points, any interval with [a < b]), one IF4 step moves the mean of
    the state whose only component is the Nyquist one, which has mean zero. *)
Theorem C61_kdv_mean_refuted {W} (p : problem Cops W) (kx : list R) (h : nat) (N : cvec -> cvec) (a : R) :
  (0 < h)%nat -> length kx = S h -> nth 0 kx 0 = 0 -> 0 < nth h kx 0 -> p_vec p = of_list (kdv_lin kx) ->
  (forall v, applied (kdv_nl kx) (S h) v = inr (N v)) -> a <> 0 ->
  let u : cvec := fun i => if Nat.eqb i h then RtoC a else RtoC 0 in
  u O = RtoC 0 /\ cs_Phi p N IF4d (PI / (2 * nth h kx 0 ^ 3)) u O <> u O.
Proof.
  intros Hh Hk K0 KP HL HN Ha u. assert (u0 : u O = RtoC 0) by (unfold u; destruct (Nat.eqb_spec 0 h); [lia|reflexivity]).
  split; [exact u0|]. destruct (kdv_step_mean W p kx h Hh Hk K0 HL N HN KP a Ha) as (x & E & Hx).
  intros X. assert (Y := eq_trans (eq_sym E) X). rewrite u0 in Y. apply (f_equal fst) in Y. cbn in Y. lra.
Qed.

(** Non-vacuity: the problems of both theorems for the grid with four points on [[0, 2 pi]]. *)
Definition model_problem (L : list C) (f : list C -> exn + list C) : problem Cops unit :=
  mk_problem (A := Cops) (fun v w => (applied f (length L) v, w)) (length L) (of_list L) (fun i j => if Nat.eqb i j then of_list L i else RtoC 0)
    ex_cfg (fun m => inr m) (fun m => inr m) (eye Cops) (eye Cops) (of_list L).
Example C61_mean_case : exists x kx, rfft_grid (PInt 4) (num 0) (num (2 * PI)) = inr (x, kx) /\ kx = [0; 1; 2] /\
  let b := model_problem (burgers_lin kx (1/10)) (burgers_nl kx) in let k := model_problem (kdv_lin kx) (kdv_nl kx) in
  length kx = 3%nat /\ p_vec b = of_list (burgers_lin kx (1/10)) /\ computes b (burgers_nl kx) 3 /\
  p_vec k = of_list (kdv_lin kx) /\ computes k (kdv_nl kx) 3 /\ 0 < nth 2 kx 0.
Proof.
  assert (P0 := PI_RGT_0).
  destruct (C50_rfft_wavenumbers 4 (num 0) (num (2 * PI)) ltac:(lia) eq_refl) as (x & kx & E & L & H); [cbn; intros X; lra|].
  exists x, kx. split; [exact E|].
  assert (Ek : kx = [0; 1; 2]).
  { destruct kx as [|k0 [|k1 [|k2 [|]]]]; try discriminate L.
    assert (Q0 := H 0%nat ltac:(cbn; lia)). assert (Q1 := H 1%nat ltac:(cbn; lia)). assert (Q2 := H 2%nat ltac:(cbn; lia)).
    cbn [nth INR] in Q0, Q1, Q2. change (val (num (2 * PI))) with (2 * PI) in *. change (val (num 0)) with 0 in *.
    assert (X0 : @eq R k0 0) by (rewrite Q0; field; lra). assert (X1 : @eq R k1 1) by (rewrite Q1; field; lra).
    assert (X2 : @eq R k2 2) by (rewrite Q2; field; lra). now rewrite X0, X1, X2. }
  split; [exact Ek|]. subst kx. cbn [length]. split; [reflexivity|]. split; [reflexivity|].
  split; [split; [reflexivity|split; discriminate]|]. split; [reflexivity|]. split; [split; [reflexivity|split; discriminate]|]. cbn [nth]. lra.
Qed.
Print Assumptions C61_burgers_mean_step.
Print Assumptions C61_burgers_mean_runs.
Print Assumptions C61_kdv_mean_refuted.
