(** * C98, C99: linear first integrals and invariant sets of modes *)

From Coq Require Import ZArith List Bool Reals Lra Lia FunctionalExtensionality QArith Qreals.
From Coquelicot Require Import Complex.
From Verif Require Import Scalars Control ControlCS ControlCSReal ControlAS ControlASReal ControlSim ControlSound ControlInv1 Arrays SchemeBase SchemeIF SchemeETD4 SchemeETD5 Solvers
     SchemeFacts SchemeSound SchemeFamily SchemePartial SchemeForm CInst SpecRK SchemeIFReal SpecPhi SpecERK ContourReal SchemeETDReal
     SchemeETDCoefs PropsCache PropsIF PropsETD Fourier PropsMean.
Import ListNotations.
Local Open Scope R_scope.

(** ** Spec *)
(** The value of the linear functional with coefficients [a] on the first [n] modes. *)
Definition functional (n : nat) (a v : nat -> C) : C := csum n (fun i => a i * v i)%C.
(** The functional vanishes on the right-hand side [L v + N(v)], on each part separately. *)
Definition first_integral (n : nat) (a L : nat -> C) (N : (nat -> C) -> nat -> C) : Prop :=
  (forall v, functional n a (fun i => L i * v i)%C = RtoC 0) /\ (forall v, functional n a (N v) = RtoC 0).
(** Only the modes in [K] are excited. *)
Definition only (K : nat -> Prop) (v : nat -> C) : Prop := forall i, ~ K i -> v i = RtoC 0.
(** [ok] holds for every state recorded or returned by any [evolve] from [u] of any solver object for a 1-D operator, whatever the outcome. *)
Definition along_runs {W} (p : problem Cops W) (u : vec Cops) (ok : (nat -> C) -> Prop) : Prop :=
  (forall k fuel t0 tf hstep sd sf (o : csobj Rops (vec Cops) W (cs_model p k)) w r o' w', diag_cs k = true ->
     cs_evolve fuel u t0 tf hstep sd sf o w = (r, o', w') -> Forall ok (c_u o') /\ forall u', r = Ret u' -> ok u') /\
  (forall k ks cfg cs fuel t0 tf hi sd sf (o : asobj Rops (vec Cops) W (as_model p k)) w r o' w', diag_as k = true ->
     as_evolve ks cfg cs fuel u t0 tf hi sd sf o w = (r, o', w') -> Forall ok (a_u o') /\ forall u', r = Ret u' -> ok u').

(** C98: a functional that vanishes on the right-hand side as a whole keeps its value. *)
Definition C98_claim : Prop :=
  forall W (p : problem Cops W) (N : vec Cops -> vec Cops) n a u,
  (forall v w, exists w', p_nl p v w = (inr (N v), w')) -> linalg_total p ->
  (forall v, functional n a (fun i => p_vec p i * v i + N v i)%C = RtoC 0) ->
  along_runs p u (fun c => functional n a c = functional n a u).

(** ** Runs keep what the steps keep *)
Lemma along_runs_G {W} (p : problem Cops W) (N : vec Cops -> vec Cops) (G : (nat -> C) -> Prop) u :
  (forall v w y w', p_nl p v w = (inr y, w') -> y = N v) ->
  (forall tau v, G v -> Forall G (diag_candidates p N tau v)) -> G u -> along_runs p u G.
Proof.
  intros HNL HG Gu. split.
  - intros k fuel t0 tf hs sd sf o w r o' w' Dk E.
    destruct (@cs_model_sound1 Rops (fun x y X => proj1 (Reqb_true x y) X) Cops W p N HNL k) as [Inv H1].
    assert (H2 : forall tau v, cs_good p k tau -> G v -> G (cs_Phi p N k tau v)).
    { intros tau v _ Gv. assert (Q := HG tau v Gv). unfold diag_candidates in Q. rewrite !Forall_cons_iff in Q.
      destruct Q as (Q1 & Q2 & Q3 & _). destruct k; try discriminate Dk; [exact Q1|exact Q2|exact Q3]. }
    exact (@cs_evolve_inv1 Rops (vec Cops) W (cs_model p k) _ _ G _ H1 H2 _ _ _ _ _ _ _ _ _ _ _ _ Gu E).
  - intros k ks cfg cs fuel t0 tf hi sd sf o w r o' w' Dk E.
    destruct (@as_model_sound1 Rops (fun x y X => proj1 (Reqb_true x y) X) Cops W p N HNL k) as [Inv H1].
    assert (H2 : forall tau v, as_good p k tau -> G v -> G (fst (as_Phi p N k tau v))).
    { intros tau v _ Gv. assert (Q := HG tau v Gv). unfold diag_candidates in Q. rewrite !Forall_cons_iff in Q.
      destruct Q as (_ & _ & _ & Q4 & Q5 & Q6 & Q7 & _). destruct k; try discriminate Dk; [exact Q4|exact Q5|exact Q6|exact Q7]. }
    exact (@as_evolve_inv1 Rops (vec Cops) W (as_model p k) _ _ G _ H1 H2 ks cfg cs _ _ _ _ _ _ _ _ _ _ _ _ Gu E).
Qed.

Section Functional.
  Variables (n : nat) (a L : nat -> C).
  Hypothesis HL : forall v, functional n a (fun i => L i * v i)%C = RtoC 0.
  Lemma functional_add v w : functional n a (cadd v w) = (functional n a v + functional n a w)%C.
  Proof. unfold functional. rewrite <- csum_plus. apply csum_ext. intros i _. unfold cadd. ring. Qed.
  Lemma functional_scal c v : functional n a (cscal c v) = (c * functional n a v)%C.
  Proof. unfold functional. rewrite <- csum_scal. apply csum_ext. intros i _. unfold cscal. ring. Qed.
  Lemma weight_or_zero i : (i < n)%nat -> a i = RtoC 0 \/ L i = RtoC 0.
  Proof.
    intros Hi. assert (Q := HL (fun j => if Nat.eqb j i then RtoC 1 else RtoC 0)). unfold functional in Q.
    rewrite (csum_one n i) in Q by (auto; intros k _ K; apply Nat.eqb_neq in K; rewrite K; ring).
    rewrite Nat.eqb_refl in Q. destruct (Ceq_dec (a i) (RtoC 0)) as [A|A]; [left; exact A|right].
    replace (L i) with (/ a i * (a i * (L i * RtoC 1)))%C by (field; exact A). rewrite Q. ring.
  Qed.
  Lemma functional_dfun h f v : functional n a (dfun h L f v) = (f (RtoC 0) * functional n a v)%C.
  Proof.
    unfold functional. rewrite <- csum_scal. apply csum_ext. intros i Hi. unfold dfun.
    destruct (weight_or_zero i Hi) as [-> | ->]; [ring|]. rewrite Cmult_0_r. ring.
  Qed.
End Functional.

(** ** The properties *)
(** Linear first integrals keep their value along every run. *)
Theorem C98_linear_integrals {W} (p : problem Cops W) (N : vec Cops -> vec Cops) n a u :
  (forall v w y w', p_nl p v w = (inr y, w') -> y = N v) -> first_integral n a (p_vec p) N ->
  along_runs p u (fun c => functional n a c = functional n a u).
Proof.
  intros HNL [HL HN]. apply (along_runs_G p N); [exact HNL| |reflexivity].
  intros tau v Gv. apply (diag_candidates_G p N _ (fun c => functional n a c = RtoC 0)).
  - unfold functional. apply csum_0. intros i _. apply Cmult_0_r.
  - intros x y X Y. rewrite functional_add, X, Y. ring.
  - intros r x X. rewrite functional_scal, X. ring.
  - intros x y X Y. rewrite functional_add, X, Y. ring.
  - intros x _. apply HN.
  - intros t f _ x X. rewrite (functional_dfun n a _ HL), X. ring.
  - intros t q x X. rewrite (functional_dfun n a _ HL), X, Cmult_0_r, Cexp_0. ring.
  - exact Gv.
Qed.
(** If [N] excites no mode outside [K], e.g. because it is dealiased, no run does. *)
Theorem C99_mode_sets {W} (p : problem Cops W) (N : vec Cops -> vec Cops) K u :
  (forall v w y w', p_nl p v w = (inr y, w') -> y = N v) -> (forall v, only K v -> only K (N v)) -> only K u ->
  along_runs p u (only K).
Proof.
  intros HNL HN Hu. apply (along_runs_G p N); [exact HNL| |exact Hu].
  intros tau v Gv. apply (diag_candidates_G p N _ (only K)).
  - intros i _. reflexivity.
  - intros x y X Y i Hi. unfold cadd. rewrite (X i Hi), (Y i Hi). ring.
  - intros r x X i Hi. unfold cscal. rewrite (X i Hi). ring.
  - intros x y X Y i Hi. unfold cadd. rewrite (X i Hi), (Y i Hi). ring.
  - exact HN.
  - intros t f _ x X i Hi. unfold dfun. rewrite (X i Hi). ring.
  - intros t q x X i Hi. unfold dfun. rewrite (X i Hi). ring.
  - exact Gv.
Qed.

(** Two coupled modes, [u0' = u0 u1, u1' = - u0 u1] with [L = 0], and a decaying third one: the sum of the first two is kept, and the third
    mode is never excited. *)
Definition exchange (v : vec Cops) : vec Cops :=
  fun i => match i with 0%nat => (v 0%nat * v 1%nat)%C | 1%nat => (- (v 0%nat * v 1%nat))%C | _ => RtoC 0 end.
Definition exchange_L : vec Cops := fun i => match i with 0%nat | 1%nat => RtoC 0 | _ => RtoC (-1) end.
Definition exchange_problem : problem Cops unit :=
  mk_problem (A := Cops) (pure_nl exchange) 3 exchange_L (fun _ _ => RtoC 0) (mk_etdcfg (F := Rops) 1 32 1)
    (fun m => inr m) (fun m => inr m) (fun _ _ => RtoC 0) (fun _ _ => RtoC 0) exchange_L.
Example C98_C99_not_vacuous : let u := fun i => match i with 0%nat => RtoC 1 | 1%nat => RtoC 2 | _ => RtoC 0 end in
  along_runs exchange_problem u (fun c => (c 0%nat + c 1%nat)%C = RtoC 3) /\ along_runs exchange_problem u (only (fun i => (i < 2)%nat)) /\
  exchange u 0%nat <> RtoC 0.
Proof.
  intros u.
  assert (HNL : forall v w y w', p_nl exchange_problem v w = (inr y, w') -> y = exchange v).
  { intros v w y w' E. cbn [exchange_problem p_nl] in E. unfold pure_nl in E.
    apply (f_equal (fun x => match x with (inr z, _) => z | _ => y end)) in E. symmetry. exact E. }
  split; [|split].
  - assert (I : first_integral 2 (fun _ => RtoC 1) (p_vec exchange_problem) exchange).
    { split; intros v; unfold functional; cbn [csum exchange_problem p_vec exchange_L exchange]; ring. }
    assert (Q := C98_linear_integrals exchange_problem exchange 2 (fun _ => RtoC 1) u HNL I).
    assert (X : (fun c : nat -> C => functional 2 (fun _ => RtoC 1) c = functional 2 (fun _ => RtoC 1) u) = (fun c => (c 0%nat + c 1%nat)%C = RtoC 3)).
    { apply functional_extensionality. intros c. f_equal.
      - unfold functional. cbn [csum]. ring.
      - unfold functional, u. cbn [csum]. apply C_eq; cbn; ring. }
    rewrite X in Q. exact Q.
  - apply (C99_mode_sets exchange_problem exchange); [exact HNL| |].
    + intros v _ i Hi. destruct i as [|[|i]]; [lia|lia|reflexivity].
    + intros i Hi. destruct i as [|[|i]]; [lia|lia|reflexivity].
  - unfold exchange, u. rewrite <- RtoC_mult. intros X. apply (f_equal fst) in X. cbn in X. lra.
Qed.

(** ** A functional that vanishes on the sum only *)
(** The first mode decays into the second: [u0' = - u0, u1' = u0]. *)
Definition decay_L : vec Cops := fun i => match i with 0%nat => RtoC (-1) | _ => RtoC 0 end.
Definition decay_N (v : vec Cops) : vec Cops := fun i => match i with 1%nat => v 0%nat | _ => RtoC 0 end.
Definition decay_problem : problem Cops unit :=
  mk_problem (A := Cops) (pure_nl decay_N) 2 decay_L (fun _ _ => RtoC 0) (mk_etdcfg (F := Rops) 1 32 1)
    (fun m => inr m) (fun m => inr m) (fun _ _ => RtoC 0) (fun _ _ => RtoC 0) decay_L.
Definition decay_u : vec Cops := fun i => match i with 0%nat => RtoC 1 | _ => RtoC 0 end.
Lemma decay_lin t x : Cexp (RtoC t * RtoC x)%C = RtoC (exp (t * x)).
Proof. rewrite <- RtoC_mult. apply Cexp_R. Qed.
Lemma decay_step : exists x y, 0 < x /\ 0 < y /\ functional 2 (fun _ => RtoC 1) (cs_Phi decay_problem decay_N IF4d 6 decay_u) = RtoC (1 + x + y).
Proof.
  exists (exp (- 6) * 2), (4 * exp (- 3)). split; [assert (P := exp_pos (- 6)); lra|]. split; [assert (P := exp_pos (- 3)); lra|].
  rewrite C32_if4_diagonal. unfold functional, lawson, rk_step, RK4. cbn [tb_a tb_b tb_c rk_stages app lincomb csum].
  unfold dflow. cbn [decay_problem p_vec decay_L decay_N decay_u lincomb]. rewrite !decay_lin. unfold Q2R. cbn [Qnum Qden].
  replace (6 * -1) with (-6) by ring.
  replace (6 * 0) with 0 by ring.
  replace ((0 + 0 * / 1 * 6) * -1) with 0 by field.
  replace ((0 + 1 * / 2 * 6) * -1) with (-3) by field.
  replace ((0 + 1 * / 1 * 6) * -1) with (-6) by field.
  rewrite !Rmult_0_r, exp_0. apply C_eq; cbn; field.
Qed.
Theorem C98_whole_right_hand_side_refuted : ~ C98_claim.
Proof.
  intros H.
  assert (HT : linalg_total decay_problem) by (split; intros; discriminate).
  assert (HN : forall v w, exists w', p_nl decay_problem v w = (inr (decay_N v), w')) by (intros v w; exists w; reflexivity).
  assert (HI : forall v, functional 2 (fun _ => RtoC 1) (fun i => p_vec decay_problem i * v i + decay_N v i)%C = RtoC 0).
  { intros v. unfold functional. cbn [csum decay_problem p_vec decay_L decay_N]. replace (RtoC (-1)) with (- RtoC 1)%C by (apply C_eq; cbn; ring). ring. }
  destruct (H unit decay_problem decay_N 2%nat (fun _ => RtoC 1) decay_u HN HT HI) as [HC _].
  destruct (C11_constant_step_evolve Cops unit decay_problem decay_N IF4d HN HT decay_u (PyN false 0) (PyN false 6) (PyN false 6) (cs_new_obj decay_problem IF4d) tt)
    as (n & Hn & E); [cbn; lra|cbn; lra|cbn; lra|].
  destruct (E n (Nat.le_refl n)) as (o' & w' & E1 & E2). destruct (HC IF4d _ _ _ _ _ _ _ _ _ _ _ eq_refl E1) as [F _].
  rewrite E2 in F. destruct n as [|n]; [lia|]. cbn [seq map] in F. rewrite !Forall_cons_iff in F. destruct F as (_ & F & _). cbn [Nat.iter] in F.
  destruct decay_step as (x & y & Hx & Hy & D). change (val (PyN false 6)) with 6 in F.
  assert (X : RtoC (1 + x + y) = RtoC 1).
  { rewrite <- D. refine (eq_trans F _). unfold functional. cbn [csum decay_u]. ring. }
  apply (f_equal fst) in X. cbn in X. lra.
Qed.

Print Assumptions C98_linear_integrals.
Print Assumptions C99_mode_sets.
Print Assumptions C98_whole_right_hand_side_refuted.
