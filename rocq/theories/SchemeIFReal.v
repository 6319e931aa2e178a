(** * Integrating-factor strategies in exact arithmetic: closed forms against Runge-Kutta steps *)

From Coq Require Import ZArith List Bool Reals Lra Lia FunctionalExtensionality QArith Qreals Setoid Morphisms.
From Coquelicot Require Import Complex.
From Verif Require Import Scalars Control ControlSound Arrays SchemeBase
     SchemeIF SchemeETD4 SchemeETD5 Solvers SchemeFacts SchemeSound SchemeFamily SchemeForm CInst SpecRK.
Import ListNotations.
Local Open Scope R_scope.

(** Linear identities between complex numbers with real literals: split into components. *)
Ltac cpt :=
  repeat match goal with
  | |- context [Cexp ?z] => let e := fresh "e" in set (e := Cexp z) in *; clearbody e
  end;
  repeat match goal with z : E Cops |- _ => change C in z end;
  repeat match goal with z : C |- _ => let x := fresh "x" in let y := fresh "y" in destruct z as [x y] end.
Ltac cfield :=
  cpt; unfold Cdiv, Cinv, Cminus, Copp, Cplus, Cmult, RtoC; cbn [fst snd]; apply C_eq; field.

(** ** Flows *)

(** 1-D operators. *)
Definition dflow (L : cvec) (t : R) (v : cvec) : cvec := fun i => (Cexp (RtoC t * L i) * v i)%C.
(** Matrices: [Ex t] is the exponential of [t L]. *)
Definition mdot (n : nat) (m : nat -> nat -> C) (v : cvec) : cvec := fun i => csum n (fun j => (m i j * v j)%C).
Definition mflow (n : nat) (Ex : R -> nat -> nat -> C) (t : R) (v : cvec) : cvec := mdot n (Ex t) v.
(** Diagonalized matrices. *)
Definition zflow (n : nat) (S Sinv : nat -> nat -> C) (lam : cvec) (t : R) (v : cvec) : cvec :=
  mdot n S (dflow lam t (mdot n Sinv v)).

Definition all : nat -> Prop := fun _ => True.
Definition below (n : nat) : nat -> Prop := fun i => (i < n)%nat.
Definition mprod (n : nat) (a b : nat -> nat -> C) : nat -> nat -> C :=
  fun i j => csum n (fun k => (a i k * b k j)%C).
Definition mident : nat -> nat -> C := fun i j => if Nat.eqb i j then RtoC 1 else RtoC 0.
Definition meq (n : nat) (a b : nat -> nat -> C) : Prop :=
  forall i j, (i < n)%nat -> (j < n)%nat -> a i j = b i j.

Lemma veq_all a b : veq all a b -> a = b.
Proof. intros H. apply functional_extensionality. intros i. apply H. exact I. Qed.
Lemma respects_all N : respects all N.
Proof. intros a b H. apply veq_all in H. subst b. reflexivity. Qed.

Lemma dflow_flow L : flow all (dflow L).
Proof.
  split.
  - intros t. split; intros.
    + apply veq_all in H. subst. reflexivity.
    + intros i _. unfold dflow, cadd. ring.
    + intros i _. unfold dflow, cscal. ring.
  - intros a i _. unfold dflow. rewrite Cmult_0_l, Cexp_0. ring.
  - intros s t a i _. unfold dflow. rewrite RtoC_plus, Cmult_plus_distr_r, Cexp_plus. ring.
Qed.

Lemma mdot_linear n m : linear (below n) (mdot n m).
Proof.
  split; intros.
  - intros i _. apply csum_ext. intros j Hj. rewrite H by exact Hj. reflexivity.
  - intros i _. unfold mdot, cadd. rewrite <- csum_plus. apply csum_ext. intros. ring.
  - intros i _. unfold mdot, cscal. rewrite <- csum_scal. apply csum_ext. intros. ring.
Qed.
Lemma mdot_ident n v : veq (below n) (mdot n mident v) v.
Proof.
  intros i Hi. unfold mdot, mident.
  assert (G : forall m, csum m (fun j => ((if Nat.eqb i j then RtoC 1 else RtoC 0) * v j)%C)
                      = if Nat.ltb i m then v i else RtoC 0).
  { induction m as [|m IH]; [reflexivity|]. cbn [csum]. rewrite IH.
    destruct (Nat.eqb_spec i m) as [->|Hm].
    - rewrite (proj2 (Nat.ltb_ge m m)), (proj2 (Nat.ltb_lt m (S m))) by lia. ring.
    - destruct (Nat.ltb_spec i m); destruct (Nat.ltb_spec i (S m)); try lia; ring. }
  rewrite G. rewrite (proj2 (Nat.ltb_lt i n)) by exact Hi. reflexivity.
Qed.
Lemma mdot_prod n a b v : veq (below n) (mdot n a (mdot n b v)) (mdot n (mprod n a b) v).
Proof.
  intros i _. unfold mdot, mprod.
  transitivity (csum n (fun k => csum n (fun j => (a i k * b k j * v j)%C))).
  - apply csum_ext. intros k _. rewrite <- csum_scal. apply csum_ext. intros. ring.
  - rewrite csum_swap. apply csum_ext. intros j _. rewrite Cmult_comm, <- csum_scal. apply csum_ext. intros. ring.
Qed.
Lemma mdot_meq n a b v : meq n a b -> veq (below n) (mdot n a v) (mdot n b v).
Proof. intros H i Hi. apply csum_ext. intros j Hj. rewrite H by assumption. reflexivity. Qed.

Lemma mflow_flow n Ex : meq n (Ex 0) mident ->
  (forall s t, meq n (mprod n (Ex s) (Ex t)) (Ex (s + t))) -> flow (below n) (mflow n Ex).
Proof.
  intros H0 Hc. split.
  - intros t. apply mdot_linear.
  - intros a. unfold mflow. rewrite (mdot_meq n _ _ a H0). apply mdot_ident.
  - intros s t a. unfold mflow. rewrite mdot_prod. apply mdot_meq. apply Hc.
Qed.

Lemma dflow_linear n L t : linear (below n) (dflow L t).
Proof.
  split; intros.
  - intros i Hi. unfold dflow. rewrite H by exact Hi. reflexivity.
  - intros i _. unfold dflow, cadd. ring.
  - intros i _. unfold dflow, cscal. ring.
Qed.
Lemma linear_comp dom P Q : linear dom P -> linear dom Q -> linear dom (fun v => P (Q v)).
Proof.
  intros HP HQ. split; intros.
  - apply (lin_ext _ _ HP), (lin_ext _ _ HQ), H.
  - etransitivity; [apply (lin_ext _ _ HP), (lin_add _ _ HQ)|apply (lin_add _ _ HP)].
  - etransitivity; [apply (lin_ext _ _ HP), (lin_scal _ _ HQ)|apply (lin_scal _ _ HP)].
Qed.
Lemma zflow_flow n S Sinv lam : meq n (mprod n S Sinv) mident -> meq n (mprod n Sinv S) mident ->
  flow (below n) (zflow n S Sinv lam).
Proof.
  intros H1 H2. split.
  - intros t. apply (linear_comp _ (mdot n S)); [apply mdot_linear|].
    apply (linear_comp _ (dflow lam t)); [apply dflow_linear|apply mdot_linear].
  - intros a. unfold zflow.
    transitivity (mdot n S (mdot n Sinv a)).
    + apply (lin_ext _ _ (mdot_linear n S)). intros i _. apply (flow_0 _ _ (dflow_flow lam)). exact I.
    + rewrite mdot_prod, (mdot_meq n _ _ _ H1). apply mdot_ident.
  - intros s t a. unfold zflow.
    apply (lin_ext _ _ (mdot_linear n S)).
    transitivity (dflow lam s (dflow lam t (mdot n Sinv a))).
    + apply (lin_ext _ _ (dflow_linear n lam s)).
      rewrite mdot_prod, (mdot_meq n _ _ _ H2). apply mdot_ident.
    + intros i _. apply (flow_comp _ _ (dflow_flow lam)). exact I.
Qed.

(** ** Evaluating a tableau *)

Lemma Q2R_diff a b q h : Qeq (Qminus a b) q -> (Q2R a - Q2R b) * h = Q2R q * h.
Proof. intros H. rewrite <- (Qeq_eqR _ _ H), Q2R_minus. reflexivity. Qed.
Lemma Q2R_1 : Q2R 1 = 1.
Proof. unfold Q2R; cbn; field. Qed.
Lemma Q2R_0 : Q2R 0 = 0.
Proof. unfold Q2R; cbn; field. Qed.

Section Chain.
  Variable dom : nat -> Prop.
  Variable Phi : R -> cvec -> cvec.
  Variable N : cvec -> cvec.
  Hypothesis HP : flow dom Phi.
  Hypothesis HN : respects dom N.
  Variables (h : R) (u : cvec).

  (** [vs] are the stage arguments of the tableau. *)
  Fixpoint chain_ok (rows : list (list Q)) (cs : list Q) (ns : list (Q * cvec)) (vs : list cvec) : Prop :=
    match rows, cs, vs with
    | row :: rows, c :: cs, v :: vs =>
        veq dom (if_value Phi h (Q2R c) row ns u) v /\ chain_ok rows cs (ns ++ [(c, N v)]) vs
    | [], [], [] => True
    | _, _, _ => False
    end.

  Definition same_stage (a b : Q * cvec) : Prop := fst a = fst b /\ veq dom (snd a) (snd b).

  Lemma if_comb_same c : forall qs ns ns', Forall2 same_stage ns ns' ->
    veq dom (if_comb Phi h c qs ns) (if_comb Phi h c qs ns').
  Proof.
    induction qs as [|q qs IH]; intros ns ns' H; [reflexivity|].
    destruct H as [|[c1 n1] [c2 n2] ns ns' [Hc Hv] H]; [reflexivity|]. cbn [if_comb fst snd] in *. subst c2.
    intros i Hi. unfold cadd, cscal. rewrite (IH _ _ H i Hi).
    rewrite (lin_ext _ _ (flow_lin _ _ HP _) _ _ Hv i Hi). reflexivity.
  Qed.
  Lemma if_value_same c qs ns ns' : Forall2 same_stage ns ns' ->
    veq dom (if_value Phi h c qs ns u) (if_value Phi h c qs ns' u).
  Proof.
    intros H i Hi. unfold if_value, cadd, cscal. rewrite (if_comb_same c qs ns ns' H i Hi). reflexivity.
  Qed.

  Lemma chain_stages : forall rows cs ns ns' vs, Forall2 same_stage ns ns' -> chain_ok rows cs ns' vs ->
    Forall2 same_stage (if_stages Phi N h u rows cs ns) (ns' ++ combine cs (map N vs)).
  Proof.
    induction rows as [|row rows IH]; intros [|c cs] ns ns' [|v vs] Hs H; cbn [chain_ok] in H; try contradiction.
    - cbn. rewrite app_nil_r. exact Hs.
    - destruct H as [Hv H]. cbn [if_stages map combine].
      change (ns' ++ (c, N v) :: combine cs (map N vs)) with (ns' ++ [(c, N v)] ++ combine cs (map N vs)).
      rewrite app_assoc. apply IH; [|exact H].
      apply Forall2_app; [exact Hs|]. constructor; [|constructor]. split; [reflexivity|]. cbn [snd]. apply HN.
      rewrite <- Hv. apply if_value_same. exact Hs.
  Qed.

  Lemma if_step_chain tb vs : chain_ok (tb_a tb) (tb_c tb) [] vs ->
    veq dom (if_step tb Phi N h u) (if_value Phi h 1 (tb_b tb) (combine (tb_c tb) (map N vs)) u).
  Proof.
    intros H. unfold if_step. apply if_value_same.
    apply (chain_stages _ _ [] [] vs); [constructor|exact H].
  Qed.
End Chain.

(** Evaluate the times in a goal about [if_value] at one index. *)
Ltac qtimes := unfold if_value; cbn [if_comb combine map]; unfold cadd, cscal;
  repeat match goal with
  | |- context [(Q2R ?a - Q2R ?b) * ?h] =>
      let q := eval vm_compute in (Qred (Qminus a b)) in
      rewrite (Q2R_diff a b q h) by (vm_compute; reflexivity)
  | |- context [(1 - Q2R ?b) * ?h] =>
      let q := eval vm_compute in (Qred (Qminus 1 b)) in
      replace ((1 - Q2R b) * h) with (Q2R q * h) by (unfold Q2R; cbn; field)
  end;
  rewrite ?Q2R_1, ?Q2R_0, ?Rmult_1_l, ?Rmult_0_l.

(** ** The fourth-order pair *)
Section Pair.
  Variable dom : nat -> Prop.
  Variable Phi : R -> cvec -> cvec.
  Variable N : cvec -> cvec.
  Hypothesis HP : flow dom Phi.
  Hypothesis HN : respects dom N.
  Variables (h : R) (u : cvec).

  (** Stage arguments, step and error vector with the exponentials [Phi h], [Phi (h/2)]. *)
  Definition v2 := cadd (Phi (h / 2) u) (cscal (RtoC (h / 2)) (Phi (h / 2) (N u))).
  Definition v3 := cadd (Phi (h / 2) u) (cscal (RtoC (h / 2)) (N v2)).
  Definition v4 := cadd (Phi h u) (cscal (RtoC h) (Phi (h / 2) (N v3))).
  Definition vk : cvec := fun i =>
    (Phi h u i + RtoC h * (RtoC (/ 6) * Phi h (N u) i + RtoC (/ 3) * Phi (h / 2) (N v2) i
       + RtoC (/ 3) * Phi (h / 2) (N v3) i + RtoC (/ 6) * N v4 i))%C.
  Definition verr : cvec := fun i => (RtoC (h / 6) * (N v4 i - N vk i))%C.

  Lemma half_time : Q2R (1#2) * h = h / 2.
  Proof. unfold Q2R; cbn; field. Qed.
  Ltac pt := 
    repeat match goal with
    | |- context [Phi ?t ?v ?i] => let e := fresh "e" in set (e := Phi t v i) in *; clearbody e
    | |- context [N ?v ?i] => let e := fresh "e" in set (e := N v i) in *; clearbody e
    | |- context [u ?i] => let e := fresh "e" in set (e := u i) in *; clearbody e
    end; unfold Q2R; cbn [QArith_base.Qnum QArith_base.Qden]; cfield.
  Ltac stage := intros i Hi; qtimes; rewrite ?half_time, ?(fun v => flow_0 _ _ HP v i Hi); pt.

  Ltac stage_all := intros i Hi; qtimes; rewrite ?half_time, ?(fun v => flow_0 _ _ HP v i Hi);
    try (lazymatch goal with
    | |- ?l = ?f ?i => first [unify f u | let g := eval red in f in change (l = g i); cbv beta]
    end); unfold cadd, cscal; pt.

  Lemma pair_chain : chain_ok dom Phi N h u (tb_a RK4_fsal) (tb_c RK4_fsal) [] [u; v2; v3; v4; vk].
  Proof.
    cbn [chain_ok RK4_fsal tb_a tb_c app].
    repeat match goal with |- _ /\ _ => split end; try exact I; stage_all.
  Qed.
  Lemma rk4_chain : chain_ok dom Phi N h u (tb_a RK4) (tb_c RK4) [] [u; v2; v3; v4].
  Proof.
    cbn [chain_ok RK4 tb_a tb_c app].
    repeat match goal with |- _ /\ _ => split end; try exact I; stage_all.
  Qed.

  Lemma rk4_step : veq dom (if_step RK4 Phi N h u) vk.
  Proof.
    rewrite (if_step_chain dom Phi N HP HN h u RK4 _ rk4_chain). cbn [RK4 tb_b tb_c]. stage_all.
  Qed.
  Lemma rk4_fsal_step : veq dom (if_step RK4_fsal Phi N h u) vk.
  Proof.
    rewrite (if_step_chain dom Phi N HP HN h u RK4_fsal _ pair_chain). cbn [RK4_fsal tb_b tb_c]. stage_all.
  Qed.
  (** The error vector is the difference to the embedded method. *)
  Lemma rk4_fsal_hat_step :
    veq dom (fun i => vk i - if_step (mk_tableau (tb_a RK4_fsal) RK4_fsal_hat (tb_c RK4_fsal)) Phi N h u i)%C verr.
  Proof.
    intros i Hi.
    rewrite (if_step_chain dom Phi N HP HN h u (mk_tableau (tb_a RK4_fsal) RK4_fsal_hat (tb_c RK4_fsal)) _ pair_chain i Hi).
    unfold RK4_fsal_hat. cbn [RK4_fsal tb_b tb_c]. unfold verr.
    qtimes. rewrite ?half_time, ?(fun v => flow_0 _ _ HP v i Hi).
    set (y := N vk i). clearbody y. unfold vk. pt.
  Qed.
End Pair.

(** ** The strategies IF4, IF34 *)

Lemma Cexp_half (h : R) (z : C) : Cexp (RtoC h * z / RtoC 2)%C = Cexp (RtoC (h / 2) * z)%C.
Proof. f_equal. cfield. Qed.

Lemma if_form_d_ref (N : vec Cops -> vec Cops) (h : R) (L u : cvec) :
  if_form_d (F := Rops) (A := Cops) N h (mk_if_coefs (vexp (A := Cops) (vscal (A := Cops) h L)) (vexp (A := Cops) (vdivz (A := Cops) (vscal (A := Cops) h L) 2))) u (N u)
  = (vk (dflow L) N h u, verr (dflow L) N h u).
Proof.
  unfold if_form_d. cbn [if_EL if_EL2]. cbv zeta.
  set (EL := vexp (A := Cops) (vscal (A := Cops) h L)). set (EL2 := vexp (A := Cops) (vdivz (A := Cops) (vscal (A := Cops) h L) 2)).
  assert (H1 : forall i, EL i = Cexp (RtoC h * L i)%C) by reflexivity.
  assert (H2 : forall i, EL2 i = Cexp (RtoC (h / 2) * L i)%C).
  { intros i. rewrite <- Cexp_half. reflexivity. }
  clearbody EL EL2.
  assert (E2 : vadd (vmul EL2 u) (vdivz (vmul (vscal (A := Cops) h EL2) (N u)) 2) = v2 (dflow L) N h u).
  { apply functional_extensionality; intros i. unfold v2, dflow, cadd, cscal. csimp. rewrite H2.
    set (a := u i); set (b := N u i). clearbody a b. ceq. cfield. }
  rewrite E2.
  assert (E3 : vadd (vmul EL2 u) (vdivz (A := Cops) (vscal (A := Cops) h (N (v2 (dflow L) N h u))) 2) = v3 (dflow L) N h u).
  { apply functional_extensionality; intros i. unfold v3, dflow, cadd, cscal. csimp. rewrite H2.
    set (a := u i). set (b := N _ i). clearbody a b. ceq. cfield. }
  rewrite E3.
  assert (E4 : vadd (vmul EL u) (vmul (vscal (A := Cops) h EL2) (N (v3 (dflow L) N h u))) = v4 (dflow L) N h u).
  { apply functional_extensionality; intros i. unfold v4, dflow, cadd, cscal. csimp. rewrite H1, H2.
    set (a := u i). set (b := N _ i). clearbody a b. ceq. cfield. }
  rewrite E4.
  match goal with |- (?k, _) = _ => assert (E5 : k = vk (dflow L) N h u) end.
  { apply functional_extensionality; intros i. unfold vk, dflow. csimp. rewrite H1, H2.
    repeat match goal with |- context [N ?v i] => let b := fresh in set (b := N v i); clearbody b end.
    set (a := u i). clearbody a. ceq. cfield. }
  rewrite E5. f_equal.
  apply functional_extensionality; intros i. unfold verr. csimp.
  repeat match goal with |- context [N ?v i] => let b := fresh in set (b := N v i); clearbody b end.
  ceq. cfield.
Qed.

Lemma mdot_vdivz n m (v : vec Cops) (q : positive) i :
  mdot n m (vdivz (A := Cops) v (Zpos q)) i = (mdot n m v i / RtoC (IZR (Zpos q)))%C.
Proof.
  unfold mdot. csimp. unfold Cdiv. rewrite Cmult_comm, <- csum_scal. apply csum_ext. intros. ring.
Qed.

Lemma if_form_n_ref (N : vec Cops -> vec Cops) (h : R) n Ex (u : cvec) :
  respects (below n) N ->
  let r := if_form_n (F := Rops) (A := Cops) N h n (mk_if_coefs (Ex h) (Ex (h / 2))) u (N u) in
  veq (below n) (fst r) (vk (mflow n Ex) N h u) /\ veq (below n) (snd r) (verr (mflow n Ex) N h u).
Proof.
  intros HN. unfold if_form_n. cbn [if_EL if_EL2]. cbv zeta. cbn [fst snd].
  change (emdot Cops n) with (mdot n).
  match goal with |- context [N (vadd (A := Cops) (mdot n (Ex (h / 2)) u) (vscal (A := Cops) h (mdot n (Ex (h / 2)) ?x)))] =>
    assert (E2 : veq (below n) (N (vadd (A := Cops) (mdot n (Ex (h / 2)) u) (vscal (A := Cops) h (mdot n (Ex (h / 2)) x))))
                     (N (v2 (mflow n Ex) N h u)));
    [|set (n2 := N (vadd (A := Cops) (mdot n (Ex (h / 2)) u) (vscal (A := Cops) h (mdot n (Ex (h / 2)) x)))) in *; clearbody n2] end.
  { apply HN. intros i Hi. unfold v2, cadd, cscal, mflow. unfold vadd, vscal. rewrite mdot_vdivz. csimp.
    set (a := mdot n _ u i). set (b := mdot n _ (N u) i). clearbody a b. ceq. cfield. }
  match goal with |- context [N (vadd (A := Cops) (mdot n (Ex (h / 2)) u) (vdivz (A := Cops) ?x 2))] =>
    assert (E3 : veq (below n) (N (vadd (A := Cops) (mdot n (Ex (h / 2)) u) (vdivz (A := Cops) x 2))) (N (v3 (mflow n Ex) N h u)));
    [|set (n3 := N (vadd (A := Cops) (mdot n (Ex (h / 2)) u) (vdivz (A := Cops) x 2))) in *; clearbody n3] end.
  { apply HN. intros i Hi. unfold v3, cadd, cscal, mflow. csimp. rewrite (E2 i Hi). fold (mflow n Ex).
    set (a := mdot n _ u i). set (b := N _ i). clearbody a b. ceq. cfield. }
  match goal with |- context [N (vadd (A := Cops) (mdot n (Ex h) u) (vscal (A := Cops) h (mdot n (Ex (h / 2)) n3)))] =>
    assert (E4 : veq (below n) (N (vadd (A := Cops) (mdot n (Ex h) u) (vscal (A := Cops) h (mdot n (Ex (h / 2)) n3)))) (N (v4 (mflow n Ex) N h u)));
    [|set (n4 := N (vadd (A := Cops) (mdot n (Ex h) u) (vscal (A := Cops) h (mdot n (Ex (h / 2)) n3)))) in *; clearbody n4] end.
  { apply HN. intros i Hi. unfold v4, cadd, cscal. csimp.
    rewrite (lin_ext _ _ (mdot_linear n (Ex (h / 2))) _ _ E3 i Hi). reflexivity. }
  match goal with |- veq _ ?k _ /\ _ => assert (E5 : veq (below n) k (vk (mflow n Ex) N h u)) end.
  { intros i Hi. unfold vk. unfold vadd, vscal. rewrite !mdot_vdivz. csimp. rewrite (E4 i Hi).
    rewrite (lin_ext _ _ (mdot_linear n (Ex (h / 2))) _ _ E3 i Hi), (lin_ext _ _ (mdot_linear n (Ex (h / 2))) _ _ E2 i Hi).
    change (mdot n (Ex h)) with (mflow n Ex h). change (mdot n (Ex (h / 2))) with (mflow n Ex (h / 2)).
    repeat match goal with |- context [mflow n Ex ?t ?v i] => let b := fresh in set (b := mflow n Ex t v i); clearbody b end.
    set (b := N _ i). clearbody b. ceq. cfield. }
  split; [exact E5|].
  intros i Hi. unfold verr. csimp. rewrite (E4 i Hi), (HN _ _ E5 i Hi).
  set (b := N _ i). set (c := N _ i). clearbody b c. ceq. cfield.
Qed.

Lemma mdot_cadd n m a b i : mdot n m (cadd a b) i = (mdot n m a i + mdot n m b i)%C.
Proof. unfold mdot, cadd. rewrite <- csum_plus. apply csum_ext. intros. ring. Qed.
Lemma mdot_cscal n m c a i : mdot n m (cscal c a) i = (c * mdot n m a i)%C.
Proof. unfold mdot, cscal. rewrite <- csum_scal. apply csum_ext. intros. ring. Qed.
Lemma mdot_inv n a b v : meq n (mprod n a b) mident -> veq (below n) (mdot n a (mdot n b v)) v.
Proof. intros H. rewrite mdot_prod, (mdot_meq n _ _ _ H). apply mdot_ident. Qed.

Lemma mdot_ext_eq n m a b : veq (below n) a b -> mdot n m a = mdot n m b.
Proof.
  intros H. apply functional_extensionality; intros i. apply csum_ext. intros j Hj. rewrite H by exact Hj. reflexivity.
Qed.

(** The diagonalized strategy computes in the eigenbasis; [NL1] and the state are mapped there
    and the candidate is mapped back. The error vector is left in the eigenbasis. *)
Lemma if_form_z_ref (N : vec Cops -> vec Cops) (h : R) n Sm Si (lam u : cvec) :
  respects (below n) N -> meq n (mprod n Sm Si) mident -> meq n (mprod n Si Sm) mident ->
  let eN := fun v : vec Cops => mdot n Si (N (mdot n Sm v)) in
  let r := if_form_d (F := Rops) (A := Cops) eN h
             (mk_if_coefs (vexp (A := Cops) (vscal (A := Cops) h lam)) (vexp (A := Cops) (vdivz (A := Cops) (vscal (A := Cops) h lam) 2)))
             (mdot n Si u) (mdot n Si (N u)) in
  veq (below n) (mdot n Sm (fst r)) (vk (zflow n Sm Si lam) N h u) /\
  veq (below n) (snd r) (mdot n Si (verr (zflow n Sm Si lam) N h u)).
Proof.
  intros HN H1 H2 eN. unfold if_form_d. cbn [if_EL if_EL2]. cbv zeta. cbn [fst snd].
  set (EL := vexp (vscal (A := Cops) h lam)). set (EL2 := vexp (vdivz (A := Cops) (vscal (A := Cops) h lam) 2)).
  assert (HE1 : forall i, EL i = Cexp (RtoC h * lam i)%C) by reflexivity.
  assert (HE2 : forall i, EL2 i = Cexp (RtoC (h / 2) * lam i)%C).
  { intros i. rewrite <- Cexp_half. reflexivity. }
  clearbody EL EL2. set (v := mdot n Si u). set (m1 := mdot n Si (N u)).
  set (Z := zflow n Sm Si lam).
  assert (HZ : forall t w, mdot n Sm (dflow lam t (mdot n Si w)) = Z t w) by reflexivity.
  assert (HeN : forall a b, veq (below n) (mdot n Sm a) b -> eN a = mdot n Si (N b)).
  { intros a b H. apply mdot_ext_eq. apply HN. exact H. }
  clearbody eN.
  (* stage 2 *)
  rewrite (HeN _ (v2 Z N h u)).
  2:{ transitivity (mdot n Sm (cadd (dflow lam (h / 2) v) (cscal (RtoC (h / 2)) (dflow lam (h / 2) m1)))).
      { apply (lin_ext _ _ (mdot_linear n Sm)). intros i Hi. unfold dflow, cadd, cscal. csimp. rewrite HE2.
        set (a := v i); set (b := m1 i). clearbody a b. ceq. cfield. }
      intros i Hi. rewrite mdot_cadd, mdot_cscal. reflexivity. }
  (* stage 3 *)
  rewrite (HeN _ (v3 Z N h u)).
  2:{ transitivity (mdot n Sm (cadd (dflow lam (h / 2) v) (cscal (RtoC (h / 2)) (mdot n Si (N (v2 Z N h u)))))).
      { apply (lin_ext _ _ (mdot_linear n Sm)). intros i Hi. unfold dflow, cadd, cscal. csimp. rewrite HE2.
        set (a := v i); set (b := mdot _ _ _ i). clearbody a b. ceq. cfield. }
      intros i Hi. rewrite mdot_cadd, mdot_cscal, (mdot_inv n Sm Si _ H1 i Hi). reflexivity. }
  (* stage 4 *)
  rewrite (HeN _ (v4 Z N h u)).
  2:{ transitivity (mdot n Sm (cadd (dflow lam h v) (cscal (RtoC h) (dflow lam (h / 2) (mdot n Si (N (v3 Z N h u))))))).
      { apply (lin_ext _ _ (mdot_linear n Sm)). intros i Hi. unfold dflow, cadd, cscal. csimp. rewrite HE1, HE2.
        set (a := v i); set (b := mdot _ _ _ i). clearbody a b. ceq. cfield. }
      intros i Hi. rewrite mdot_cadd, mdot_cscal. reflexivity. }
  (* candidate *)
  match goal with |- veq _ (mdot n Sm ?k) _ /\ _ => assert (E5 : veq (below n) (mdot n Sm k) (vk Z N h u)) end.
  { transitivity (mdot n Sm (cadd (dflow lam h v) (cscal (RtoC h)
      (cadd (cadd (cscal (RtoC (/ 6)) (dflow lam h m1)) (cscal (RtoC (/ 3)) (dflow lam (h / 2) (mdot n Si (N (v2 Z N h u))))))
            (cadd (cscal (RtoC (/ 3)) (dflow lam (h / 2) (mdot n Si (N (v3 Z N h u)))))
                  (cscal (RtoC (/ 6)) (mdot n Si (N (v4 Z N h u))))))))).
    { apply (lin_ext _ _ (mdot_linear n Sm)). intros i Hi. unfold dflow, cadd, cscal. csimp. rewrite HE1, HE2.
      repeat match goal with |- context [mdot n Si ?w i] => let b := fresh in set (b := mdot n Si w i); clearbody b end.
      set (a := v i). set (b := m1 i). clearbody a b. ceq. cfield. }
    intros i Hi. rewrite !mdot_cadd, !mdot_cscal, !mdot_cadd, !mdot_cscal, (mdot_inv n Sm Si _ H1 i Hi).
    unfold m1, v. rewrite !HZ. unfold vk. ring. }
  split; [exact E5|].
  rewrite (HeN _ (vk Z N h u)) by exact E5.
  intros i Hi. unfold verr.
  change (fun i0 => (RtoC (h / 6) * (N (v4 Z N h u) i0 - N (vk Z N h u) i0))%C)
    with (cscal (RtoC (h / 6)) (fun i0 => (N (v4 Z N h u) i0 - N (vk Z N h u) i0)%C)).
  rewrite mdot_cscal.
  replace (mdot n Si (fun i0 => (N (v4 Z N h u) i0 - N (vk Z N h u) i0)%C) i)
    with (mdot n Si (N (v4 Z N h u)) i - mdot n Si (N (vk Z N h u)) i)%C.
  2:{ transitivity (mdot n Si (cadd (N (v4 Z N h u)) (cscal (RtoC (-1)) (N (vk Z N h u)))) i).
      - rewrite mdot_cadd, mdot_cscal. set (a := mdot _ _ _ i). set (b := mdot _ _ _ i). clearbody a b. cfield.
      - apply (lin_ext _ _ (mdot_linear n Si)); [|exact Hi]. intros j Hj. unfold cadd, cscal.
        set (a := N _ j). set (b := N _ j). clearbody a b. ceq. cfield. }
  csimp. set (a := mdot _ _ _ i). set (b := mdot _ _ _ i). clearbody a b. ceq. cfield.
Qed.

(** ** IF45DP *)
Lemma Cexp_frac (h : R) (z : C) (a : Z) (b : positive) :
  Cexp (RtoC (IZR a) * (RtoC h * z) / RtoC (IZR (Zpos b)))%C = Cexp (RtoC (Q2R (a # b) * h) * z)%C.
Proof.
  assert (IZR (Zpos b) <> 0) by (apply not_0_IZR; discriminate).
  f_equal. unfold Q2R. cbn [QArith_base.Qnum QArith_base.Qden]. set (d := IZR (Zpos b)) in *. clearbody d.
  set (n := IZR a). clearbody n. cfield; lra.
Qed.
Lemma Cexp_frac1 (h : R) (z : C) (b : positive) :
  Cexp (RtoC h * z / RtoC (IZR (Zpos b)))%C = Cexp (RtoC (Q2R (1 # b) * h) * z)%C.
Proof.
  rewrite <- Cexp_frac. f_equal. rewrite Cmult_1_l. reflexivity.
Qed.

Section DP.
  Variable N : vec Cops -> vec Cops.
  Variable h : R.
  Variables L u : cvec.
  Notation co := (snd (dp_coeffs Rops Cops L h (z_dp (vzero Cops) 0))).

  Ltac dp_norm := 
    csimp; rewrite ?Cexp_frac, ?Cexp_frac1.
  Ltac dp_atoms i :=
    repeat match goal with
    | |- context [N ?v i] => let e := fresh "e" in set (e := N v i) in *; clearbody e
    end;
    let e := fresh "e" in set (e := u i) in *; clearbody e.

  (** Stage arguments of the strategy. *)
  Local Open Scope arr_scope.
  Definition da2 : vec Cops := dp_EL15 co *v u +v dp_a21 co *v N u.
  Definition da3 : vec Cops := dp_EL310 co *v u +v dp_a31 co *v N u +v dp_a32 co *v N da2.
  Definition da4 : vec Cops := dp_EL45 co *v u +v dp_a41 co *v N u +v dp_a42 co *v N da2 +v dp_a43 co *v N da3.
  Definition da5 : vec Cops := dp_EL89 co *v u +v dp_a51 co *v N u +v dp_a52 co *v N da2 +v dp_a53 co *v N da3
                               +v dp_a54 co *v N da4.
  Definition da6 : vec Cops := dp_EL co *v u +v dp_a61 co *v N u +v dp_a62 co *v N da2 +v dp_a63 co *v N da3
                               +v dp_a64 co *v N da4 +v dp_a65 co *v N da5.
  Definition dk : vec Cops := dp_EL co *v u +v dp_a71 co *v N u +v dp_a73 co *v N da3 +v dp_a74 co *v N da4
                              +v dp_a75 co *v N da5 +v dp_a76 co *s N da6.
  Definition derr : vec Cops := dp_r1 co *v N u +v dp_r3 co *v N da3 +v dp_r4 co *v N da4 +v dp_r5 co *v N da5
                                +v dp_r6 co *s N da6 +v dp_r7 co *s N dk.
  Lemma dp_form_dk : dp_form (F := Rops) (A := Cops) N co u (N u) = (dk, derr).
  Proof. reflexivity. Qed.

  Ltac dp_stage := intros i _; qtimes;
    lazymatch goal with
    | |- ?l = ?f ?i => first [unify f u; unfold dflow; rewrite Cmult_0_l, Cexp_0; ring
                             | let g := eval red in f in change (l = g i); cbv beta;
                               unfold dp_coeffs; cbn [snd dp_EL15 dp_EL310 dp_EL45 dp_EL89 dp_EL dp_a21 dp_a31 dp_a32
                                 dp_a41 dp_a42 dp_a43 dp_a51 dp_a52 dp_a53 dp_a54 dp_a61 dp_a62 dp_a63 dp_a64 dp_a65
                                 dp_a71 dp_a73 dp_a74 dp_a75 dp_a76 dp_r1 dp_r3 dp_r4 dp_r5 dp_r6 dp_r7];
                               dp_norm; unfold dflow; rewrite ?Cmult_0_l, ?Cexp_0;
                               dp_atoms i; ceq; cpt; unfold Q2R; cbn [QArith_base.Qnum QArith_base.Qden];
                               unfold Cdiv, Cinv, Cminus, Copp, Cplus, Cmult, RtoC; cbn [fst snd]; apply C_eq; field ]
    end.

  Lemma dp_chain : chain_ok all (dflow L) N h u (tb_a DP5) (tb_c DP5) [] [u; da2; da3; da4; da5; da6; dk].
  Proof.
    cbn [chain_ok DP5 tb_a tb_c app].
    repeat match goal with |- _ /\ _ => split end; try exact I; dp_stage.
  Qed.
  Lemma dp_step : if_step DP5 (dflow L) N h u = dk.
  Proof.
    apply veq_all.
    rewrite (if_step_chain all (dflow L) N (dflow_flow L) (respects_all N) h u DP5 _ dp_chain).
    cbn [DP5 tb_b tb_c]. dp_stage.
  Qed.

  (** Weights of the error vector as coded. *)
  Definition dp_err_code : list Q := [71#57600; 0; -71#16695; 17#1920; -17253#339200; 22#525; -1#40]%Q.
  Notation stages := (if_stages (dflow L) N h u (tb_a DP5) (tb_c DP5) []).
  Lemma dp_stages : stages = [(0%Q, N u); ((1#5)%Q, N da2); ((3#10)%Q, N da3); ((4#5)%Q, N da4); ((8#9)%Q, N da5); (1%Q, N da6); (1%Q, N dk)].
  Proof.
    assert (H := chain_stages all (dflow L) N (dflow_flow L) (respects_all N) h u _ _ [] [] _ (Forall2_nil _) dp_chain).
    cbn [app combine map DP5 tb_c] in H. unfold DP5 in *. cbn [tb_a tb_c] in *.
    remember (if_stages _ _ _ _ _ _ _) as l. clear Heql.
    repeat match goal with
    | H : Forall2 _ _ (_ :: _) |- _ => inversion H; clear H; subst
    | H : Forall2 _ _ [] |- _ => inversion H; clear H; subst
    end.
    repeat match goal with
    | H : same_stage _ ?x _ |- _ => destruct x; destruct H as [H ?]; cbn [fst snd] in *; subst
    | H : veq all ?a _ |- _ => apply veq_all in H; rewrite H; clear H
    end. reflexivity.
  Qed.
  Lemma dp_err : derr = cscal (RtoC h) (if_comb (dflow L) h 1 dp_err_code stages).
  Proof.
    symmetry. apply veq_all. rewrite dp_stages. unfold dp_err_code.  dp_stage.
  Qed.
End DP.
