(** * C98 for matrix operators *)

From Coq Require Import ZArith List Bool Reals Lra Lia FunctionalExtensionality QArith Qreals.
From Coquelicot Require Import Complex.
From Verif Require Import Scalars Control ControlCS ControlCSReal ControlAS ControlASReal ControlSim ControlSound ControlInv1 Arrays SchemeBase SchemeIF SchemeETD4 SchemeETD5 Solvers
     SchemeFacts SchemeSound SchemeFamily SchemePartial SchemeForm CInst SpecRK SchemeIFReal SpecPhi SpecERK ContourReal ContourMatrix SchemeETDReal
     SchemeETDCoefs PropsCache PropsIF PropsETD PropsLinear PropsMatrix Voc MatExp RoundingMat PropsConverge Fourier PropsMean PropsIntegrals.
Import ListNotations.
Local Open Scope R_scope.

Lemma computed {X} (r : (exn + unit) * X) : fst r = inr tt -> exists c, r = (inr tt, c).
Proof. destruct r as [x c]. cbn [fst]. intros ->. exists c. reflexivity. Qed.

(** ** Spec *)
(** The functional vanishes on [L v] and on [N(v)]. *)
Definition first_integral_matrix (n : nat) (a : nat -> C) (L : nat -> nat -> C) (N : (nat -> C) -> nat -> C) : Prop :=
  (forall v, functional n a (fun i => csum n (fun j => L i j * v j)%C) = RtoC 0) /\ (forall v, functional n a (N v) = RtoC 0).

Lemma functional_ext n a v w : (forall i, (i < n)%nat -> v i = w i) -> functional n a v = functional n a w.
Proof. intros H. unfold functional. apply csum_ext. intros i Hi. rewrite (H i Hi). reflexivity. Qed.

(** [a exp(tL) = a], since [exp(z) = 1 + z psi_1(z)]. *)
Lemma functional_exp n a L t E v : (forall v, functional n a (mdot n L v) = RtoC 0) ->
  is_psi n 0 (fun i j => RtoC t * L i j)%C E -> functional n a (mdot n E v) = functional n a v.
Proof.
  intros HL HE. destruct (psi_exists n 1 (fun i j => RtoC t * L i j)%C) as [P1 HP].
  assert (M := psi_unique n 0 _ _ _ HE (psi_0_1 n _ P1 HP)).
  rewrite (functional_ext n a _ (cadd v (cscal (RtoC t) (mdot n L (mdot n P1 v))))).
  - rewrite functional_add, functional_scal, HL. ring.
  - intros i Hi. unfold cadd, cscal. rewrite (mdot_prod n L P1 v i Hi).
    unfold mdot. rewrite <- (csum_mident n i v Hi), <- csum_scal, <- csum_plus. apply csum_ext. intros j Hj.
    rewrite (M i j Hi Hj). unfold mplus, mprod. rewrite (csum_ext n _ (fun k => RtoC t * (L i k * P1 k j))%C) by (intros; ring).
    rewrite csum_scal. ring.
Qed.

(** The contour sums map vectors on which the functional vanishes to such vectors. *)
Lemma functional_resolvent n a L q h w Q v : (forall v, functional n a (mdot n L v) = RtoC 0) ->
  is_inv n (shift w (scaled q h L)) Q -> (w * functional n a (mdot n Q v))%C = functional n a v.
Proof.
  intros HL [HQ _]. symmetry.
  rewrite (functional_ext n a v (cadd (cscal w (mdot n Q v)) (cscal (- RtoC (q * h))%C (mdot n L (mdot n Q v))))).
  - rewrite functional_add, !functional_scal, HL. ring.
  - intros i Hi. transitivity (mdot n (shift w (scaled q h L)) (mdot n Q v) i).
    + rewrite (mdot_prod n _ Q v i Hi). unfold mdot. rewrite <- (csum_mident n i v Hi). apply csum_ext. intros j Hj. rewrite (HQ i j Hi Hj). reflexivity.
    + unfold cadd, cscal, shift, mminus, mtimes, scaled. rewrite <- (csum_mident n i (mdot n Q v) Hi).
      change (mdot n L (mdot n Q v) i) with (csum n (fun j => L i j * mdot n Q v j)%C). unfold mdot at 1.
      rewrite <- !csum_scal, <- csum_plus. apply csum_ext. intros j Hj. ring.
Qed.
Lemma functional_contour {W} (p : problem Cops W) a k q h P v : (forall v, functional (p_size p) a (mdot (p_size p) (p_mat p) v) = RtoC 0) ->
  contour_of p k q h P -> functional (p_size p) a v = RtoC 0 -> functional (p_size p) a (mdot (p_size p) P v) = RtoC 0.
Proof.
  intros HL (Q & HQ & ->) Hv. set (n := p_size p) in *. set (M := contour_points (p_cfg p)) in *. set (r := rho (p_cfg p)) in *.
  assert (E : functional n a (mdot n (contour (p_cfg p) (psi_code k) Q) v) =
    csum M (fun l => (psi_code k (r l) / RtoC (INR M)) * (r l * functional n a (mdot n (Q l) v)))%C).
  { unfold functional, mdot, contour. fold M r.
    rewrite (csum_ext n _ (fun i => csum M (fun l => csum n (fun j => a i * (r l * psi_code k (r l) * Q l i j / RtoC (INR M) * v j)))%C)).
    - rewrite csum_swap. apply csum_ext. intros l _. rewrite <- !csum_scal. apply csum_ext. intros i _.
      rewrite <- !csum_scal. apply csum_ext. intros j _. unfold Cdiv. ring.
    - intros i _. rewrite csum_swap, <- csum_scal. apply csum_ext. intros j _. rewrite csum_scal. f_equal.
      unfold Cdiv. rewrite <- !csum_scal_r. reflexivity. }
  rewrite E. apply csum_0. intros l Hl. assert (X := functional_resolvent n a (p_mat p) q h (r l) (Q l) v HL (HQ l Hl)).
  cbv beta. etransitivity; [apply f_equal; exact X|]. rewrite Hv. apply Cmult_0_r.
Qed.

(** Linear first integrals keep their value along every run of IF4, IF34, ETD4, ETD34, ETD5 and ETD35 with a matrix operator
    (without diagonalization), whatever the operator: inside the contour or not. *)
Theorem C98_linear_integrals_matrix {W} (p : problem Cops W) (N : vec Cops -> vec Cops) a u :
  (forall v w y w', p_nl p v w = (inr y, w') -> y = N v) -> (forall m e, p_expm p m <> inl e) -> exp_series p -> inv_ok p ->
  respects (below (p_size p)) N -> first_integral_matrix (p_size p) a (p_mat p) N ->
  let ok := fun c => functional (p_size p) a c = functional (p_size p) a u in
  (forall k fuel t0 tf hstep sd sf (o : csobj Rops (vec Cops) W (cs_model p k)) w r o' w', match k with IF4n | ETD4n | ETD5n => True | _ => False end ->
     cs_evolve fuel u t0 tf hstep sd sf o w = (r, o', w') -> Forall ok (c_u o') /\ forall u', r = Ret u' -> ok u') /\
  (forall k ks cfg cs fuel t0 tf hi sd sf (o : asobj Rops (vec Cops) W (as_model p k)) w r o' w', match k with IF34n | ETD34n | ETD35n => True | _ => False end ->
     as_evolve ks cfg cs fuel u t0 tf hi sd sf o w = (r, o', w') -> Forall ok (a_u o') /\ forall u', r = Ret u' -> ok u').
Proof.
  intros HNL HT HE HI HR [HL HN] ok. destruct (expm_flow p HT HE) as (Ex & HX & _).
  set (n := p_size p) in *. set (Z := fun c => functional n a c = RtoC 0).
  assert (Z0 : Z (fun _ => RtoC 0)) by (unfold Z, functional; apply csum_0; intros i _; apply Cmult_0_r).
  assert (Zadd : forall x y, Z x -> Z y -> Z (cadd x y)) by (intros x y X Y; unfold Z; rewrite functional_add, X, Y; ring).
  assert (Zscal : forall (r : R) x, Z x -> Z (cscal (RtoC r) x)) by (intros r x X; unfold Z; rewrite functional_scal, X; ring).
  assert (GZ : forall x y, ok x -> Z y -> ok (cadd x y)) by (intros x y X Y; unfold ok; rewrite functional_add, X, Y; ring).
  assert (NZ : forall x, ok x -> Z (N x)) by (intros x _; apply HN).
  assert (PX : forall t v, functional n a (mflow n Ex t v) = functional n a v).
  { intros t v. apply (functional_exp n a (p_mat p) t); [exact HL|]. apply HE, HX. }
  assert (LG : forall tb tau v, ok v -> ok (lawson tb (mflow n Ex) N tau v)).
  { intros tb tau v Hv. apply (lawson_G ok Z); try assumption; intros t x X; [unfold ok|unfold Z]; rewrite PX; exact X. }
  assert (EG : forall q h E, p_expm p (scaled q h (p_mat p)) = inr E -> gop ok (mdot n E)).
  { intros q h E HEq v Hv. unfold ok. rewrite (functional_exp n a (p_mat p) (q * h) E v HL (HE _ _ HEq)). exact Hv. }
  assert (PZ : forall k q h P, contour_of p k q h P -> zop Z (mdot n P)).
  { intros k q h P HP v Hv. exact (functional_contour p a k q h P v HL HP Hv). }
  assert (SZ : forall (c : R) o, zop Z o -> zop Z (oscal c o)) by (intros c o Ho v Hv; apply Zscal, Ho, Hv).
  assert (F4 : forall h v, fst (cs_uc p ETD4n h (cs_k0 Cops ETD4n)) = inr tt -> ok v -> ok (cs_Phi p N ETD4n h v) /\ ok (fst (as_Phi p N ETD34n h v))).
  { intros h v Hc Hv. destruct (computed _ Hc) as [c Hc2].
    destruct (etd4n_stored W p HI h _ c Hc2) as (E1 & E12 & P1h & P2h & P1 & P2 & P3 & HE1 & HE12 & K1 & K2 & K3 & K4 & K5 & Hok).
    destruct (etd4n_steps p N h v c _ _ _ _ _ _ _ Hc2 Hok) as [G1 G2]. rewrite G1, G2. cbn [pair_of fst].
    assert (Q : ok (erk_step (krogstad (mdot n E12) (mdot n E1) (mdot n P1h) (oscal (1/2) (mdot n P2h)) (mdot n P1) (oscal (1/2) (mdot n P2)) (oscal (1/6) (mdot n P3))) N h v)).
    { apply (erk_step_G ok Z); [assumption..| |exact Hv]. apply krogstad_inv; eauto. repeat (apply Forall_cons; [eauto|]). apply Forall_nil. }
    split; exact Q. }
  assert (F5 : forall h v, fst (cs_uc p ETD5n h (cs_k0 Cops ETD5n)) = inr tt -> ok v -> ok (cs_Phi p N ETD5n h v) /\ ok (fst (as_Phi p N ETD35n h v))).
  { intros h v Hc Hv. destruct (computed _ Hc) as [c Hc2].
    destruct (etd5n_stored W p HI h _ c Hc2) as (E14 & E12 & E34 & E1 & P1q & P2q & P1h & P2h & P1t & P2t & P1 & P2 & P3
      & HE14 & HE12 & HE34 & HE1 & K1 & K2 & K3 & K4 & K5 & K6 & K7 & K8 & K9 & Hok).
    destruct (etd5n_steps p N h v c _ _ _ _ _ _ _ _ _ _ _ _ _ Hc2 Hok) as [G1 G2]. rewrite G1, G2. cbn [pair_of fst].
    match goal with |- ok ?x /\ _ => assert (Q : ok x) end.
    { apply (erk_step_G ok Z); [assumption..| |exact Hv]. apply etd5_inv; eauto. repeat (apply Forall_cons; [eauto|]). apply Forall_nil. }
    split; exact Q. }
  split.
  - intros k fuel t0 tf hs sd sf o w r o' w' Dk E.
    destruct (@cs_model_sound1 Rops (fun x y X => proj1 (Reqb_true x y) X) Cops W p N HNL k) as [Inv H1].
    assert (H2 : forall tau v, cs_good p k tau -> ok v -> ok (cs_Phi p N k tau v)).
    { intros tau v Hg Hv. destruct k; try contradiction; [|apply F4; assumption|apply F5; assumption].
      unfold ok. rewrite (functional_ext n a _ _ (fun i Hi => C32_if4_matrix W p N Ex HX HR tau v i Hi)). apply LG, Hv. }
    exact (@cs_evolve_inv1 Rops (vec Cops) W (cs_model p k) _ _ ok _ H1 H2 _ _ _ _ _ _ _ _ _ _ _ _ eq_refl E).
  - intros k ks cfg cs fuel t0 tf hi sd sf o w r o' w' Dk E.
    destruct (@as_model_sound1 Rops (fun x y X => proj1 (Reqb_true x y) X) Cops W p N HNL k) as [Inv H1].
    assert (H2 : forall tau v, as_good p k tau -> ok v -> ok (fst (as_Phi p N k tau v))).
    { intros tau v Hg Hv. destruct k; try contradiction; [|apply F4; assumption|apply F5; assumption].
      unfold ok. rewrite (functional_ext n a _ _ (fun i Hi => proj1 (C33_if34_matrix W p N Ex HX HR tau v i Hi))). apply LG, Hv. }
    exact (@as_evolve_inv1 Rops (vec Cops) W (as_model p k) _ _ ok _ H1 H2 ks cfg cs _ _ _ _ _ _ _ _ _ _ _ _ eq_refl E).
Qed.

(** ** [diagonalize=True] *)
(** With exact eigenvectors the same holds in the eigenbasis, where the weights of the functional are [a S]. *)
Theorem C98_linear_integrals_diagonalized {W} (p : problem Cops W) (N : vec Cops -> vec Cops) a u :
  (forall v w y w', p_nl p v w = (inr y, w') -> y = N v) -> diagonalizes p ->
  respects (below (p_size p)) N -> first_integral_matrix (p_size p) a (p_mat p) N ->
  let ok := fun c => functional (p_size p) a c = functional (p_size p) a u in
  forall k ks cfg cs fuel t0 tf hi sd sf (o : asobj Rops (vec Cops) W (as_model p k)) w r o' w', match k with IF34z | ETD34z | ETD35z => True | _ => False end ->
     as_evolve ks cfg cs fuel u t0 tf hi sd sf o w = (r, o', w') -> Forall ok (a_u o') /\ forall u', r = Ret u' -> ok u'.
Proof.
  intros HNL [[HS HS'] HD] HR [HL HN] ok. set (n := p_size p) in *. set (lam := p_eigs p) in *.
  set (b := fun k => csum n (fun i => a i * p_S p i k)%C).
  assert (FS : forall v, functional n a (mdot n (p_S p) v) = functional n b v).
  { intros v. unfold functional, mdot, b. rewrite (csum_ext n _ (fun i => csum n (fun j => a i * p_S p i j * v j))%C).
    - rewrite csum_swap. apply csum_ext. intros j _. rewrite csum_scal_r. reflexivity.
    - intros i _. rewrite <- csum_scal. apply csum_ext. intros j _. ring. }
  assert (ID : forall (A B : mat Cops) v, meq n (mprod n A B) mident -> forall i, (i < n)%nat -> mdot n A (mdot n B v) i = v i).
  { intros A B v HAB i Hi. rewrite (mdot_prod n A B v i Hi). unfold mdot. rewrite <- (csum_mident n i v Hi). apply csum_ext.
    intros j Hj. rewrite (HAB i j Hi Hj). reflexivity. }
  assert (FI : forall v, functional n b (mdot n (p_Sinv p) v) = functional n a v).
  { intros v. rewrite <- FS. apply functional_ext. apply ID, HS. }
  assert (HLb : forall v, functional n b (fun i => lam i * v i)%C = RtoC 0).
  { intros v. rewrite <- FS, <- (HL (mdot n (p_S p) v)). apply functional_ext. intros i Hi.
    change (csum n (fun j => p_mat p i j * mdot n (p_S p) v j)%C) with (mdot n (p_mat p) (mdot n (p_S p) v) i).
    refine (eq_sym (eq_trans (mdot_meq n _ _ (mdot n (p_S p) v) HD i Hi) _)).
    refine (eq_trans (eq_sym (mdot_prod n (p_S p) (mprod n (diagm lam) (p_Sinv p)) (mdot n (p_S p) v) i Hi)) _).
    assert (X : veq (below n) (mdot n (mprod n (diagm lam) (p_Sinv p)) (mdot n (p_S p) v)) (fun i => lam i * v i)%C).
    { intros j Hj. refine (eq_trans (eq_sym (mdot_prod n (diagm lam) (p_Sinv p) (mdot n (p_S p) v) j Hj)) _).
      rewrite (mdot_diag n lam _ j Hj), (ID _ _ v HS' j Hj). reflexivity. }
    rewrite (mdot_ext_eq n (p_S p) _ _ X). reflexivity. }
  set (Z := fun c => functional n b c = RtoC 0).
  assert (Z0 : forall d, functional n d (fun _ => RtoC 0) = RtoC 0) by (intros d; unfold functional; apply csum_0; intros i _; apply Cmult_0_r).
  assert (Zadd : forall x y, Z x -> Z y -> Z (cadd x y)) by (intros x y X Y; unfold Z; rewrite functional_add, X, Y; ring).
  assert (Zscal : forall (r : R) x, Z x -> Z (cscal (RtoC r) x)) by (intros r x X; unfold Z; rewrite functional_scal, X; ring).
  assert (DZ : forall h f, zop Z (dfun h lam f)) by (intros h f x X; unfold Z; rewrite (functional_dfun n b lam HLb), X; ring).
  assert (G : forall m h v, (forall c0, inv_erk (fun c => functional n b c = c0) Z m) -> ok v ->
    ok (mdot n (p_S p) (erk_step m (fun x => mdot n (p_Sinv p) (N (mdot n (p_S p) x))) h (mdot n (p_Sinv p) v)))).
  { intros m h v Hm Hv. unfold ok. rewrite FS.
    apply (erk_step_G (fun c => functional n b c = functional n a u) Z); [apply Z0|exact Zadd|exact Zscal| | |apply Hm|rewrite FI; exact Hv].
    - intros x y X Y. rewrite functional_add, X, Y. ring.
    - intros x _. unfold Z. rewrite FI. apply HN. }
  assert (DG : forall c0 h q, gop (fun c => functional n b c = c0) (dfun h lam (fun z => Cexp (RtoC q * z))%C)).
  { intros c0 h q x X. rewrite (functional_dfun n b lam HLb), X, Cmult_0_r, Cexp_0. ring. }
  intros k ks cfg cs fuel t0 tf hi sd sf o w r o' w' Dk E.
  destruct (@as_model_sound1 Rops (fun x y X => proj1 (Reqb_true x y) X) Cops W p N HNL k) as [Inv H1].
  assert (H2 : forall tau v, as_good p k tau -> ok v -> ok (fst (as_Phi p N k tau v))).
  { intros tau v _ Hv. destruct k; try contradiction.
    - unfold ok. rewrite (functional_ext n a _ _ (fun i Hi => C47_if34_diagonalized W p N (conj HS HS') HR tau v i Hi)).
      assert (PX : forall t x, functional n a (mflow n (eig_exp p) t x) = functional n a x).
      { intros t x. refine (eq_trans (functional_ext n a _ _ (fun i Hi => zflow_eig_exp p t x i Hi)) _).
        refine (eq_trans (FS (dflow lam t (mdot n (p_Sinv p) x))) _).
        replace (dflow lam t (mdot n (p_Sinv p) x)) with (dfun t lam Cexp (mdot n (p_Sinv p) x)) by reflexivity.
        rewrite (functional_dfun n b lam HLb), Cexp_0, FI. ring. }
      apply (lawson_G ok (fun c => functional n a c = RtoC 0)).
      + apply Z0.
      + intros x y X Y. rewrite functional_add, X, Y. ring.
      + intros c x X. rewrite functional_scal, X. ring.
      + intros x y X Y. unfold ok. rewrite functional_add, X, Y. ring.
      + intros x _. apply HN.
      + intros t x X. unfold ok. rewrite PX. exact X.
      + intros t x X. rewrite PX. exact X.
      + exact Hv.
    - rewrite (proj1 (etd34z_eig W p N (conj HS HS') HR tau v)). apply G; [|exact Hv]. intros c0.
      apply krogstad_inv; [apply Z0|assumption|assumption|apply DG|apply DG|]. repeat (apply Forall_cons; [apply DZ|]). apply Forall_nil.
    - rewrite (proj1 (etd35z_eig W p N (conj HS HS') HR tau v)). apply G; [|exact Hv]. intros c0.
      apply etd5_inv; [apply Z0|assumption|assumption|apply DG|apply DG|apply DG|apply DG|]. repeat (apply Forall_cons; [apply DZ|]). apply Forall_nil. }
  exact (@as_evolve_inv1 Rops (vec Cops) W (as_model p k) _ _ ok _ H1 H2 ks cfg cs _ _ _ _ _ _ _ _ _ _ _ _ eq_refl E).
Qed.

(** Diffusion between two cells, [L = ((-1, 1), (1, -1))], with an exchange [u0 u1] between them: the total is kept. *)
Definition cells_L : mat Cops := fun i j => if Nat.eqb i j then RtoC (-1) else RtoC 1.
(** The inverse of a 2 x 2 matrix. *)
Definition det2 (m : mat Cops) : C := (m 0%nat 0%nat * m 1%nat 1%nat - m 0%nat 1%nat * m 1%nat 0%nat)%C.
Definition inv2x2 (m : mat Cops) : exn + mat Cops :=
  if Ceq_dec (det2 m) (RtoC 0) then inl LinAlgError
  else inr (fun i j => (match i, j with
    | 0%nat, 0%nat => m 1%nat 1%nat | 0%nat, _ => - m 0%nat 1%nat | _, 0%nat => - m 1%nat 0%nat | _, _ => m 0%nat 0%nat end / det2 m)%C).
Lemma inv2x2_ok m q : inv2x2 m = inr q -> is_inv 2 m q.
Proof.
  unfold inv2x2. destruct (Ceq_dec (det2 m) (RtoC 0)) as [D|D]; [discriminate|]. intros E.
  apply (f_equal (fun x => match x with inr z => z | _ => q end)) in E. rewrite <- E. unfold det2 in *.
  split; intros i j Hi Hj; destruct i as [|[|i]], j as [|[|j]]; try lia; unfold mprod, mident; cbn [csum Nat.eqb]; field; exact D.
Qed.
Definition cells_S (c : R) : mat Cops := fun i j => match i, j with 1%nat, 1%nat => RtoC (- c) | _, _ => RtoC c end.
Definition cells : problem Cops unit :=
  mk_problem (A := Cops) (pure_nl exchange) 2 exchange_L cells_L (mk_etdcfg (F := Rops) 1 32 1)
    (fun m => inr (mexp 2 m)) inv2x2 (cells_S 1) (cells_S (1/2)) (fun i => if Nat.eqb i 0 then RtoC 0 else RtoC (-2)).
Example C98_matrix_not_vacuous : let u := fun i => match i with 0%nat => RtoC 1 | 1%nat => RtoC 2 | _ => RtoC 0 end in
  (forall fuel t0 tf hstep sd sf w r o' w', cs_evolve fuel u t0 tf hstep sd sf (cs_new_obj cells ETD4n) w = (r, o', w') ->
     forall u', r = Ret u' -> (u' 0%nat + u' 1%nat)%C = RtoC 3) /\
  csum 2 (fun j => cells_L 0%nat j * u j)%C <> RtoC 0 /\ exchange u 0%nat <> RtoC 0.
Proof.
  intros u. split; [|split].
  - assert (HNL : forall v w y w', p_nl cells v w = (inr y, w') -> y = exchange v).
    { intros v w y w' E. cbn [cells p_nl] in E. unfold pure_nl in E.
      apply (f_equal (fun x => match x with (inr z, _) => z | _ => y end)) in E. symmetry. exact E. }
    assert (HT : forall m e, p_expm cells m <> inl e) by (intros; discriminate).
    assert (HE : exp_series cells).
    { intros m e E. cbn [cells p_expm] in E. apply (f_equal (fun x => match x with inr z => z | _ => e end)) in E. rewrite <- E. apply mexp_psi. }
    assert (HR : respects (below 2) exchange).
    { intros x y H i Hi. destruct i as [|[|i]]; cbn [exchange]; rewrite ?(H 0%nat), ?(H 1%nat) by (unfold below; lia); reflexivity. }
    assert (HI : first_integral_matrix 2 (fun _ => RtoC 1) cells_L exchange).
    { split; intros v; unfold functional; cbn [csum cells_L Nat.eqb exchange].
      - replace (RtoC (-1)) with (- RtoC 1)%C by (apply C_eq; cbn; ring). unfold cells_L. cbn [Nat.eqb].
        replace (RtoC (-1)) with (- RtoC 1)%C by (apply C_eq; cbn; ring). ring.
      - ring. }
    destruct (C98_linear_integrals_matrix cells exchange (fun _ => RtoC 1) u HNL HT HE inv2x2_ok HR HI) as [H _].
    intros fuel t0 tf hs sd sf w r o' w' E u' Hu. destruct (H ETD4n _ _ _ _ _ _ _ _ _ _ _ Logic.I E) as [_ K]. specialize (K u' Hu).
    unfold functional, u in K. cbn [csum cells p_size] in K.
    transitivity (RtoC 0 + RtoC 1 * u' 0%nat + RtoC 1 * u' 1%nat)%C; [ring|]. rewrite K. apply C_eq; cbn; ring.
  - unfold u, cells_L. cbn [csum Nat.eqb]. intros X. apply (f_equal fst) in X. cbn in X. lra.
  - unfold exchange, u. rewrite <- RtoC_mult. intros X. apply (f_equal fst) in X. cbn in X. lra.
Qed.

Example C98_diagonalized_not_vacuous : diagonalizes cells /\ p_eigs cells 1%nat <> RtoC 0.
Proof.
  split; [split; [split|]|].
  1-3: intros i j Hi Hj; cbn [cells p_size] in Hi, Hj; destruct i as [|[|i]], j as [|[|j]]; try lia;
    unfold mprod, mident, diagm; cbn [csum Nat.eqb cells p_size p_S p_Sinv p_eigs p_mat cells_S cells_L]; unfold cells_L, cells_S; cbn [Nat.eqb]; apply C_eq; cbn; field.
  cbn [cells p_eigs Nat.eqb]. intros X. apply (f_equal fst) in X. cbn in X. lra.
Qed.

Print Assumptions C98_linear_integrals_matrix.
Print Assumptions C98_linear_integrals_diagonalized.
