(** * C84: symmetries of the equation are symmetries of the runs

    If the linear operator and the nonlinear function commute with a symmetry (a permutation of the
    entries, factors of modulus one, possibly complex conjugation), then so does every sequence of
    calls on a solver object: moved arguments give the same exceptions, the same times and step
    sizes, and moved arrays. Symmetric data stay symmetric. The cache, re-used coefficients, and
    the choice of step sizes are part of the statement. *)

From Coq Require Import ZArith List Bool Reals Lra Lia FunctionalExtensionality.
From Coquelicot Require Import Complex.
From Verif Require Import Scalars Control ControlRel Arrays SchemeBase SchemeIF SchemeETD4 SchemeETD5 Solvers SchemeFamily RelStep
     CInst SpecRK SchemeIFReal SpecPhi SpecPoly ContourReal SchemeETDCoefs PropsIF PropsETD PropsPsi ContourMatrix MatrixFlow Neumann PropsMatrix
     Fourier Tolerance PropsTolerance PropsMean Voc Asym PropsConverge Symmetry.
Import ListNotations.
Local Open Scope R_scope.

(** ** Specification *)

(** [F] commutes with the symmetry, as far as the first [n] entries go. *)
Definition equivariant (n : nat) (s : symmetry) (F : cvec -> cvec) : Prop :=
  forall v i, (i < n)%nat -> F (move s v) i = move s (F v) i.
(** The first [n] entries are left alone by the symmetry. *)
Definition symmetric (n : nat) (s : symmetry) (v : vec Cops) : Prop := forall i, (i < n)%nat -> move s v i = v i.

(** The nonlinear function, which may raise and may have side effects: moved arguments give the same
    exception or the moved value, and leave the same state of the rest of the program. *)
Definition nl_equivariant {W} (n : nat) (s : symmetry) (nl : vec Cops -> W -> (exn + vec Cops) * W) : Prop :=
  forall a b w, moved n s a b ->
    match fst (nl a w), fst (nl b w) with inl e, inl e' => e = e' | inr x, inr y => moved n s x y | _, _ => False end /\
    snd (nl a w) = snd (nl b w).
(** Symmetric arguments give symmetric values (or an exception). *)
Definition nl_keeps {W} (n : nat) (s : symmetry) (nl : vec Cops -> W -> (exn + vec Cops) * W) : Prop :=
  forall a w, symmetric n s a -> match fst (nl a w) with inl _ => True | inr x => symmetric n s x end.

(** The linear operator of a strategy, and what is assumed of [expm], [inv] and [eig]. *)
Definition cs_lin {W} (p : problem Cops W) (k : cs_kind) : cvec -> cvec :=
  match k with IF4d | ETD4d | ETD5d => fun v i => (p_vec p i * v i)%C | _ => mdot (p_size p) (p_mat p) end.
Definition as_lin {W} (p : problem Cops W) (k : as_kind) : cvec -> cvec :=
  match k with IF34d | IF45DPd | ETD34d | ETD35d => fun v i => (p_vec p i * v i)%C | _ => mdot (p_size p) (p_mat p) end.
Definition cs_oracles {W} (p : problem Cops W) (k : cs_kind) : Prop :=
  match k with IF4d | ETD4d | ETD5d => True | IF4n => exp_series p | ETD4n | ETD5n => exp_series p /\ inv_ok p end.
Definition as_oracles {W} (p : problem Cops W) (k : as_kind) : Prop :=
  match k with
  | IF34d | IF45DPd | ETD34d | ETD35d => True
  | IF34n => exp_series p
  | ETD34n | ETD35n => exp_series p /\ inv_ok p
  | IF34z | ETD34z | ETD35z => diagonalizes p
  end.
(** Kinds whose error estimate is in the coordinates of the state. *)
Definition plain_error (k : as_kind) : bool := match k with IF34z | ETD34z | ETD35z => false | _ => true end.

(** Answers with a given array property; related answers. *)
Definition ans_all {V B} (P : V -> Prop) (x : answer V B) : Prop := match x with Ret (v, _) => P v | _ => True end.

(** ** From operators to coefficients *)
Definition ones : cvec := fun _ => RtoC 1.
Lemma wt_neq n s i : sy_ok n s -> (i < n)%nat -> sy_wt s i <> RtoC 0.
Proof. intros (_ & _ & H) Hi E. specialize (H i Hi). rewrite E, Cmod_0 in H. lra. Qed.
Lemma equivariant_linked n s (L : cvec) : sy_ok n s -> equivariant n s (fun v i => (L i * v i)%C) -> linked (sy_conj s) (perm_rel n s) L.
Proof.
  intros Hs H i j [Hi ->]. specialize (H ones i Hi). unfold move, ones in H. rewrite cjb_mult, cjb_R in H.
  assert (N := wt_neq n s i Hs Hi). ceq. transitivity (L i * (sy_wt s i * RtoC 1) / sy_wt s i)%C; [field; exact N|]. rewrite H. field. exact N.
Qed.
Lemma equivariant_commutes n s (m : cmat) : sy_ok n s -> equivariant n s (mdot n m) -> commutes n s m.
Proof.
  intros Hs H. apply (commutes_iff n s Hs). intros i j Hi Hj.
  specialize (H (fun k => if Nat.eqb k (sy_perm s j) then RtoC 1 else RtoC 0) i Hi). unfold move, mdot in H. rewrite cjb_sum in H.
  rewrite (csum_single n j) in H; [|exact Hj|].
  2: { intros k Hk N. destruct (Nat.eqb_spec (sy_perm s k) (sy_perm s j)) as [E|_]; [elim N; apply Hs; assumption|]. rewrite cjb_R. ring. }
  rewrite Nat.eqb_refl, cjb_R in H. rewrite (csum_single n (sy_perm s j)) in H; [|apply Hs; exact Hj|].
  2: { intros k Hk N. destruct (Nat.eqb_spec k (sy_perm s j)) as [E|_]; [contradiction|]. rewrite cjb_mult, cjb_R. ring. }
  rewrite Nat.eqb_refl, cjb_mult, cjb_R in H.
  transitivity (sy_wt s i * (cjb (sy_conj s) (m (sy_perm s i) (sy_perm s j)) * RtoC 1))%C; [ring|]. rewrite <- H. ring.
Qed.

Section Coefficients.
  Variable W : Type.
  Variable p : problem Cops W.
  Variable s : symmetry.
  Notation n := (p_size p).
  Hypothesis Hs : sy_ok n s.
  Notation okd := (linked (sy_conj s) (perm_rel n s)).
  Notation okm := (commutes n s).
  Notation okz := (linked (sy_conj s) (base_rel n s (p_S p) (p_Sinv p))).

  Lemma cs_coeffs_ok k : equivariant n s (cs_lin p k) -> cs_oracles p k -> forall h c, cs_ok okd okm k c -> cs_ok okd okm k (snd (cs_uc p k h c)).
  Proof.
    intros HL HO h c Hc. destruct k; cbn [cs_lin cs_oracles cs_ok cs_uc] in *.
    - apply (if_linked _ _ _ (equivariant_linked n s _ Hs HL)).
    - apply (if4n_commutes W p s Hs HO (equivariant_commutes n s _ Hs HL)). exact Hc.
    - apply (etd4d_linked _ _ _ _ (equivariant_linked n s _ Hs HL)). exact Hc.
    - destruct HO as [HE HI]. apply (etd4n_commutes W p s Hs HE HI (equivariant_commutes n s _ Hs HL)). exact Hc.
    - apply (etd5d_linked _ _ _ _ (equivariant_linked n s _ Hs HL)). exact Hc.
    - destruct HO as [HE HI]. apply (etd5n_commutes W p s Hs HE HI (equivariant_commutes n s _ Hs HL)). exact Hc.
  Qed.
  Lemma eigs_ok : equivariant n s (mdot n (p_mat p)) -> diagonalizes p -> okz (p_eigs p).
  Proof.
    intros HL [[D1 D2] D3]. apply (linked_eigs n s Hs (p_S p) (p_Sinv p) (p_mat p) (p_eigs p) D2 D3). apply (equivariant_commutes n s _ Hs HL).
  Qed.
  Lemma as_coeffs_ok k : equivariant n s (as_lin p k) -> as_oracles p k -> forall h c, as_ok okd okm okz k c -> as_ok okd okm okz k (snd (as_uc p k h c)).
  Proof.
    intros HL HO h c Hc. destruct k; cbn [as_lin as_oracles as_ok as_uc] in *.
    - apply (if_linked _ _ _ (equivariant_linked n s _ Hs HL)).
    - apply (if34n_commutes W p s Hs HO (equivariant_commutes n s _ Hs HL)). exact Hc.
    - apply (if_linked _ _ _ (eigs_ok HL HO)).
    - apply (dp_linked _ _ _ (equivariant_linked n s _ Hs HL)).
    - apply etd34_linked; [|exact Hc]. apply linked_scal. apply (equivariant_linked n s _ Hs HL).
    - destruct HO as [HE HI]. apply (etd4n_commutes W p s Hs HE HI (equivariant_commutes n s _ Hs HL)). exact Hc.
    - apply etd34_linked; [|exact Hc]. apply linked_scal. apply (eigs_ok HL HO).
    - apply etd35_linked; [|exact Hc]. apply linked_scal. apply (equivariant_linked n s _ Hs HL).
    - destruct HO as [HE HI]. apply (etd5n_commutes W p s Hs HE HI (equivariant_commutes n s _ Hs HL)). exact Hc.
    - apply etd35_linked; [|exact Hc]. apply linked_scal. apply (eigs_ok HL HO).
  Qed.
End Coefficients.

(** ** Sessions *)
(** Equal and related at once. *)
Definition both (R : vec Cops -> vec Cops -> Prop) (a b : vec Cops) : Prop := a = b /\ R a b.
Lemma closed_both R : closed (A := Cops) R -> closed (A := Cops) (both R).
Proof.
  intros H. split; [split; [reflexivity|apply H]| | | | |].
  - intros a b c d [<- H1] [<- H2]. split; [reflexivity|]. apply (cl_add H); assumption.
  - intros a b c d [<- H1] [<- H2]. split; [reflexivity|]. apply (cl_sub H); assumption.
  - intros a b [<- H1]. split; [reflexivity|]. apply (cl_neg H); assumption.
  - intros h a b [<- H1]. split; [reflexivity|]. apply (cl_scal H); assumption.
  - intros h a b [<- H1]. split; [reflexivity|]. apply (cl_div H); assumption.
Qed.
Lemma coeffs_both R ok : coeffs (A := Cops) R ok -> coeffs (A := Cops) (both R) ok.
Proof.
  intros H. split; [|apply (co_scal H)]. intros c a b Hc [<- H1]. split; [reflexivity|]. apply (co_mul H); assumption.
Qed.
Lemma symmetric_iff n s v : symmetric n s v <-> moved n s v v.
Proof. split; intros H i Hi; symmetry; apply H; exact Hi. Qed.

Section Runs.
  Variable W : Type.
  Variable p0 : problem Cops unit.
  Variable nl : vec Cops -> W -> (exn + vec Cops) * W.
  Variable s : symmetry.
  Notation p := (with_nl p0 nl).
  Notation n := (p_size p0).
  Hypothesis Hs : sy_ok n s.
  Hypothesis HS : meq n (mprod n (p_S p0) (p_Sinv p0)) mident.
  Notation okd := (linked (sy_conj s) (perm_rel n s)).
  Notation okm := (commutes n s).
  Notation okz := (linked (sy_conj s) (base_rel n s (p_S p0) (p_Sinv p0))).
  Notation mz := (moved_z n s (p_S p0) (p_Sinv p0)).

  Section Pairs.
    Variables P Q : vec Cops -> vec Cops -> Prop.
    Hypothesis HP : closed (A := Cops) P.
    Hypothesis HQ : closed (A := Cops) Q.
    Hypothesis Hd : coeffs (A := Cops) P okd.
    Hypothesis Hz : coeffs (A := Cops) Q okz.
    Hypothesis Hm : forall c a b, okm c -> P a b -> P (mdot n c a) (mdot n c b).
    Hypothesis H_in : forall a b, P a b -> Q (mdot n (p_Sinv p0) a) (mdot n (p_Sinv p0) b).
    Hypothesis H_out : forall a b, Q a b -> P (mdot n (p_S p0) a) (mdot n (p_S p0) b).
    Hypothesis Hnl : forall a b w w', P a b -> w = w' ->
      match fst (nl a w), fst (nl b w') with inl e, inl e' => e = e' | inr x, inr y => P x y | _, _ => False end /\
      snd (nl a w) = snd (nl b w').

    Lemma cs_pairs k rs rs' w : equivariant n s (cs_lin p k) -> cs_oracles p k -> Forall2 (rel_req P) rs rs' ->
      let '(x, o1, w1) := cs_session rs (cs_new_obj p k) w in
      let '(y, o2, w2) := cs_session rs' (cs_new_obj p k) w in
      Forall2 (rel_ans P) x y /\ c_t o1 = c_t o2 /\ Forall2 P (c_u o1) (c_u o2) /\ w1 = w2.
    Proof.
      intros HL HO Hr.
      apply (@cs_session_relate Rops _ _ _ _ P eq _ _ (@cs_R Rops Cops W W eq p0 nl nl P okd okm k)).
      - apply cs_runs_related; try assumption. exact (cs_coeffs_ok W p s Hs k HL HO).
      - intros s1 w1 s2 w2 L H. apply H.
      - intros s1 w1 s2 w2 L H. apply H.
      - intros s1 w1 s2 w2 L a b (H1 & H2 & H3) Hab. split; [exact H1|]. split; [exact H2|]. apply all_P_cons; assumption.
      - exact Hr.
      - exists []. split; cbn [cs_new_obj c_m c_t c_tf c_tc c_u]; try reflexivity; [|constructor].
        split; [|split; [reflexivity|intros a b []]].
        apply cs_new_related; try assumption; [apply linked_zero|apply commutes_zero].
    Qed.
    Lemma as_pairs k (ks : consts (T Rops)) cfg compute rs rs' w :
      (forall a b e f, P a b -> err_rel P Q k e f -> compute a e = compute b f) ->
      equivariant n s (as_lin p k) -> as_oracles p k -> Forall2 (rel_req P) rs rs' ->
      let '(x, o1, w1) := as_session ks cfg compute rs (as_new_obj p k) w in
      let '(y, o2, w2) := as_session ks cfg compute rs' (as_new_obj p k) w in
      Forall2 (rel_ans P) x y /\ a_t o1 = a_t o2 /\ Forall2 P (a_u o1) (a_u o2) /\ w1 = w2.
    Proof.
      intros Hc HL HO Hr.
      apply (@as_session_relate Rops _ _ _ _ P eq _ _ ks cfg compute compute (@as_R Rops Cops W W eq p0 nl nl P Q okd okm okz k)).
      - apply as_runs_related; try assumption. exact (as_coeffs_ok W p s Hs k HL HO).
      - intros s1 w1 s2 w2 L H. apply H.
      - intros s1 w1 s2 w2 L H. apply H.
      - intros s1 w1 s2 w2 L a b (H1 & H2 & H3) Hab. split; [exact H1|]. split; [exact H2|]. apply all_P_cons; assumption.
      - exact Hr.
      - exists []. split; cbn [as_new_obj a_m a_t a_tf a_tc a_u]; try reflexivity; [|constructor].
        split; [|split; [reflexivity|intros a b []]].
        apply as_new_related; try assumption; [apply linked_zero|apply linked_zero|apply commutes_zero].
    Qed.
  End Pairs.

  Lemma moved_facts :
    closed (A := Cops) (moved n s) /\ closed (A := Cops) mz /\ coeffs (A := Cops) (moved n s) okd /\ coeffs (A := Cops) mz okz /\
    (forall c a b, okm c -> moved n s a b -> moved n s (mdot n c a) (mdot n c b)) /\
    (forall a b, moved n s a b -> mz (mdot n (p_Sinv p0) a) (mdot n (p_Sinv p0) b)) /\
    (forall a b, mz a b -> moved n s (mdot n (p_S p0) a) (mdot n (p_S p0) b)).
  Proof.
    split; [apply closed_moved|]. split; [apply closed_moved_z|]. split; [apply coeffs_moved|]. split; [apply coeffs_moved_z|].
    split; [intros c a b; apply (matrix_moved n s Hs)|]. split; intros a b; [apply (moved_in n s Hs _ _ HS)|apply (moved_out n s _ _ HS)].
  Qed.
End Runs.

(** The error measure does not see the symmetry. *)
Lemma compute_moved cfg q n s u u' e e' : sy_ok n s -> moved n s u u' -> moved n s e e' ->
  compute_s_vec cfg q n u e = compute_s_vec cfg q n u' e'.
Proof.
  intros Hs Hu He. destruct n as [|n]; [reflexivity|].
  assert (A : forall a b : vec Cops, moved (S n) s a b -> forall i, (i < S n)%nat -> Cmod (b i) = Cmod (a (sy_perm s i))).
  { intros a b H i Hi. rewrite (H i Hi). unfold move. rewrite Cmod_mult, cjb_mod. destruct Hs as (_ & _ & HW). rewrite (HW i Hi). ring. }
  destruct (is_max_exists (S n) u ltac:(lia)) as [M HM].
  assert (HM' : is_max (S n) u' M).
  { destruct HM as [(i & Hi & E) HU]. split.
    - destruct (perm_onto (S n) (sy_perm s) (proj1 Hs) (proj1 (proj2 Hs)) i Hi) as (j & Hj & Ej). exists j. split; [exact Hj|].
      rewrite (A u u' Hu j Hj), Ej. exact E.
    - intros j Hj. rewrite (A u u' Hu j Hj). apply HU. apply Hs. exact Hj. }
  rewrite (compute_s_value cfg q (S n) u e M), (compute_s_value cfg q (S n) u' e' M) by (try lia; assumption).
  assert (G : forall x y : vec Cops, moved (S n) s x y -> sig_norm (S n) (adapt_cutoff cfg) M u' y = sig_norm (S n) (adapt_cutoff cfg) M u x).
  { intros x y H. unfold sig_norm. f_equal.
    rewrite <- (rsum_perm (S n) (sy_perm s) (proj1 Hs) (proj1 (proj2 Hs))
                 (fun i => if Rlt_dec (adapt_cutoff cfg * M) (Cmod (u i)) then Cmod (x i) ^ 2 else 0)).
    apply rsum_ext. intros i Hi. rewrite (A u u' Hu i Hi), (A x y H i Hi). reflexivity. }
  rewrite (G u u' Hu), (G e e' He). reflexivity.
Qed.

(** ** C84 *)
Theorem C84_constant_step_runs_commute :
  forall (W : Type) (p : problem Cops W) (k : cs_kind) (s : symmetry) rs rs' (w : W),
    sy_ok (p_size p) s -> equivariant (p_size p) s (cs_lin p k) -> cs_oracles p k -> nl_equivariant (p_size p) s (p_nl p) ->
    Forall2 (rel_req (moved (p_size p) s)) rs rs' ->
    let '(x, o1, w1) := cs_session rs (cs_new_obj p k) w in
    let '(y, o2, w2) := cs_session rs' (cs_new_obj p k) w in
    Forall2 (rel_ans (moved (p_size p) s)) x y /\ c_t o1 = c_t o2 /\ Forall2 (moved (p_size p) s) (c_u o1) (c_u o2) /\ w1 = w2.
Proof.
  intros W [nl sz v m cfg ex iv S Sinv lam] k s rs rs' w Hs HL HO HN Hr. cbn [p_size p_nl] in *.
  apply (cs_pairs W (mk_problem (fun _ u => (inl ValueError, u)) sz v m cfg ex iv S Sinv lam) nl s Hs (moved sz s)); try assumption.
  - apply closed_moved.
  - apply coeffs_moved.
  - intros c a b. apply (matrix_moved sz s Hs).
  - intros a b w1 w2 Hab <-. apply HN. exact Hab.
Qed.

Theorem C84_adaptive_runs_commute :
  forall (W : Type) (p : problem Cops W) (k : as_kind) (s : symmetry) (ks : consts (T Rops)) cfg (q : nat) rs rs' (w : W),
    plain_error k = true ->
    sy_ok (p_size p) s -> equivariant (p_size p) s (as_lin p k) -> as_oracles p k -> nl_equivariant (p_size p) s (p_nl p) ->
    Forall2 (rel_req (moved (p_size p) s)) rs rs' ->
    let compute := compute_s_vec cfg q (p_size p) in
    let '(x, o1, w1) := as_session ks cfg compute rs (as_new_obj p k) w in
    let '(y, o2, w2) := as_session ks cfg compute rs' (as_new_obj p k) w in
    Forall2 (rel_ans (moved (p_size p) s)) x y /\ a_t o1 = a_t o2 /\ Forall2 (moved (p_size p) s) (a_u o1) (a_u o2) /\ w1 = w2.
Proof.
  intros W [nl sz v m cfg0 ex iv S Sinv lam] k s ks cfg q rs rs' w Hk Hs HL HO HN Hr compute. cbn [p_size p_nl] in *.
  set (p' := mk_problem (A := Cops) (fun _ (u : unit) => (inl ValueError, u)) sz v m cfg0 ex iv mident mident lam : problem Cops unit).
  assert (HS : meq sz (mprod sz mident mident) mident) by apply mprod_ident_l.
  destruct (moved_facts p' s Hs HS) as (F1 & F2 & F3 & F4 & F5 & F6 & F7).
  assert (G := fun HC HL' HO' => as_pairs W p' nl s Hs (moved sz s) (moved_z sz s mident mident) F1 F2 F3 F4 F5 F6 F7
                 (fun a b w1 w2 Hab (E : w1 = w2) => match E with eq_refl => HN a b w1 Hab end) k ks cfg compute rs rs' w HC HL' HO' Hr).
  destruct k; try discriminate; apply G; try assumption; intros a b e f Ha He; apply (compute_moved cfg q sz s); assumption.
Qed.

(** Symmetric data stay symmetric: every answer and every stored array. *)
Lemma both_req {H} n s rs : Forall (fun r : request (vec Cops) R H => Forall (symmetric n s) (arrays_of r)) rs ->
  Forall2 (rel_req (both (moved n s))) rs rs.
Proof.
  assert (B : forall u, symmetric n s u -> both (moved n s) u u) by (intros u Hu; split; [reflexivity|apply symmetric_iff; exact Hu]).
  induction 1 as [|r rs Hr _ IH]; constructor; [|exact IH]. destruct r; cbn [arrays_of rel_req] in *; [inversion_clear Hr|inversion_clear Hr|exact I]; auto 10.
Qed.
Lemma both_ans n s (x y : list (answer (vec Cops) R)) : Forall2 (rel_ans (both (moved n s))) x y -> Forall (ans_all (symmetric n s)) x.
Proof.
  induction 1 as [|a b x y Hab _ IH]; constructor; [|exact IH]. destruct a as [[v l]|e|], b as [[v' l']|e'|]; cbn in *; try contradiction; try exact I.
  destruct Hab as [[E' E] _]. subst v'. apply symmetric_iff. exact E.
Qed.
Lemma both_all n s (x y : list (vec Cops)) : Forall2 (both (moved n s)) x y -> Forall (symmetric n s) x.
Proof. induction 1 as [|a b x y [<- E] _ IH]; constructor; [|exact IH]. apply symmetric_iff. exact E. Qed.
Lemma both_nl {W} n s (nl : vec Cops -> W -> (exn + vec Cops) * W) : nl_keeps n s nl ->
  forall a b w w', both (moved n s) a b -> w = w' ->
    match fst (nl a w), fst (nl b w') with inl e, inl e' => e = e' | inr x, inr y => both (moved n s) x y | _, _ => False end /\
    snd (nl a w) = snd (nl b w').
Proof.
  intros HN a b w w' [<- Ha] <-. apply symmetric_iff in Ha. specialize (HN a w Ha). destruct (fst (nl a w)) as [e|x]; [split; reflexivity|].
  split; [|reflexivity]. split; [reflexivity|]. apply symmetric_iff. exact HN.
Qed.

Theorem C84_constant_step_symmetry_kept :
  forall (W : Type) (p : problem Cops W) (k : cs_kind) (s : symmetry) rs (w : W),
    sy_ok (p_size p) s -> equivariant (p_size p) s (cs_lin p k) -> cs_oracles p k -> nl_keeps (p_size p) s (p_nl p) ->
    Forall (fun r => Forall (symmetric (p_size p) s) (arrays_of r)) rs ->
    let '(x, o, w') := cs_session rs (cs_new_obj p k) w in
    Forall (ans_all (symmetric (p_size p) s)) x /\ Forall (symmetric (p_size p) s) (c_u o).
Proof.
  intros W [nl sz v m cfg ex iv S Sinv lam] k s rs w Hs HL HO HN Hr. cbn [p_size p_nl] in *.
  assert (G := cs_pairs W (mk_problem (fun _ u => (inl ValueError, u)) sz v m cfg ex iv S Sinv lam) nl s Hs (both (moved sz s))
    (closed_both _ (closed_moved sz s)) (coeffs_both _ _ (coeffs_moved sz s))).
  cbn [p_size] in G. specialize (G (fun c a b Hc Hab => conj (f_equal (mdot sz c) (proj1 Hab)) (matrix_moved sz s Hs c a b Hc (proj2 Hab))) (both_nl sz s nl HN) k rs rs w HL HO (both_req sz s rs Hr)).
  change (with_nl _ nl) with (mk_problem nl sz v m cfg ex iv S Sinv lam) in G.
  destruct (cs_session rs (cs_new_obj (mk_problem nl sz v m cfg ex iv S Sinv lam) k) w) as [[x o] w']. destruct G as (G1 & _ & G3 & _).
  split; [apply (both_ans _ _ _ _ G1)|apply (both_all _ _ _ _ G3)].
Qed.

(** All ten adaptive strategies, with any error measure. *)
Theorem C84_adaptive_symmetry_kept :
  forall (W : Type) (p : problem Cops W) (k : as_kind) (s : symmetry) (ks : consts (T Rops)) cfg compute rs (w : W),
    sy_ok (p_size p) s -> equivariant (p_size p) s (as_lin p k) -> as_oracles p k -> nl_keeps (p_size p) s (p_nl p) ->
    Forall (fun r => Forall (symmetric (p_size p) s) (arrays_of r)) rs ->
    let '(x, o, w') := as_session ks cfg compute rs (as_new_obj p k) w in
    Forall (ans_all (symmetric (p_size p) s)) x /\ Forall (symmetric (p_size p) s) (a_u o).
Proof.
  intros W [nl sz v m cfg0 ex iv S Sinv lam] k s ks cfg compute rs w Hs HL HO HN Hr. cbn [p_size p_nl] in *.
  set (p := mk_problem nl sz v m cfg0 ex iv S Sinv lam) in *.
  assert (G : forall S' Sinv', let p' := mk_problem (A := Cops) nl sz v m cfg0 ex iv S' Sinv' lam in
    meq sz (mprod sz S' Sinv') mident -> equivariant sz s (as_lin p' k) -> as_oracles p' k ->
    let '(x, o, w') := as_session ks cfg compute rs (as_new_obj p' k) w in Forall (ans_all (symmetric sz s)) x /\ Forall (symmetric sz s) (a_u o)).
  { intros S' Sinv' p' HS HL' HO'.
    set (q := mk_problem (A := Cops) (fun _ (u : unit) => (inl ValueError, u)) sz v m cfg0 ex iv S' Sinv' lam : problem Cops unit).
    destruct (moved_facts q s Hs HS) as (F1 & F2 & F3 & F4 & F5 & F6 & F7).
    assert (X : let '(x, o1, w1) := as_session ks cfg compute rs (as_new_obj p' k) w in
                let '(y, o2, w2) := as_session ks cfg compute rs (as_new_obj p' k) w in
                Forall2 (rel_ans (both (moved sz s))) x y /\ a_t o1 = a_t o2 /\ Forall2 (both (moved sz s)) (a_u o1) (a_u o2) /\ w1 = w2).
    { apply (as_pairs W q nl s Hs (both (moved sz s)) (both (moved_z sz s S' Sinv')) (closed_both _ F1) (closed_both _ F2) (coeffs_both _ _ F3) (coeffs_both _ _ F4)).
      - intros c a b Hc [<- H]. split; [reflexivity|apply F5; assumption].
      - intros a b [<- H]. split; [reflexivity|apply F6; assumption].
      - intros a b [<- H]. split; [reflexivity|apply F7; assumption].
      - apply both_nl. exact HN.
      - intros a b e f [<- _] He. assert (e = f) as <-; [|reflexivity]. destruct k; exact (proj1 He).
      - exact HL'.
      - exact HO'.
      - apply both_req. exact Hr. }
    destruct (as_session ks cfg compute rs (as_new_obj p' k) w) as [[x o] w']. destruct X as (G1 & _ & G3 & _).
    split; [apply (both_ans _ _ _ _ G1)|apply (both_all _ _ _ _ G3)]. }
  destruct k; try exact (G mident mident (mprod_ident_l sz mident) HL HO); exact (G S Sinv (proj1 (proj1 HO)) HL HO).
Qed.

(** ** Real data *)
Definition real_array (n : nat) (v : vec Cops) : Prop := forall i, (i < n)%nat -> snd (v i) = 0.
Definition conjugation : symmetry := mk_symmetry (fun i => i) true (fun _ => RtoC 1).
Lemma conjugation_ok n : sy_ok n conjugation.
Proof. split; [auto|]. split; [auto|]. intros i _. apply Cmod_1. Qed.
Lemma real_symmetric n v : real_array n v <-> symmetric n conjugation v.
Proof.
  split; intros H i Hi; specialize (H i Hi).
  - unfold move, conjugation. cbn [sy_wt sy_conj sy_perm cjb]. rewrite (proj1 (Creal (v i)) H). ceq. ring.
  - apply Creal. unfold move, conjugation in H. cbn [sy_wt sy_conj sy_perm cjb] in H. rewrite <- H at 2. ceq. ring.
Qed.
Lemma real_diag n (L : cvec) : (forall v, real_array n v -> real_array n (fun i => (L i * v i)%C)) -> equivariant n conjugation (fun v i => (L i * v i)%C).
Proof.
  intros H v i Hi. unfold move, conjugation. cbn [sy_wt sy_conj sy_perm cjb]. rewrite Cmult_conj.
  assert (E : Cconj (L i) = L i). { apply Creal. specialize (H ones ltac:(intros j _; reflexivity) i Hi). unfold ones in H. cbn in H. cbn. lra. }
  rewrite E. ring.
Qed.
Lemma real_matrix n (m : cmat) : (forall v, real_array n v -> real_array n (mdot n m v)) -> equivariant n conjugation (mdot n m).
Proof.
  intros H v i Hi. unfold move, conjugation. cbn [sy_wt sy_conj sy_perm cjb]. unfold mdot. rewrite csum_conj, Cmult_1_l. apply csum_ext. intros j Hj.
  assert (E : Cconj (m i j) = m i j).
  { apply Creal. specialize (H (fun l => if Nat.eqb l j then RtoC 1 else RtoC 0)).
    assert (R0 : real_array n (fun l => if Nat.eqb l j then RtoC 1 else RtoC 0)) by (intros l _; cbn beta; destruct (Nat.eqb l j); reflexivity).
    specialize (H R0 i Hi). unfold mdot in H. rewrite (csum_single n j) in H; [|exact Hj|].
    - rewrite Nat.eqb_refl, Cmult_1_r in H. exact H.
    - intros l Hl N. destruct (Nat.eqb_spec l j); [contradiction|]. apply Cmult_0_r. }
  rewrite Cmult_conj, E. ring.
Qed.
Definition keeps_real {W} (n : nat) (nl : vec Cops -> W -> (exn + vec Cops) * W) : Prop :=
  forall a w, real_array n a -> match fst (nl a w) with inl _ => True | inr x => real_array n x end.
Lemma keeps_real_keeps {W} n (nl : vec Cops -> W -> (exn + vec Cops) * W) : keeps_real n nl -> nl_keeps n conjugation nl.
Proof. intros H a w Ha. specialize (H a w (proj2 (real_symmetric n a) Ha)). destruct (fst (nl a w)); [exact I|]. apply real_symmetric. exact H. Qed.
Lemma real_all n l : Forall (real_array n) l -> Forall (symmetric n conjugation) l.
Proof. intros H. eapply Forall_impl; [|exact H]. intros v. apply real_symmetric. Qed.
Lemma all_real n l : Forall (symmetric n conjugation) l -> Forall (real_array n) l.
Proof. intros H. eapply Forall_impl; [|exact H]. intros v. apply real_symmetric. Qed.
Lemma real_reqs {B H0} n (rs : list (request (vec Cops) B H0)) : Forall (fun r => Forall (real_array n) (arrays_of r)) rs -> Forall (fun r => Forall (symmetric n conjugation) (arrays_of r)) rs.
Proof. intros H. eapply Forall_impl; [|exact H]. intros r. apply real_all. Qed.
Lemma ans_real {B} n (x : list (answer (vec Cops) B)) : Forall (ans_all (symmetric n conjugation)) x -> Forall (ans_all (real_array n)) x.
Proof. intros H. eapply Forall_impl; [|exact H]. intros a. unfold ans_all. repeat match goal with |- match ?y with _ => _ end -> _ => destruct y end; auto. apply real_symmetric. Qed.

(** Real operator, real nonlinear function, real arguments: every array handed out or stored is real, for all strategies. The
    contours and, for the diagonalizing strategies, the eigenvectors are complex. *)
Theorem C84_constant_step_real_data :
  forall (W : Type) (p : problem Cops W) (k : cs_kind) rs (w : W),
    (forall v, real_array (p_size p) v -> real_array (p_size p) (cs_lin p k v)) -> cs_oracles p k -> keeps_real (p_size p) (p_nl p) ->
    Forall (fun r => Forall (real_array (p_size p)) (arrays_of r)) rs ->
    let '(x, o, w') := cs_session rs (cs_new_obj p k) w in
    Forall (ans_all (real_array (p_size p))) x /\ Forall (real_array (p_size p)) (c_u o).
Proof.
  intros W p k rs w HL HO HN Hr.
  assert (HE : equivariant (p_size p) conjugation (cs_lin p k)) by (destruct k; cbn [cs_lin] in *; [apply real_diag|apply real_matrix|apply real_diag|apply real_matrix|apply real_diag|apply real_matrix]; exact HL).
  assert (G := C84_constant_step_symmetry_kept W p k conjugation rs w (conjugation_ok _) HE HO (keeps_real_keeps _ _ HN) (real_reqs _ _ Hr)).
  destruct (cs_session rs (cs_new_obj p k) w) as [[x o] w']. destruct G as [G1 G2]. split; [apply ans_real; exact G1|apply all_real; exact G2].
Qed.
Theorem C84_adaptive_real_data :
  forall (W : Type) (p : problem Cops W) (k : as_kind) (ks : consts (T Rops)) cfg compute rs (w : W),
    (forall v, real_array (p_size p) v -> real_array (p_size p) (as_lin p k v)) -> as_oracles p k -> keeps_real (p_size p) (p_nl p) ->
    Forall (fun r => Forall (real_array (p_size p)) (arrays_of r)) rs ->
    let '(x, o, w') := as_session ks cfg compute rs (as_new_obj p k) w in
    Forall (ans_all (real_array (p_size p))) x /\ Forall (real_array (p_size p)) (a_u o).
Proof.
  intros W p k ks cfg compute rs w HL HO HN Hr.
  assert (HE : equivariant (p_size p) conjugation (as_lin p k)) by (destruct k; cbn [as_lin] in *; first [apply real_diag; exact HL|apply real_matrix; exact HL]).
  assert (G := C84_adaptive_symmetry_kept W p k conjugation ks cfg compute rs w (conjugation_ok _) HE HO (keeps_real_keeps _ _ HN) (real_reqs _ _ Hr)).
  destruct (as_session ks cfg compute rs (as_new_obj p k) w) as [[x o] w']. destruct G as [G1 G2]. split; [apply ans_real; exact G1|apply all_real; exact G2].
Qed.

Print Assumptions C84_constant_step_runs_commute.
Print Assumptions C84_adaptive_runs_commute.
Print Assumptions C84_constant_step_symmetry_kept.
Print Assumptions C84_adaptive_symmetry_kept.
Print Assumptions C84_constant_step_real_data.
Print Assumptions C84_adaptive_real_data.
