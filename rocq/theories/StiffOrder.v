(** * Order three, uniformly in the stiffness

    Exponential Runge-Kutta methods that satisfy the stiff order conditions up to order three (Hochbruck and Ostermann,
    SIAM J. Numer. Anal. 43, 2005) converge with order three, with constants that do not depend on the linear operator. *)

From Coq Require Import List Bool Reals Lra Lia FunctionalExtensionality Setoid Morphisms.
From Coquelicot Require Import Hierarchy Derive Complex.
From Verif Require Import CInst SpecRK SpecERK SchemeIFReal SpecPhi SpecPoly ContourReal ContourMatrix Asym Solution Stable Converge Voc Stiff.
Import ListNotations.
Local Open Scope R_scope.

(** No growing mode. *)
Definition dissipative (n : nat) (L : cvec) : Prop := forall i, (i < n)%nat -> fst (L i) <= 0.

(** ** Spec: solutions whose nonlinear part is smooth
    Only the nonlinear part [f t = N (u t)] along the solution has bounded derivatives; the solution itself may have steep
    layers and fast oscillations, of any steepness and frequency. *)
Record stiff_solution (n : nat) (L : cvec) (N : cvec -> cvec) (t0 t1 rho K : R)
       (u f f1 f2 : R -> cvec) (J : R -> cvec -> cvec) : Prop := {
  ss_time : t0 < t1;
  ss_rho : 0 < rho;
  ss_K : 0 <= K;
  ss_N : respects (below n) N;
  ss_L : dissipative n L;
  ss_eq : forall t i, t0 <= t <= t1 -> (i < n)%nat -> is_Cder (fun s => u s i) t (L i * u t i + f t i)%C;
  ss_f : forall t, t0 <= t <= t1 -> veq (below n) (f t) (N (u t));
  ss_d1 : forall t i, t0 <= t <= t1 -> (i < n)%nat -> is_Cder (fun s => f s i) t (f1 t i);
  ss_d2 : forall t i, t0 <= t <= t1 -> (i < n)%nat -> is_Cder (fun s => f1 s i) t (f2 t i);
  ss_b0 : forall t, t0 <= t <= t1 -> vle n (f t) K;
  ss_b1 : forall t, t0 <= t <= t1 -> vle n (f1 t) K;
  ss_b2 : forall t, t0 <= t <= t1 -> vle n (f2 t) K;
  ss_d3 : forall s t, t0 <= s <= t1 -> t0 <= t <= t1 -> vle n (csub (f2 s) (f2 t)) (K * Rabs (s - t));
  ss_lip : forall t v w x, t0 <= t <= t1 -> 0 <= x -> vle n (csub v (u t)) rho -> vle n (csub w (u t)) rho ->
           vle n (csub v w) x -> vle n (csub (N v) (N w)) (K * x);
  ss_Jlin : forall t, t0 <= t <= t1 -> rlinear n (J t);
  ss_Jbnd : forall t, t0 <= t <= t1 -> opn n (J t) K;
  ss_Jquad : forall t v x, t0 <= t <= t1 -> 0 <= x <= rho -> vle n (csub v (u t)) x ->
             vle n (csub (csub (N v) (N (u t))) (J t (csub v (u t)))) (K * x ^ 2);
  ss_Jtime : forall s t, t0 <= s <= t1 -> t0 <= t <= t1 -> opn n (fun v => csub (J s v) (J t v)) (K * Rabs (s - t)) }.

(** ** Variation of constants, as a bound *)
Lemma duhamel (lam : C) (g y : R -> C) B s : fst lam <= 0 -> 0 <= s -> y 0 = RtoC 0 ->
  (forall r, 0 <= r <= s -> is_Cder y r (lam * y r + g r)%C) -> (forall r, 0 <= r <= s -> Cmod (g r) <= B) ->
  Cmod (y s) <= 2 * B * s.
Proof.
  intros Hl Hs Hy Hd Hg.
  set (F := fun k r => match k with O => (Cexp (RtoC s * lam + RtoC r * (- lam)) * y r)%C | _ => (Cexp (RtoC s * lam + RtoC r * (- lam)) * g r)%C end).
  assert (G := taylor_cplx B s 1 F). 
  assert (G1 : forall k t, (k < 1)%nat -> 0 <= t <= s -> is_Cder (F k) t (F (S k) t)).
  { intros k t Hk Ht. assert (k = O) by lia. subst k. unfold F.
    eapply is_Cder_eq; [reflexivity| |apply is_Cder_mult; [apply is_Cder_exp|apply Hd; exact Ht]]. cbn beta. ring. }
  assert (G2 : forall t, 0 <= t <= s -> Cmod (F 1%nat t) <= B).
  { intros t Ht. unfold F. rewrite Cmod_mult. apply Rle_trans with (1 * Cmod (g t)); [|rewrite Rmult_1_l; apply Hg; exact Ht].
    apply Rmult_le_compat_r; [apply Cmod_ge_0|]. apply exp_left.
    replace (RtoC s * lam + RtoC t * - lam)%C with (RtoC (s - t) * lam)%C by (rewrite RtoC_minus; ring). rewrite Re_scal.
    assert (0 <= (s - t) * - fst lam) by (apply Rmult_le_pos; lra). lra. }
  specialize (G G1 G2 s ltac:(lra)). unfold ctay in G. cbn [csum pow] in G. rewrite Rmult_1_r in G.
  assert (E0 : F O 0 = RtoC 0) by (unfold F; rewrite Hy; ring).
  assert (Es : F O s = y s).
  { unfold F. replace (RtoC s * lam + RtoC s * - lam)%C with (RtoC 0) by ring. rewrite Cexp_0. ring. }
  rewrite E0, Es in G. eapply Rle_trans; [|exact G]. right. f_equal. cbn. ring.
Qed.

(** Derivatives are bounded by differences. *)
Lemma taylor_gap (F : nat -> R -> C) m B s : 0 <= s ->
  (forall k t, (k < m)%nat -> 0 <= t <= s -> is_Cder (F k) t (F (S k) t)) ->
  (forall t, 0 <= t <= s -> Cmod (F m t - F m 0)%C <= B) ->
  Cmod (F O s - csum (S m) (fun k => RtoC (s ^ k / INR (fact k)) * F k 0))%C <= 2 * B * s ^ m.
Proof.
  intros Hs Hd Hb.
  set (G := fun k t => (F k t - RtoC (t ^ (m - k) / INR (fact (m - k))) * F m 0)%C).
  assert (HG := taylor_cplx B s m G).
  assert (A1 : forall k t, (k < m)%nat -> 0 <= t <= s -> is_Cder (G k) t (G (S k) t)).
  { intros k t Hk Ht. unfold G. apply is_Cder_minus; [apply Hd; assumption|].
    replace (m - k)%nat with (S (m - S k)) by lia.
    eapply is_Cder_eq; [reflexivity| |apply is_Cder_mult; [apply is_Cder_R; apply pow_der|apply is_Cder_const]]. cbn beta. ring. }
  assert (A2 : forall t, 0 <= t <= s -> Cmod (G m t) <= B).
  { intros t Ht. unfold G. rewrite Nat.sub_diag. cbn [pow fact INR]. replace (RtoC (1 / 1) * F m 0)%C with (F m 0) by (replace (1/1) with 1 by field; ring).
    apply Hb. exact Ht. }
  specialize (HG A1 A2 s ltac:(lra)). eapply Rle_trans; [|exact HG]. right. f_equal. unfold ctay.
  unfold G at 1. rewrite Nat.sub_0_r.
  replace (csum m (fun k => RtoC (s ^ k / INR (fact k)) * G k 0)%C) with (csum m (fun k => RtoC (s ^ k / INR (fact k)) * F k 0)%C).
  - cbn [csum]. ring.
  - apply csum_ext. intros k Hk. unfold G. replace (m - k)%nat with (S (m - S k)) by lia. cbn [pow]. rewrite Rmult_0_l. unfold Rdiv. rewrite Rmult_0_l. ring.
Qed.

Section Defects.
  Variables (n : nat) (L : cvec) (N : cvec -> cvec) (t0 t1 rho K : R) (u f f1 f2 : R -> cvec) (J : R -> cvec -> cvec).
  Hypothesis HS : stiff_solution n L N t0 t1 rho K u f f1 f2 J.

  Section At.
    Variables t s : R.
    Hypothesis Ht : t0 <= t.
    Hypothesis Hs : 0 <= s.
    Hypothesis Hts : t + s <= t1.
    Let ff (i : nat) (k : nat) (r : R) : C := match k with O => f (t + r) i | 1%nat => f1 (t + r) i | _ => f2 (t + r) i end.
    Lemma ff_der i k r : (i < n)%nat -> (k < 2)%nat -> 0 <= r <= s -> is_Cder (ff i k) r (ff i (S k) r).
    Proof.
      intros Hi Hk Hr. destruct k as [|[|k]]; [| |lia]; unfold ff.
      - apply (is_Cder_shift (fun s => f s i)). apply (ss_d1 _ _ _ _ _ _ _ _ _ _ _ _ HS); [lra|exact Hi].
      - apply (is_Cder_shift (fun s => f1 s i)). apply (ss_d2 _ _ _ _ _ _ _ _ _ _ _ _ HS); [lra|exact Hi].
    Qed.
    Lemma f_gap1 i : (i < n)%nat -> Cmod (f (t + s) i - f t i)%C <= 2 * K * s.
    Proof.
      intros Hi. assert (G := taylor_cplx K s 1 (ff i)).
      specialize (G ltac:(intros k r Hk Hr; apply ff_der; [exact Hi|lia|exact Hr])).
      specialize (G ltac:(intros r Hr; apply (ss_b1 _ _ _ _ _ _ _ _ _ _ _ _ HS); [lra|exact Hi]) s ltac:(lra)).
      unfold ctay in G. cbn [csum pow fact INR ff] in G. rewrite Rplus_0_r, Rmult_1_r in G. eapply Rle_trans; [|exact G]. right. f_equal.
      replace (1 / 1) with 1 by field. ring.
    Qed.
    Lemma f1_gap i : (i < n)%nat -> Cmod (f1 (t + s) i - f1 t i)%C <= 2 * K * s.
    Proof.
      intros Hi. assert (G := taylor_cplx K s 1 (fun k => ff i (S k))).
      specialize (G ltac:(intros k r Hk Hr; apply ff_der; [exact Hi|lia|exact Hr])).
      specialize (G ltac:(intros r Hr; apply (ss_b2 _ _ _ _ _ _ _ _ _ _ _ _ HS); [lra|exact Hi]) s ltac:(lra)).
      unfold ctay in G. cbn [csum pow fact INR ff] in G. rewrite Rplus_0_r, Rmult_1_r in G. eapply Rle_trans; [|exact G]. right. f_equal.
      replace (1 / 1) with 1 by field. ring.
    Qed.
    Lemma f_gap2 i : (i < n)%nat -> Cmod (f (t + s) i - f t i - RtoC s * f1 t i)%C <= 2 * K * s ^ 2.
    Proof.
      intros Hi. assert (G := taylor_cplx K s 2 (ff i)).
      specialize (G ltac:(intros k r Hk Hr; apply ff_der; [exact Hi|lia|exact Hr])).
      specialize (G ltac:(intros r Hr; apply (ss_b2 _ _ _ _ _ _ _ _ _ _ _ _ HS); [lra|exact Hi]) s ltac:(lra)).
      unfold ctay in G. cbn [csum pow fact INR ff Nat.mul Nat.add] in G. rewrite !Rplus_0_r in G. eapply Rle_trans; [|right; reflexivity].
      cbn [pow]. eapply Rle_trans; [|exact G]. right. f_equal.
      replace (1 / 1) with 1 by field. replace (s * 1 / 1) with s by field. ring.
    Qed.
    Lemma f_gap3 i : (i < n)%nat -> Cmod (f (t + s) i - f t i - RtoC s * f1 t i - RtoC (s ^ 2 / 2) * f2 t i)%C <= 2 * K * s ^ 3.
    Proof.
      intros Hi. assert (G := taylor_gap (ff i) 2 (K * s) s Hs).
      specialize (G ltac:(intros k r Hk Hr; apply ff_der; [exact Hi|lia|exact Hr])).
      assert (G2 : forall r, 0 <= r <= s -> Cmod (ff i 2 r - ff i 2 0)%C <= K * s).
      { intros r Hr. unfold ff. rewrite Rplus_0_r. assert (X := ss_d3 _ _ _ _ _ _ _ _ _ _ _ _ HS (t + r) t ltac:(lra) ltac:(lra) i Hi).
        eapply Rle_trans; [exact X|]. replace (t + r - t) with r by ring. rewrite Rabs_pos_eq by lra.
        apply Rmult_le_compat_l; [apply (ss_K _ _ _ _ _ _ _ _ _ _ _ _ HS)|lra]. }
      specialize (G G2). cbn [csum pow fact INR ff Nat.mul Nat.add] in G. rewrite !Rplus_0_r in G.
      replace (2 * K * s ^ 3) with (2 * (K * s) * (s * (s * 1))) by ring. eapply Rle_trans; [|exact G]. right. f_equal.
      replace (1 / 1) with 1 by field. replace (s * 1 / 1) with s by field. replace (s * (s * 1) / (1 + 1)) with (s ^ 2 / 2) by (cbn [pow]; field). ring.
    Qed.
  End At.

  (** The defects of the solution in the exponential Taylor expansions. *)
  Definition etay (k : nat) (t s : R) (i : nat) : C :=
    (Cexp (RtoC s * L i) * u t i + RtoC s * phi 1 (RtoC s * L i) * f t i
     + (if Nat.leb 2 k then RtoC (s ^ 2) * phi 2 (RtoC s * L i) * f1 t i else 0)
     + (if Nat.leb 3 k then RtoC (s ^ 3) * phi 3 (RtoC s * L i) * f2 t i else 0))%C.
  Lemma etay_defect k t s i : (k = 2 \/ k = 3)%nat -> t0 <= t -> 0 <= s -> t + s <= t1 -> (i < n)%nat ->
    Cmod (u (t + s) i - etay k t s i)%C <= 4 * K * s ^ S k.
  Proof.
    intros Hk Ht Hs Hts Hi. set (lam := L i).
    assert (H0 := ss_K _ _ _ _ _ _ _ _ _ _ _ _ HS).
    assert (H1 := ss_L _ _ _ _ _ _ _ _ _ _ _ _ HS i Hi : fst lam <= 0).
    set (y := fun r => (u (t + r) i - etay k t r i)%C).
    set (g := fun r => (f (t + r) i - f t i - RtoC r * f1 t i - (if Nat.leb 3 k then RtoC (r ^ 2 / 2) * f2 t i else 0))%C).
    assert (D := duhamel lam g y (2 * K * s ^ k) s H1 Hs).
    replace (4 * K * s ^ S k) with (2 * (2 * K * s ^ k) * s) by (cbn [pow]; ring). apply D.
    - unfold y, etay. fold lam. rewrite Rplus_0_r. replace (RtoC 0 * lam)%C with (RtoC 0) by ring. rewrite Cexp_0. cbn [pow]. rewrite !Rmult_0_l.
      destruct (Nat.leb 2 k), (Nat.leb 3 k); ring.
    - intros r Hr. unfold y, etay. fold lam.
      assert (Q1 := qk_der lam 0 r). assert (Q2 := qk_der lam 1 r). assert (Q3 := qk_der lam 2 r).
      assert (U := is_Cder_shift (fun s => u s i) t r _ (ss_eq _ _ _ _ _ _ _ _ _ _ _ _ HS (t + r) i ltac:(lra) Hi)). fold lam in U.
      assert (X := is_Cder_exp (RtoC 0) lam r).
      assert (X' := is_Cder_mult _ _ _ _ _ X (is_Cder_const (u t i) r)).
      assert (Q1' := is_Cder_mult _ _ _ _ _ Q1 (is_Cder_const (f t i) r)).
      assert (Q2' := is_Cder_mult _ _ _ _ _ Q2 (is_Cder_const (f1 t i) r)).
      assert (Q3' := is_Cder_mult _ _ _ _ _ Q3 (is_Cder_const (f2 t i) r)).
      assert (F0 : r ^ 0 / INR (fact 0) = 1) by (cbn; field). assert (F1 : r ^ 1 / INR (fact 1) = r) by (cbn; field).
      assert (F2 : r ^ 2 / INR (fact 2) = r ^ 2 / 2) by (cbn; field). rewrite F0 in Q1'. rewrite F1 in Q2'. rewrite F2 in Q3'.
      destruct Hk as [-> | ->]; cbn [Nat.leb].
      + eapply is_Cder_eq; [| |apply is_Cder_minus; [exact U|apply is_Cder_plus; [apply is_Cder_plus; [exact X'|exact Q1']|exact Q2']]]; cbn beta.
        * intros q. rewrite Cplus_0_l. cbn [pow]. rewrite !Rmult_1_r. ring.
        * unfold g. cbn [Nat.leb]. rewrite !Cplus_0_l. cbn [pow]. rewrite !Rmult_1_r. ring.
      + eapply is_Cder_eq; [| |apply is_Cder_minus; [exact U|apply is_Cder_plus; [apply is_Cder_plus; [apply is_Cder_plus; [exact X'|exact Q1']|exact Q2']|exact Q3']]]; cbn beta.
        * intros q. rewrite Cplus_0_l. cbn [pow]. rewrite !Rmult_1_r. ring.
        * unfold g. cbn [Nat.leb]. rewrite !Cplus_0_l. cbn [pow]. rewrite !Rmult_1_r. ring.
    - intros r Hr. unfold g.
      assert (P : r ^ k <= s ^ k) by (apply pow_incr; lra).
      apply Rle_trans with (2 * K * r ^ k); [|apply Rmult_le_compat_l; [lra|exact P]].
      destruct Hk as [-> | ->]; cbn [Nat.leb].
      + replace (f (t + r) i - f t i - RtoC r * f1 t i - 0)%C with (f (t + r) i - f t i - RtoC r * f1 t i)%C by ring. apply f_gap2; try assumption; lra.
      + apply f_gap3; try assumption; lra.
  Qed.
End Defects.

(** ** Spec: the stiff order conditions up to order three, satisfied up to [e] *)
Definition rsum (bs : list R) : R := fold_right Rplus 0 bs.
Section Conditions.
  Variables (n : nat) (h : R) (L : cvec).
  Definition pop (r : nat) (c : R) : op := dfun h L (fun z => phi r (RtoC c * z))%C.
  (** [o] maps vectors of size [x] to vectors of size [e x]. *)
  Definition smallop (e : R) (o : cvec -> cvec) : Prop := forall v x, 0 <= x -> vle n v x -> vle n (o v) (e * x).
  (** Row sums: [sum_j a_ij = c_i phi_1(c_i h L)]. *)
  Fixpoint rows_ok (e : R) (prev cs : list R) (rows : list (list op)) : Prop :=
    match cs, rows with
    | c :: cs, row :: rows =>
        smallop e (fun v => csub (ocomb row (map (fun _ => v) prev)) (rscal c (pop 1 c v))) /\ rows_ok e (prev ++ [c]) cs rows
    | [], [] => True
    | _, _ => False
    end.
  (** Second-order defects of the stages: [c_i^2 phi_2(c_i h L) - sum_j a_ij c_j]. *)
  Definition defect (prev : list R) (c : R) (row : list op) (v : cvec) : cvec :=
    csub (rscal (c ^ 2) (pop 2 c v)) (ocomb row (map (fun d => rscal d v) prev)).
  Fixpoint defects (prev cs : list R) (rows : list (list op)) (v : cvec) : list cvec :=
    match cs, rows with
    | c :: cs, row :: rows => defect prev c row v :: defects (prev ++ [c]) cs rows v
    | _, _ => []
    end.
  Record stiff_three (A e : R) (cs : list R) (m : erk) : Prop := {
    st_c : Forall (fun c => 0 <= c <= 1) cs;
    st_bd : exists rows bs, bounded n rows bs m /\ Forall (fun row => rsum row <= A) rows /\ rsum bs <= A;
    st_E : Forall2 (fun c E => forall v, veq (below n) (E v) (dfun h L (fun z => Cexp (RtoC c * z))%C v)) cs (er_E m);
    st_E1 : forall v, veq (below n) (er_E1 m v) (dfun h L Cexp v);
    st_rows : rows_ok e [] cs (er_a m);
    st_b1 : smallop e (fun v => csub (ocomb (er_b m) (map (fun _ => v) cs)) (pop 1 1 v));
    st_b2 : smallop e (fun v => csub (ocomb (er_b m) (map (fun c => rscal c v) cs)) (pop 2 1 v));
    st_b3 : smallop e (fun v => csub (ocomb (er_b m) (map (fun c => rscal (c ^ 2 / 2) v) cs)) (pop 3 1 v));
    st_J : forall (Jt : cvec -> cvec) k, rlinear n Jt -> opn n Jt k -> 0 <= k ->
           smallop (A * k * e) (fun v => ocomb (er_b m) (map Jt (defects [] cs (er_a m) v))) }.
End Conditions.

(** ** Combinations *)
Lemma rsum_pos l : Forall (fun b => 0 <= b) l -> 0 <= rsum l.
Proof. unfold rsum. induction 1; cbn [fold_right]; lra. Qed.
Lemma ocomb_near n (bs : list R) os (X : Type) (g : X -> cvec) (k : X -> cvec) (l : list X) y : Forall2 (bop n) bs os -> 0 <= y ->
  Forall (fun x => vle n (csub (g x) (k x)) y) l -> vle n (csub (ocomb os (map g l)) (ocomb os (map k l))) (rsum bs * y).
Proof.
  intros Ho Hy. revert l. induction Ho as [|b o bs os Hb Ho IH]; intros l Hl.
  - cbn. rewrite Rmult_0_l. apply vle_eq_0. reflexivity.
  - destruct Hl as [|x l Hx Hl].
    + cbn. apply (vle_mono n _ 0); [apply vle_eq_0; reflexivity|].
      assert (P : Forall (fun b => 0 <= b) (b :: bs)) by (constructor; [apply Hb|exact (bops_nonneg n bs os Ho)]).
      apply Rmult_le_pos; [|exact Hy]. exact (rsum_pos (b :: bs) P).
    + cbn [map ocomb rsum fold_right]. fold (rsum bs).
      apply (vle_ext n (cadd (csub (o (g x)) (o (k x))) (csub (ocomb os (map g l)) (ocomb os (map k l))))); [intros i _; unfold cadd, csub; ring|].
      rewrite Rmult_plus_distr_r. apply vle_add; [apply bop_diff; assumption|apply IH; exact Hl].
Qed.
Lemma rsum_nonneg n bs os : Forall2 (bop n) bs os -> 0 <= rsum bs.
Proof. intros H. apply bops_nonneg in H. unfold rsum. induction H; cbn [fold_right]; lra. Qed.
Lemma ocomb_add n bs os (X : Type) (g k : X -> cvec) l : Forall2 (bop n) bs os ->
  veq (below n) (ocomb os (map (fun x => cadd (g x) (k x)) l)) (cadd (ocomb os (map g l)) (ocomb os (map k l))).
Proof.
  intros Ho. revert l. induction Ho as [|b o bs os Hb Ho IH]; intros l; [intros i _; cbn; unfold cadd; ring|].
  destruct l as [|x l]; [intros i _; cbn; unfold cadd; ring|]. cbn [map ocomb]. intros i Hi. specialize (IH l i Hi). unfold cadd in *.
  rewrite IH. assert (R := rl_add _ _ (proj1 Hb) (g x) (k x) i Hi). unfold cadd in R. rewrite R. ring.
Qed.
Lemma ocomb_rscal n bs os (X : Type) (g : X -> cvec) c l : Forall2 (bop n) bs os ->
  veq (below n) (ocomb os (map (fun x => rscal c (g x)) l)) (rscal c (ocomb os (map g l))).
Proof.
  intros Ho. revert l. induction Ho as [|b o bs os Hb Ho IH]; intros l; [intros i _; cbn; unfold cscal; ring|].
  destruct l as [|x l]; [intros i _; cbn; unfold cscal; ring|]. cbn [map ocomb]. intros i Hi. specialize (IH l i Hi). unfold cadd, cscal in *.
  rewrite IH. assert (R := rl_scal _ _ (proj1 Hb) c (g x) i Hi). unfold cscal in R. rewrite R. ring.
Qed.
Lemma ocomb_mono n bs os (X : Type) (g k : X -> cvec) l : Forall2 (bop n) bs os -> Forall (fun x => veq (below n) (g x) (k x)) l ->
  veq (below n) (ocomb os (map g l)) (ocomb os (map k l)).
Proof.
  intros Ho Hl. apply vle_0_eq. apply (vle_mono n _ (rsum bs * 0)); [|lra]. apply ocomb_near; [exact Ho|lra|].
  eapply Forall_impl; [|exact Hl]. intros x Hx. apply vle_eq_0. exact Hx.
Qed.

(** ** Local error *)
Section Local.
  Variables (n : nat) (L : cvec) (N : cvec -> cvec) (t0 t1 rho K : R) (u f f1 f2 : R -> cvec) (J : R -> cvec -> cvec).
  Hypothesis HS : stiff_solution n L N t0 t1 rho K u f f1 f2 J.
  Variables (A e h t d : R) (v : cvec) (cs0 : list R) (m : erk).
  Hypothesis Hm : stiff_three n h L A e cs0 m.
  Hypothesis HA : 0 <= A.
  Hypothesis He : 0 <= e.
  Hypothesis Hh : 0 <= h.
  Hypothesis Ht : t0 <= t.
  Hypothesis Hth : t + h <= t1.
  Hypothesis Hd : 0 <= d.
  Hypothesis Hv : vle n (csub v (u t)) d.
  Let HK : 0 <= K := ss_K _ _ _ _ _ _ _ _ _ _ _ _ HS.
  (** Bounds on the errors of the stages. *)
  Variables X Y : R.
  Hypothesis HY : d + h * A * K * X + h * e * K + (2 * A + 4) * K * h ^ 3 <= Y.
  Hypothesis HX : Y + (1 + A) * K * h ^ 2 <= X.
  Hypothesis HXr : 0 <= X <= rho.
  Definition ZZ : R := K * Y + K * h * X + K * X ^ 2.
  Notation Jt := (J t).
  Record item := mk_item { it_c : R; it_n : cvec; it_w : cvec }.
  Definition good_item (x : item) : Prop :=
    0 <= it_c x <= 1 /\ vle n (csub (it_n x) (f (t + it_c x * h))) (K * X) /\
    vle n (cadd (csub (it_n x) (f (t + it_c x * h))) (rscal (h ^ 2) (Jt (it_w x)))) ZZ.

  Let Htt : t0 <= t <= t1.
  Proof. lra. Qed.
  Lemma times c : 0 <= c <= 1 -> t0 <= t + c * h <= t1 /\ 0 <= c * h <= h.
  Proof. intros Hc. assert (0 <= c * h) by (apply Rmult_le_pos; lra). assert (c * h <= 1 * h) by (apply Rmult_le_compat_r; lra). lra. Qed.
  Lemma Y_pos : 0 <= Y.
  Proof.
    assert (0 <= h ^ 3) by (apply pow_le; exact Hh).
    assert (0 <= h * e * K) by (repeat apply Rmult_le_pos; assumption). assert (0 <= (2 * A + 4) * K * h ^ 3) by (repeat apply Rmult_le_pos; lra).
    assert (0 <= h * A * K * X) by (repeat apply Rmult_le_pos; lra). lra.
  Qed.
  Lemma ZZ_pos : 0 <= ZZ.
  Proof. assert (Q := Y_pos). unfold ZZ. assert (0 <= X ^ 2) by (apply pow_le; lra). repeat apply Rplus_le_le_0_compat; repeat apply Rmult_le_pos; lra. Qed.

  (** The combination of stage values splits into its parts. *)
  Lemma comb_f bs os (D : list item) : Forall2 (bop n) bs os -> rsum bs <= A -> Forall good_item D ->
    vle n (csub (ocomb os (map it_n D)) (ocomb os (map (fun x => f (t + it_c x * h)) D))) (A * (K * X)).
  Proof.
    intros Ho HB HD. eapply vle_mono; [apply (ocomb_near n bs os _ it_n (fun x => f (t + it_c x * h)) D (K * X) Ho); [apply Rmult_le_pos; lra|]|].
    - eapply Forall_impl; [|exact HD]. intros x Hx. apply Hx.
    - apply Rmult_le_compat_r; [apply Rmult_le_pos; lra|exact HB].
  Qed.
  Lemma comb_taylor bs os (D : list item) : Forall2 (bop n) bs os -> rsum bs <= A -> Forall good_item D ->
    vle n (csub (ocomb os (map (fun x => f (t + it_c x * h)) D))
                (cadd (ocomb os (map (fun _ => f t) D)) (rscal h (ocomb os (map (fun x => rscal (it_c x) (f1 t)) D))))) (A * (2 * K * h ^ 2)).
  Proof.
    intros Ho HB HD.
    apply (vle_ext n (csub (ocomb os (map (fun x => f (t + it_c x * h)) D)) (ocomb os (map (fun x => cadd (f t) (rscal h (rscal (it_c x) (f1 t)))) D)))).
    - apply csub_proper; [reflexivity|]. intros i Hi. rewrite (ocomb_add n bs os _ (fun _ => f t) (fun x => rscal h (rscal (it_c x) (f1 t))) D Ho i Hi). unfold cadd.
      rewrite (ocomb_rscal n bs os _ (fun x => rscal (it_c x) (f1 t)) h D Ho i Hi). reflexivity.
    - assert (0 <= h ^ 2) by (apply pow_le; exact Hh).
      eapply vle_mono; [apply (ocomb_near n bs os _ _ _ D (2 * K * h ^ 2) Ho); [repeat apply Rmult_le_pos; lra|]|apply Rmult_le_compat_r; [repeat apply Rmult_le_pos; lra|exact HB]].
      eapply Forall_impl; [|exact HD]. intros x (Hc & _) i Hi. destruct (times _ Hc) as [T1 T2].
      assert (G := f_gap2 n L N t0 t1 rho K u f f1 f2 J HS t (it_c x * h) Ht (proj1 T2) (proj2 T1) i Hi).
      unfold csub, cadd, cscal. replace (f (t + it_c x * h) i - (f t i + RtoC h * (RtoC (it_c x) * f1 t i)))%C with (f (t + it_c x * h) i - f t i - RtoC (it_c x * h) * f1 t i)%C by (rewrite RtoC_mult; ring).
      eapply Rle_trans; [exact G|]. apply Rmult_le_compat_l; [lra|]. apply pow_incr. lra.
  Qed.
  Lemma comb_taylor3 bs os (D : list item) : Forall2 (bop n) bs os -> rsum bs <= A -> Forall good_item D ->
    vle n (csub (ocomb os (map (fun x => f (t + it_c x * h)) D))
                (cadd (cadd (ocomb os (map (fun _ => f t) D)) (rscal h (ocomb os (map (fun x => rscal (it_c x) (f1 t)) D))))
                      (rscal (h ^ 2) (ocomb os (map (fun x => rscal (it_c x ^ 2 / 2) (f2 t)) D))))) (A * (2 * K * h ^ 3)).
  Proof.
    intros Ho HB HD.
    apply (vle_ext n (csub (ocomb os (map (fun x => f (t + it_c x * h)) D))
       (ocomb os (map (fun x => cadd (cadd (f t) (rscal h (rscal (it_c x) (f1 t)))) (rscal (h ^ 2) (rscal (it_c x ^ 2 / 2) (f2 t)))) D)))).
    - apply csub_proper; [reflexivity|]. intros i Hi.
      rewrite (ocomb_add n bs os _ (fun x => cadd (f t) (rscal h (rscal (it_c x) (f1 t)))) (fun x => rscal (h ^ 2) (rscal (it_c x ^ 2 / 2) (f2 t))) D Ho i Hi). unfold cadd at 1.
      rewrite (ocomb_add n bs os _ (fun _ => f t) (fun x => rscal h (rscal (it_c x) (f1 t))) D Ho i Hi). unfold cadd.
      rewrite (ocomb_rscal n bs os _ (fun x => rscal (it_c x) (f1 t)) h D Ho i Hi).
      rewrite (ocomb_rscal n bs os _ (fun x => rscal (it_c x ^ 2 / 2) (f2 t)) (h ^ 2) D Ho i Hi). reflexivity.
    - assert (0 <= h ^ 3) by (apply pow_le; exact Hh).
      eapply vle_mono; [apply (ocomb_near n bs os _ _ _ D (2 * K * h ^ 3) Ho); [repeat apply Rmult_le_pos; lra|]|apply Rmult_le_compat_r; [repeat apply Rmult_le_pos; lra|exact HB]].
      eapply Forall_impl; [|exact HD]. intros x (Hc & _) i Hi. destruct (times _ Hc) as [T1 T2].
      assert (G := f_gap3 n L N t0 t1 rho K u f f1 f2 J HS t (it_c x * h) Ht (proj1 T2) (proj2 T1) i Hi).
      unfold csub, cadd, cscal.
      replace (f (t + it_c x * h) i - (f t i + RtoC h * (RtoC (it_c x) * f1 t i) + RtoC (h ^ 2) * (RtoC (it_c x ^ 2 / 2) * f2 t i)))%C
        with (f (t + it_c x * h) i - f t i - RtoC (it_c x * h) * f1 t i - RtoC ((it_c x * h) ^ 2 / 2) * f2 t i)%C.
      2:{ replace ((it_c x * h) ^ 2 / 2) with (h ^ 2 * (it_c x ^ 2 / 2)) by field. rewrite !RtoC_mult. ring. }
      eapply Rle_trans; [exact G|]. apply Rmult_le_compat_l; [lra|]. apply pow_incr. lra.
  Qed.

  Lemma Jw_bound w x : 0 <= x -> vle n w x -> vle n (Jt w) (K * x).
  Proof. intros Hx Hw. apply (ss_Jbnd _ _ _ _ _ _ _ _ _ _ _ _ HS t Htt); assumption. Qed.
  Lemma vle_triple a b c x y : vle n (csub a b) x -> vle n (csub b c) y -> vle n (csub a c) (x + y).
  Proof. intros H1 H2. apply (vle_ext n (cadd (csub a b) (csub b c))); [intros i _; unfold cadd, csub; ring|]. apply vle_add; assumption. Qed.

  Section Stage.
    Variables (c : R) (E : op) (row : list op) (bs : list R) (D : list item).
    Hypothesis Hc : 0 <= c <= 1.
    Hypothesis HE : forall v, veq (below n) (E v) (dfun h L (fun z => Cexp (RtoC c * z))%C v).
    Hypothesis Hrow : Forall2 (bop n) bs row.
    Hypothesis Hbs : rsum bs <= A.
    Hypothesis HD : Forall good_item D.
    Hypothesis Hsum : smallop n e (fun v => csub (ocomb row (map (fun _ => v) (map it_c D))) (rscal c (pop h L 1 c v))).
    Notation w := (defect h L (map it_c D) c row (f1 t)).
    Notation val := (erk_value h v E row (map it_n D)).
    Lemma w_bound : vle n w ((1 + A) * K).
    Proof.
      unfold defect. apply (vle_mono n _ (K + A * K)); [|lra].
      apply (vle_ext n (cadd (rscal (c ^ 2) (pop h L 2 c (f1 t))) (rscal (-1) (ocomb row (map (fun d => rscal d (f1 t)) (map it_c D)))))).
      { intros i _. unfold cadd, csub, cscal. rewrite RtoC_m1. ring. }
      assert (B1 := ss_b1 _ _ _ _ _ _ _ _ _ _ _ _ HS t Htt).
      apply vle_add.
      - apply (vle_mono n _ (Rabs (c ^ 2) * K)).
        + apply vle_rscal. intros i Hi. unfold pop, dfun. rewrite Cmod_mult. specialize (B1 i Hi).
          apply Rle_trans with (1 * K); [|lra]. apply Rmult_le_compat; try apply Cmod_ge_0; [|exact B1].
          eapply Rle_trans; [apply phi_left|].
          * rewrite !Re_scal. assert (X1 := ss_L _ _ _ _ _ _ _ _ _ _ _ _ HS i Hi).
            assert (0 <= c * (h * - fst (L i))) by (apply Rmult_le_pos; [lra|]; apply Rmult_le_pos; lra). lra.
          * cbn. lra.
        + assert (0 <= c ^ 2 <= 1) by (cbn [pow]; nra). rewrite Rabs_pos_eq by lra. apply Rle_trans with (1 * K); [|lra]. apply Rmult_le_compat_r; lra.
      - apply (vle_mono n _ (Rabs (-1) * (A * K))); [|rewrite Rabs_left by lra; lra]. apply vle_rscal.
        rewrite map_map.
        apply (vle_ext n (csub (ocomb row (map (fun x => rscal (it_c x) (f1 t)) D)) (ocomb row (map (fun _ => czero) D)))).
        { intros i Hi. assert (Z := ocomb_rscal n bs row _ (fun _ => f1 t) 0 D Hrow i Hi). unfold csub.
          assert (Z' : ocomb row (map (fun _ => czero) D) i = RtoC 0).
          { rewrite (ocomb_mono n bs row _ (fun _ => czero) (fun _ => rscal 0 (f1 t)) D Hrow ltac:(apply Forall_forall; intros y _ j _; unfold czero, cscal; ring) i Hi).
            rewrite Z. unfold cscal. ring. }
          rewrite Z'. ring. }
        eapply vle_mono; [apply (ocomb_near n bs row _ _ _ D K Hrow HK)|apply Rmult_le_compat_r; [exact HK|exact Hbs]].
        eapply Forall_impl; [|exact HD]. intros x (Hx & _) i Hi. unfold csub, cscal, czero. replace (RtoC (it_c x) * f1 t i - 0)%C with (RtoC (it_c x) * f1 t i)%C by ring.
        rewrite Cmod_mult, Cmod_R, Rabs_pos_eq by lra. apply Rle_trans with (1 * K); [|lra]. apply Rmult_le_compat; [lra|apply Cmod_ge_0|lra|apply B1; exact Hi].
    Qed.
    Lemma stage_corrected : vle n (cadd (csub val (u (t + c * h))) (rscal (h ^ 2) w)) Y.
    Proof.
      destruct (times c Hc) as [T1 T2].
      assert (P1 := comb_f bs row D Hrow Hbs HD). assert (P2 := comb_taylor bs row D Hrow Hbs HD).
      assert (P3 := Hsum (f t) K HK (ss_b0 _ _ _ _ _ _ _ _ _ _ _ _ HS t Htt)). cbn beta in P3. rewrite map_map in P3.
      set (Ev := dfun h L (fun z => Cexp (RtoC c * z))%C (csub v (u t))).
      assert (P0 : vle n Ev (1 * d)).
      { unfold Ev. apply (bop_dfun n h L); [lra| |exact Hd|exact Hv]. intros i Hi. apply exp_left. rewrite !Re_scal.
        assert (X1 := ss_L _ _ _ _ _ _ _ _ _ _ _ _ HS i Hi).
        assert (0 <= c * (h * - fst (L i))) by (apply Rmult_le_pos; [lra|]; apply Rmult_le_pos; lra). lra. }
      assert (P4 : vle n (fun i => u (t + c * h) i - etay L u f f1 f2 2 t (c * h) i)%C (4 * K * h ^ 3)).
      { intros i Hi. eapply Rle_trans; [apply (etay_defect n L N t0 t1 rho K u f f1 f2 J HS 2 t (c * h) i); (assumption || lra || (left; reflexivity))|].
        apply Rmult_le_compat_l; [lra|]. apply pow_incr. lra. }
      set (S1 := csub (ocomb row (map it_n D)) (ocomb row (map (fun x => f (t + it_c x * h)) D))) in *.
      set (S2 := csub (ocomb row (map (fun x => f (t + it_c x * h)) D)) (cadd (ocomb row (map (fun _ => f t) D)) (rscal h (ocomb row (map (fun x => rscal (it_c x) (f1 t)) D))))) in *.
      set (S3 := csub (ocomb row (map (fun _ => f t) D)) (rscal c (pop h L 1 c (f t)))) in *.
      apply (vle_ext n (cadd (cadd (cadd Ev (rscal h S1)) (cadd (rscal h S2) (rscal h S3))) (rscal (-1) (fun i => u (t + c * h) i - etay L u f f1 f2 2 t (c * h) i)%C))).
      - intros i Hi. unfold Ev, S1, S2, S3, erk_value, defect, etay, cadd, csub, cscal. cbn [Nat.leb]. rewrite (HE v i Hi). unfold pop, dfun. rewrite map_map, RtoC_m1.
        replace (RtoC (c * h) * L i)%C with (RtoC c * (RtoC h * L i))%C by (rewrite RtoC_mult; ring).
        replace (RtoC (c * h)) with (RtoC c * RtoC h)%C by (rewrite RtoC_mult; reflexivity).
        replace (RtoC ((c * h) ^ 2)) with (RtoC (h ^ 2) * RtoC (c ^ 2))%C by (rewrite <- RtoC_mult; f_equal; ring).
        replace (RtoC (h ^ 2)) with (RtoC h * RtoC h)%C by (rewrite <- RtoC_mult; f_equal; ring). ring.
      - eapply vle_mono; [apply vle_add; [apply vle_add; [apply vle_add; [exact P0|apply vle_rscal; exact P1]|apply vle_add; [apply vle_rscal; exact P2|apply vle_rscal; exact P3]]|apply vle_rscal; exact P4]|].
        rewrite (Rabs_pos_eq h) by exact Hh. rewrite (Rabs_left (-1)) by lra. cbn [pow] in *. lra.
    Qed.
    Lemma stage_error : vle n (csub val (u (t + c * h))) X.
    Proof.
      apply (vle_ext n (cadd (cadd (csub val (u (t + c * h))) (rscal (h ^ 2) w)) (rscal (- h ^ 2) w))).
      { intros i _. unfold cadd, csub, cscal. rewrite RtoC_opp. ring. }
      eapply vle_mono; [apply vle_add; [exact stage_corrected|apply vle_rscal; exact w_bound]|].
      assert (0 <= h ^ 2) by (apply pow_le; exact Hh). rewrite Rabs_Ropp, Rabs_pos_eq by lra. lra.
    Qed.
    Lemma stage_good : good_item (mk_item c (N val) w).
    Proof.
      destruct (times c Hc) as [T1 T2]. assert (S1 := stage_error). assert (S2 := stage_corrected).
      assert (R1 := ss_rho _ _ _ _ _ _ _ _ _ _ _ _ HS).
      assert (F := ss_f _ _ _ _ _ _ _ _ _ _ _ _ HS (t + c * h) T1).
      unfold good_item. cbn [it_c it_n it_w]. split; [exact Hc|]. split.
      - apply (vle_ext n (csub (N val) (N (u (t + c * h))))); [apply csub_proper; [reflexivity|symmetry; exact F]|].
        apply (ss_lip _ _ _ _ _ _ _ _ _ _ _ _ HS (t + c * h)); try assumption; [lra|apply (vle_mono n _ X); [exact S1|lra]|].
        apply (vle_mono n _ 0); [apply vle_eq_0; reflexivity|lra].
      - set (y := csub val (u (t + c * h))) in *.
        assert (Q := ss_Jquad _ _ _ _ _ _ _ _ _ _ _ _ HS (t + c * h) val X T1 ltac:(lra) S1). fold y in Q.
        assert (Tm := ss_Jtime _ _ _ _ _ _ _ _ _ _ _ _ HS (t + c * h) t T1 Htt y X ltac:(lra) S1). cbn beta in Tm.
        assert (B := Jw_bound _ Y Y_pos S2).
        assert (JL := ss_Jlin _ _ _ _ _ _ _ _ _ _ _ _ HS t Htt).
        apply (vle_ext n (cadd (cadd (Jt (cadd y (rscal (h ^ 2) w))) (csub (J (t + c * h) y) (Jt y))) (csub (csub (N val) (N (u (t + c * h)))) (J (t + c * h) y)))).
        + intros i Hi. unfold cadd at 1 2. rewrite (rl_add _ _ JL y (rscal (h ^ 2) w) i Hi). unfold cadd, csub.
          rewrite (rl_scal _ _ JL (h ^ 2) w i Hi). rewrite (F i Hi). ring.
        + unfold ZZ. eapply vle_mono; [apply vle_add; [apply vle_add; [exact B|exact Tm]|exact Q]|].
          replace (t + c * h - t) with (c * h) by ring. rewrite Rabs_pos_eq by lra.
          assert (K * (c * h) * X <= K * h * X). { apply Rmult_le_compat_r; [lra|]. apply Rmult_le_compat_l; lra. } lra.
    Qed.
  End Stage.

  Lemma stages_good : forall cs Es rows brows (D : list item),
    Forall (fun c => 0 <= c <= 1) cs -> Forall2 (fun c E => forall v, veq (below n) (E v) (dfun h L (fun z => Cexp (RtoC c * z))%C v)) cs Es ->
    Forall2 (Forall2 (bop n)) brows rows -> Forall (fun row => rsum row <= A) brows -> rows_ok n h L e (map it_c D) cs rows -> Forall good_item D ->
    exists D', erk_stages N h v Es rows (map it_n D) = map it_n D' /\ map it_c D' = map it_c D ++ cs /\
      map it_w D' = map it_w D ++ defects h L (map it_c D) cs rows (f1 t) /\ Forall good_item D'.
  Proof.
    induction cs as [|c cs IH]; intros Es rows brows D Hc HE Hb Hs Hr HD.
    - destruct rows; [|destruct Hr]. inversion HE; subst. exists D. cbn. rewrite !app_nil_r. auto.
    - destruct rows as [|row rows]; [destruct Hr|]. cbn [rows_ok] in Hr. destruct Hr as [Hr1 Hr2].
      inversion HE as [|? E ? Es' HE1 HE2]; subst. inversion Hb as [|bs ? brows' ? Hb1 Hb2]; subst. inversion Hs as [|? ? Hs1 Hs2]; subst. inversion Hc as [|? ? Hc1 Hc2]; subst.
      set (x := mk_item c (N (erk_value h v E row (map it_n D))) (defect h L (map it_c D) c row (f1 t))).
      assert (Gx : good_item x) by (apply (stage_good c E row bs D); assumption).
      destruct (IH Es' rows brows' (D ++ [x])) as (D' & G1 & G2 & G3 & G4); try assumption.
      { rewrite map_app. exact Hr2. }
      { apply Forall_app. split; [exact HD|]. constructor; [exact Gx|constructor]. }
      exists D'. rewrite !map_app in G1, G2, G3. cbn [map it_c it_n it_w x] in G1, G2, G3. cbn [erk_stages defects].
      split; [exact G1|]. split; [rewrite G2, <- app_assoc; reflexivity|]. split; [|exact G4]. rewrite G3, (map_app it_c), <- app_assoc. reflexivity.
  Qed.

  Theorem local_error : vle n (csub (erk_step m N h v) (u (t + h)))
    (d + h * (A * ZZ + A * K * e * K * h ^ 2 + 2 * A * K * h ^ 3 + e * K * (1 + h + h ^ 2) + 4 * K * h ^ 3)).
  Proof.
    destruct Hm as [M1 (brows & bs & MB & MR & Mb) M3 M4 M5 M6 M7 M8 M9].
    destruct (stages_good cs0 (er_E m) (er_a m) brows [] M1 M3 (bd_a _ _ _ _ MB) MR M5 (Forall_nil _)) as (D & G1 & G2 & G3 & G4).
    cbn [map app] in G1, G2, G3. unfold erk_step. rewrite G1. rewrite <- G2 in M6, M7, M8. rewrite <- G3 in M9 || idtac.
    assert (Hb := bd_b _ _ _ _ MB). set (os := er_b m) in *.
    assert (B0 := ss_b0 _ _ _ _ _ _ _ _ _ _ _ _ HS t Htt). assert (B1 := ss_b1 _ _ _ _ _ _ _ _ _ _ _ _ HS t Htt). assert (B2 := ss_b2 _ _ _ _ _ _ _ _ _ _ _ _ HS t Htt).
    assert (P6 := M6 (f t) K HK B0). assert (P7 := M7 (f1 t) K HK B1). assert (P8 := M8 (f2 t) K HK B2). cbn beta in P6, P7, P8. rewrite map_map in P6, P7, P8.
    assert (P9 := M9 Jt K (ss_Jlin _ _ _ _ _ _ _ _ _ _ _ _ HS t Htt) (ss_Jbnd _ _ _ _ _ _ _ _ _ _ _ _ HS t Htt) HK (f1 t) K HK B1). cbn beta in P9. rewrite <- G3, map_map in P9.
    assert (P3 := comb_taylor3 bs os D Hb Mb G4).
    assert (PZ : vle n (csub (ocomb os (map (fun x => cadd (it_n x) (rscal (h ^ 2) (Jt (it_w x)))) D)) (ocomb os (map (fun x => f (t + it_c x * h)) D))) (A * ZZ)).
    { eapply vle_mono; [apply (ocomb_near n bs os _ _ _ D ZZ Hb ZZ_pos)|apply Rmult_le_compat_r; [exact ZZ_pos|exact Mb]].
      eapply Forall_impl; [|exact G4]. intros x (_ & _ & Hx). eapply vle_ext; [|exact Hx]. intros i _. unfold cadd, csub. ring. }
    set (Ev := dfun h L Cexp (csub v (u t))).
    assert (P0 : vle n Ev (1 * d)).
    { unfold Ev. apply (bop_dfun n h L); [lra| |exact Hd|exact Hv]. intros i Hi. apply exp_left. rewrite Re_scal.
      assert (X1 := ss_L _ _ _ _ _ _ _ _ _ _ _ _ HS i Hi). assert (0 <= h * - fst (L i)) by (apply Rmult_le_pos; lra). lra. }
    assert (P4 : vle n (fun i => u (t + h) i - etay L u f f1 f2 3 t h i)%C (4 * K * h ^ 4)).
    { intros i Hi. apply (etay_defect n L N t0 t1 rho K u f f1 f2 J HS 3 t h i); (assumption || lra || (right; reflexivity)). }
    match type of PZ with vle _ ?a _ => set (S1 := a) in * end.
    match type of P3 with vle _ ?a _ => set (S2 := a) in * end.
    match type of P6 with vle _ ?a _ => set (S3 := a) in * end.
    match type of P7 with vle _ ?a _ => set (S4 := a) in * end.
    match type of P8 with vle _ ?a _ => set (S5 := a) in * end.
    match type of P9 with vle _ ?a _ => set (S6 := a) in * end.
    apply (vle_ext n (cadd (cadd (cadd Ev (rscal h S1)) (cadd (rscal h S2) (rscal h S3)))
            (cadd (cadd (rscal (h ^ 2) S4) (rscal (h ^ 3) S5)) (cadd (rscal (- h ^ 3) S6) (rscal (-1) (fun i => u (t + h) i - etay L u f f1 f2 3 t h i)%C))))).
    - intros i Hi. unfold S1. unfold csub at 1. unfold cadd at 1 2 3.
      unfold cadd, csub, cscal.
      assert (Q := ocomb_add n bs os _ it_n (fun x => rscal (h ^ 2) (Jt (it_w x))) D Hb i Hi). unfold cadd in Q at 2.
      rewrite (ocomb_rscal n bs os _ (fun x => Jt (it_w x)) (h ^ 2) D Hb i Hi) in Q. fold S6 in Q. unfold cscal in Q at 2.
      unfold cadd, cscal in Q. rewrite Q.
      unfold Ev, S2, S3, S4, S5, erk_value, etay, cadd, csub, cscal. cbn [Nat.leb]. rewrite (M4 v i Hi). unfold pop, dfun. rewrite RtoC_m1, RtoC_opp.
      replace (RtoC 1 * (RtoC h * L i))%C with (RtoC h * L i)%C by ring.
      replace (RtoC (h ^ 3)) with (RtoC h * RtoC h * RtoC h)%C by (rewrite <- !RtoC_mult; f_equal; ring).
      replace (RtoC (h ^ 2)) with (RtoC h * RtoC h)%C by (rewrite <- RtoC_mult; f_equal; ring). ring.
    - eapply vle_mono; [apply vle_add; [apply vle_add; [apply vle_add; [exact P0|apply vle_rscal; exact PZ]|apply vle_add; [apply vle_rscal; exact P3|apply vle_rscal; exact P6]]|
        apply vle_add; [apply vle_add; [apply vle_rscal; exact P7|apply vle_rscal; exact P8]|apply vle_add; [apply vle_rscal; exact P9|apply vle_rscal; exact P4]]]|].
      assert (0 <= h ^ 2) by (apply pow_le; exact Hh). assert (0 <= h ^ 3) by (apply pow_le; exact Hh).
      rewrite Rabs_Ropp, (Rabs_pos_eq h), (Rabs_pos_eq (h ^ 2)), (Rabs_pos_eq (h ^ 3)), (Rabs_left (-1)) by lra. right. ring.
  Qed.
End Local.

(** ** Constants that depend on [A] and [K] only *)
Section Constants.
  Variables A K : R.
  Hypothesis HA : 0 <= A.
  Hypothesis HK : 0 <= K.
  Definition M1 : R := (2 * A + 4) * K + (1 + A) * K.
  Definition M3 : R := 2 + 2 * K + 2 * M1.
  Definition M4 : R := 1 + A * K * M3 + (2 * A + 4) * K + K.
  Definition M5 : R := (2 * (1 + K + M1) + 2 * M1) * (2 + 2 * K) + 4 * M1 ^ 2.
  Definition CC : R := A * (K * M4 + K * M3 + K * M5) + A * K * K + 2 * A * K + 3 * K + 4 * K.
  Lemma AK_pos : 0 <= A * K.
  Proof. apply Rmult_le_pos; assumption. Qed.
  Lemma M1_pos : 0 <= M1.
  Proof. assert (X := AK_pos). unfold M1. lra. Qed.
  Lemma M3_pos : 0 <= M3.
  Proof. assert (X := M1_pos). unfold M3. lra. Qed.
  Lemma M4_pos : 0 <= M4.
  Proof. assert (X := M3_pos). assert (Y := AK_pos). assert (0 <= A * K * M3) by (apply Rmult_le_pos; assumption). unfold M4. lra. Qed.
  Lemma M5_pos : 0 <= M5.
  Proof.
    assert (X := M1_pos). unfold M5. assert (0 <= M1 ^ 2) by (apply pow_le; exact X).
    assert (0 <= (2 * (1 + K + M1) + 2 * M1) * (2 + 2 * K)) by (apply Rmult_le_pos; lra). lra.
  Qed.
  Lemma CC_pos : 0 <= CC.
  Proof.
    assert (X := M3_pos). assert (Y := M4_pos). assert (Z := M5_pos). assert (W := AK_pos). unfold CC.
    repeat apply Rplus_le_le_0_compat; repeat apply Rmult_le_pos; try lra. repeat apply Rplus_le_le_0_compat; apply Rmult_le_pos; lra.
  Qed.
  Variables e h d : R.
  Hypothesis He : 0 <= e <= 1.
  Hypothesis Hh : 0 <= h <= 1.
  Hypothesis Hd : 0 <= d <= 1.
  Hypothesis HhAK : h * A * K <= 1 / 2.
  Definition Xb : R := 2 * (d + h * e * K + M1 * h ^ 2).
  Definition Yb : R := d + h * A * K * Xb + h * e * K + (2 * A + 4) * K * h ^ 3.
  Notation q := (d + e + h ^ 3).
  Lemma h_pows : 0 <= h ^ 3 /\ h ^ 3 <= h ^ 2 /\ h ^ 2 <= h /\ h ^ 3 <= 1 /\ 0 <= h ^ 2 <= 1.
  Proof.
    assert (0 <= h ^ 2) by (apply pow_le; lra). assert (0 <= h ^ 3) by (apply pow_le; lra).
    assert (h ^ 3 <= h ^ 2) by (replace (h ^ 3) with (h * h ^ 2) by ring; apply Rle_trans with (1 * h ^ 2); [apply Rmult_le_compat_r; lra|lra]).
    assert (h ^ 2 <= h) by (replace (h ^ 2) with (h * h) by ring; apply Rle_trans with (1 * h); [apply Rmult_le_compat_r; lra|lra]). lra.
  Qed.
  Lemma heK : 0 <= h * e * K <= K * e.
  Proof.
    split; [repeat apply Rmult_le_pos; lra|]. assert (0 <= e * K) by (apply Rmult_le_pos; lra).
    replace (h * e * K) with (h * (e * K)) by ring. apply Rle_trans with (1 * (e * K)); [apply Rmult_le_compat_r; lra|lra].
  Qed.
  Lemma Xb_pos : 0 <= Xb.
  Proof. assert (P := h_pows). assert (Q := heK). unfold Xb. assert (0 <= M1 * h ^ 2) by (apply Rmult_le_pos; [exact M1_pos|lra]). lra. Qed.
  Lemma XY : Yb + (1 + A) * K * h ^ 2 <= Xb.
  Proof.
    assert (P := h_pows). assert (Q := heK). assert (X := Xb_pos).
    assert (h * A * K * Xb <= 1 / 2 * Xb) by (apply Rmult_le_compat_r; lra).
    assert (0 <= (2 * A + 4) * K) by (apply Rmult_le_pos; lra).
    assert ((2 * A + 4) * K * h ^ 3 <= (2 * A + 4) * K * h ^ 2) by (apply Rmult_le_compat_l; lra).
    unfold Yb. assert (E : Xb = 2 * (d + h * e * K + ((2 * A + 4) * K * h ^ 2 + (1 + A) * K * h ^ 2))) by (unfold Xb, M1; ring). lra.
  Qed.
  Lemma Xb_le : Xb <= 2 * (d + K * e + M1 * h ^ 2).
  Proof. assert (Q := heK). unfold Xb. lra. Qed.
  Lemma q_pos : 0 <= q.
  Proof. assert (P := h_pows). lra. Qed.
  Lemma mul_le a b c x : 0 <= x -> a <= b * x -> b <= c -> a <= c * x.
  Proof. intros. apply Rle_trans with (b * x); [assumption|apply Rmult_le_compat_r; assumption]. Qed.
  Lemma hX_le : h * Xb <= M3 * q.
  Proof.
    assert (P := h_pows). assert (X := Xb_le). assert (X0 := Xb_pos). assert (M := M1_pos).
    assert (h * Xb <= h * (2 * (d + K * e + M1 * h ^ 2))) by (apply Rmult_le_compat_l; lra).
    assert (h * d <= 1 * d) by (apply Rmult_le_compat_r; lra). assert (0 <= K * e) by (apply Rmult_le_pos; lra).
    assert (h * (K * e) <= 1 * (K * e)) by (apply Rmult_le_compat_r; lra).
    replace (h * (2 * (d + K * e + M1 * h ^ 2))) with (2 * (h * d) + 2 * (h * (K * e)) + 2 * M1 * h ^ 3) in * by ring.
    unfold M3. assert (0 <= K * d) by (apply Rmult_le_pos; lra). assert (0 <= K * h ^ 3) by (apply Rmult_le_pos; lra).
    assert (0 <= M1 * d) by (apply Rmult_le_pos; lra). assert (0 <= M1 * e) by (apply Rmult_le_pos; lra).
    replace ((2 + 2 * K + 2 * M1) * (d + e + h ^ 3)) with (2 * d + 2 * e + 2 * h ^ 3 + 2 * (K * d) + 2 * (K * e) + 2 * (K * h ^ 3) + 2 * (M1 * d) + 2 * (M1 * e) + 2 * M1 * h ^ 3) by ring. lra.
  Qed.
  Lemma Y_le : Yb <= M4 * q.
  Proof.
    assert (P := h_pows). assert (H1 := hX_le). assert (W := AK_pos). assert (Q := heK). assert (Qp := q_pos).
    assert (E1 : h * A * K * Xb <= A * K * (M3 * q)) by (replace (h * A * K * Xb) with (A * K * (h * Xb)) by ring; apply Rmult_le_compat_l; assumption).
    assert (0 <= (2 * A + 4) * K) by (apply Rmult_le_pos; lra).
    assert (E2 : (2 * A + 4) * K * h ^ 3 <= (2 * A + 4) * K * q) by (apply Rmult_le_compat_l; lra).
    assert (E3 : K * e <= K * q) by (apply Rmult_le_compat_l; lra).
    unfold Yb, M4. replace ((1 + A * K * M3 + (2 * A + 4) * K + K) * q) with (q + A * K * (M3 * q) + (2 * A + 4) * K * q + K * q) by ring. lra.
  Qed.
  Lemma X2_le : Xb ^ 2 <= M5 * q.
  Proof.
    assert (P := h_pows). assert (X := Xb_le). assert (X0 := Xb_pos). assert (M := M1_pos). assert (Qp := q_pos).
    assert (Ke : 0 <= K * e) by (apply Rmult_le_pos; lra). assert (Ke1 : K * e <= K * 1) by (apply Rmult_le_compat_l; lra).
    assert (Mh : M1 * h ^ 2 <= M1 * 1) by (apply Rmult_le_compat_l; lra).
    assert (Mh0 : 0 <= M1 * h ^ 2) by (apply Rmult_le_pos; lra).
    set (a := 2 * d + 2 * (K * e)) in *. set (b := 2 * (M1 * h ^ 2)).
    assert (Ea : 0 <= a) by (unfold a; lra). assert (Eb : 0 <= b) by (unfold b; lra).
    assert (Xab : Xb <= a + b) by (unfold a, b; lra).
    assert (Sq : Xb ^ 2 <= (2 * (1 + K + M1)) * a + b * (a + b)).
    { cbn [pow]. rewrite Rmult_1_r. apply Rle_trans with (Xb * (a + b)); [apply Rmult_le_compat_l; lra|].
      assert (Xb * a <= 2 * (1 + K + M1) * a) by (apply Rmult_le_compat_r; [exact Ea|]; unfold a, b in *; lra).
      assert (Xb * b <= (a + b) * b) by (apply Rmult_le_compat_r; lra). lra. }
    assert (B1 : b * a <= 2 * M1 * a) by (apply Rmult_le_compat_r; [exact Ea|unfold b; lra]).
    assert (h4 : h ^ 4 <= h ^ 3) by (replace (h ^ 4) with (h * h ^ 3) by ring; apply Rle_trans with (1 * h ^ 3); [apply Rmult_le_compat_r; lra|lra]).
    assert (M2 : 0 <= M1 ^ 2) by (apply pow_le; exact M).
    assert (B2 : b * b <= 4 * M1 ^ 2 * h ^ 3).
    { replace (b * b) with (4 * M1 ^ 2 * h ^ 4) by (unfold b; ring). apply Rmult_le_compat_l; lra. }
    assert (Eq : a <= (2 + 2 * K) * q).
    { unfold a. assert (0 <= K * d) by (apply Rmult_le_pos; lra). assert (0 <= K * h ^ 3) by (apply Rmult_le_pos; lra).
      replace ((2 + 2 * K) * (d + e + h ^ 3)) with (2 * d + 2 * e + 2 * h ^ 3 + 2 * (K * d) + 2 * (K * e) + 2 * (K * h ^ 3)) by ring. lra. }
    assert (E5 : (2 * (1 + K + M1) + 2 * M1) * a <= (2 * (1 + K + M1) + 2 * M1) * ((2 + 2 * K) * q)) by (apply Rmult_le_compat_l; lra).
    assert (E6 : 4 * M1 ^ 2 * h ^ 3 <= 4 * M1 ^ 2 * q) by (apply Rmult_le_compat_l; lra).
    unfold M5. lra.
  Qed.
  Lemma total_le : A * (K * Yb + K * h * Xb + K * Xb ^ 2) + A * K * e * K * h ^ 2 + 2 * A * K * h ^ 3 + e * K * (1 + h + h ^ 2) + 4 * K * h ^ 3 <= CC * q.
  Proof.
    assert (P := h_pows). assert (E1 := Y_le). assert (E2 := hX_le). assert (E3 := X2_le). assert (Qp := q_pos). assert (W := AK_pos).
    assert (F1 : A * K * Yb <= A * K * (M4 * q)) by (apply Rmult_le_compat_l; assumption).
    assert (F2 : A * K * (h * Xb) <= A * K * (M3 * q)) by (apply Rmult_le_compat_l; assumption).
    assert (F3 : A * K * Xb ^ 2 <= A * K * (M5 * q)) by (apply Rmult_le_compat_l; assumption).
    assert (AKK : 0 <= A * K * K) by (apply Rmult_le_pos; assumption).
    assert (F4 : A * K * K * (e * h ^ 2) <= A * K * K * q).
    { apply Rmult_le_compat_l; [exact AKK|]. apply Rle_trans with (e * 1); [apply Rmult_le_compat_l; lra|lra]. }
    assert (F5 : 2 * (A * K) * h ^ 3 <= 2 * (A * K) * q) by (apply Rmult_le_compat_l; lra).
    assert (F6 : K * (e * (1 + h + h ^ 2)) <= K * (3 * q)).
    { apply Rmult_le_compat_l; [exact HK|]. apply Rle_trans with (e * 3); [apply Rmult_le_compat_l; lra|lra]. }
    assert (F7 : 4 * K * h ^ 3 <= 4 * K * q) by (apply Rmult_le_compat_l; lra).
    unfold CC. lra.
  Qed.
End Constants.

Lemma local_order n L N t0 t1 rho K u f f1 f2 J : stiff_solution n L N t0 t1 rho K u f f1 f2 J ->
  forall A e h t d v cs m, stiff_three n h L A e cs m -> 0 <= A -> 0 <= e <= 1 -> 0 <= h <= 1 -> h * A * K <= 1 / 2 -> 0 <= d <= 1 ->
  2 * (d + K * e + M1 A K * h ^ 2) <= rho -> t0 <= t -> t + h <= t1 -> vle n (csub v (u t)) d ->
  vle n (csub (erk_step m N h v) (u (t + h))) (d + h * (CC A K * (d + e + h ^ 3))).
Proof.
  intros HS A e h t d v cs m Hm HA He Hh HhAK Hd Hr Ht Hth Hv. assert (HK := ss_K _ _ _ _ _ _ _ _ _ _ _ _ HS).
  set (X := Xb A K e h d). set (Y := Yb A K e h d).
  assert (X0 := Xb_pos A K HA HK e h d He Hh Hd). assert (X1 := Xb_le A K HK e h d He Hh). assert (X2 := XY A K HA HK e h d He Hh Hd HhAK).
  eapply vle_mono; [apply (local_error n L N t0 t1 rho K u f f1 f2 J HS A e h t d v cs m Hm HA ltac:(lra) ltac:(lra) Ht Hth ltac:(lra) Hv X Y)|].
  - right. reflexivity.
  - exact X2.
  - unfold X. lra.
  - assert (G := total_le A K HA HK e h d He Hh Hd). apply Rplus_le_compat_l. apply Rmult_le_compat_l; [lra|]. exact G.
Qed.

(** ** Runs *)
Theorem stiff_runs A K rho T0 : 0 <= A -> 0 <= K -> 0 < rho -> 0 < T0 -> exists C h0 r0, 0 <= C /\ 0 < h0 /\ 0 < r0 /\
  forall n L N t0 t1 u f f1 f2 J, stiff_solution n L N t0 t1 rho K u f f1 f2 J -> t1 - t0 <= T0 ->
  forall (Phi : R -> cvec -> cvec) cs H e hs v d, 0 <= e -> 0 <= d -> 0 <= H <= h0 -> d + e <= r0 -> vle n (csub v (u t0)) d ->
    Forall (fun h => 0 < h <= H /\ exists m, stiff_three n h L A e cs m /\ forall v, veq (below n) (Phi h v) (erk_step m N h v)) hs ->
    t0 + total hs <= t1 ->
    vle n (csub (run Phi hs v) (u (t0 + total hs))) (C * (d + e + H ^ 3)).
Proof.
  intros HA HK Hrho HT0. set (C1 := CC A K). assert (HC1 : 0 <= C1) by (apply CC_pos; assumption).
  assert (HM := M1_pos A K HA HK). set (M := M1 A K) in *.
  set (C := exp (C1 * T0) * (1 + T0 * C1)). set (r := Rmin 1 (rho / 8)).
  assert (Hr : 0 < r <= 1 /\ r <= rho / 8). { unfold r. split; [split; [apply Rmin_glb_lt; lra|apply Rmin_l]|apply Rmin_r]. }
  assert (HC : 1 <= C).
  { unfold C. assert (T1 : 0 <= T0 * C1) by (apply Rmult_le_pos; lra). assert (E := exp_ge_1 (C1 * T0) ltac:(lra)). assert (E1 : 1 <= exp (C1 * T0)) by lra.
    apply Rle_trans with (1 * 1); [lra|]. apply Rmult_le_compat; lra. }
  assert (AK : 0 <= A * K) by (apply Rmult_le_pos; assumption).
  set (h0 := Rmin (Rmin 1 (r / (2 * C))) (Rmin (rho / (8 * (M + 1))) (1 / (2 * (A * K + 1))))).
  set (r0 := Rmin (r / (2 * C)) (rho / (8 * (K + 1)))).
  assert (Q0 : 0 < r / (2 * C)) by (apply Rdiv_lt_0_compat; lra).
  assert (Q1 : 0 < rho / (8 * (M + 1))) by (apply Rdiv_lt_0_compat; lra).
  assert (Q2 : 0 < 1 / (2 * (A * K + 1))) by (apply Rdiv_lt_0_compat; lra).
  assert (Q3 : 0 < rho / (8 * (K + 1))) by (apply Rdiv_lt_0_compat; lra).
  assert (Hh0 : 0 < h0 /\ h0 <= 1 /\ h0 <= r / (2 * C) /\ h0 <= rho / (8 * (M + 1)) /\ h0 <= 1 / (2 * (A * K + 1))).
  { unfold h0. split; [apply Rmin_glb_lt; apply Rmin_glb_lt; lra|].
    assert (A1 := Rmin_l (Rmin 1 (r / (2 * C))) (Rmin (rho / (8 * (M + 1))) (1 / (2 * (A * K + 1))))).
    assert (A2 := Rmin_r (Rmin 1 (r / (2 * C))) (Rmin (rho / (8 * (M + 1))) (1 / (2 * (A * K + 1))))).
    assert (A3 := Rmin_l 1 (r / (2 * C))). assert (A4 := Rmin_r 1 (r / (2 * C))).
    assert (A5 := Rmin_l (rho / (8 * (M + 1))) (1 / (2 * (A * K + 1)))). assert (A6 := Rmin_r (rho / (8 * (M + 1))) (1 / (2 * (A * K + 1)))). lra. }
  assert (Hr0 : 0 < r0 /\ r0 <= r / (2 * C) /\ r0 <= rho / (8 * (K + 1))).
  { unfold r0. split; [apply Rmin_glb_lt; lra|]. split; [apply Rmin_l|apply Rmin_r]. }
  exists C, h0, r0. split; [lra|]. split; [lra|]. split; [lra|].
  intros n L N t0 t1 u f f1 f2 J HS HT Phi cs H e hs v d He Hd HH Hde Hv Hall Htot.
  assert (Htime := ss_time _ _ _ _ _ _ _ _ _ _ _ _ HS).
  assert (C2 : C * (r / (2 * C)) = r / 2) by (field; lra).
  assert (Hr2 : r / (2 * C) <= r). { apply Rle_trans with (r / (2 * 1)); [|lra]. apply Rmult_le_compat_l; [lra|]. apply Rinv_le_contravar; lra. }
  assert (P3 : 0 <= H ^ 3 <= H).
  { split; [apply pow_le; lra|]. replace (H ^ 3) with (H ^ 2 * H) by ring. apply Rle_trans with (1 * H); [|lra]. apply Rmult_le_compat_r; [lra|].
    replace 1 with (1 ^ 2) by ring. apply pow_incr. lra. }
  set (D := C1 * (e + H ^ 3)). assert (HD : 0 <= D) by (unfold D; apply Rmult_le_pos; lra).
  assert (Ke : K * e <= rho / 8).
  { apply Rle_trans with ((K + 1) * (rho / (8 * (K + 1)))); [|right; field; lra]. apply Rmult_le_compat; lra. }
  assert (Hstep : forall t h w x, (0 < h <= H /\ exists m, stiff_three n h L A e cs m /\ forall v, veq (below n) (Phi h v) (erk_step m N h v)) -> 0 < h -> t0 <= t -> t + h <= t1 ->
            0 <= x <= r -> vle n (csub w (u t)) x -> vle n (csub (Phi h w) (u (t + h))) ((1 + C1 * h) * x + h * D)).
  { intros t h w x (Hh & m & Hm & Heq) _ Ht Hth Hx Hw.
    apply (vle_ext n (csub (erk_step m N h w) (u (t + h)))); [apply csub_proper; [symmetry; apply Heq|reflexivity]|].
    assert (Mh : M * h ^ 2 <= rho / 8).
    { apply Rle_trans with ((M + 1) * (rho / (8 * (M + 1)))); [|right; field; lra]. apply Rmult_le_compat; [lra|apply pow_le; lra|lra|].
      apply Rle_trans with h; [|lra]. replace (h ^ 2) with (h * h) by ring. apply Rle_trans with (1 * h); [apply Rmult_le_compat_r; lra|lra]. }
    assert (hAK : h * A * K <= 1 / 2).
    { replace (h * A * K) with (h * (A * K)) by ring. apply Rle_trans with (1 / (2 * (A * K + 1)) * (A * K + 1)); [|right; field; lra]. apply Rmult_le_compat; lra. }
    assert (Hh3 : h ^ 3 <= H ^ 3) by (apply pow_incr; lra).
    assert (Hr3 : 2 * (x + K * e + M1 A K * h ^ 2) <= rho).
    { fold M. clear - Mh Ke Hx Hr. set (z := M * h ^ 2) in *. set (y := K * e) in *. lra. }
    eapply vle_mono; [apply (local_order n L N t0 t1 rho K u f f1 f2 J HS A e h t x w cs m Hm HA); try assumption; lra|].
    fold C1. unfold D.
    assert (B : h * (C1 * (x + e + h ^ 3)) <= h * (C1 * (x + e + H ^ 3))).
    { apply Rmult_le_compat_l; [lra|]. apply Rmult_le_compat_l; [exact HC1|]. apply Rplus_le_compat_l. exact Hh3. }
    replace ((1 + C1 * h) * x + h * (C1 * (e + H ^ 3))) with (x + h * (C1 * (x + e + H ^ 3))) by ring. apply Rplus_le_compat_l. exact B. }
  set (X := exp (C1 * (t1 - t0))).
  assert (HX : 0 < X <= exp (C1 * T0)).
  { split; [apply exp_pos|]. unfold X. apply exp_mono. apply Rmult_le_compat_l; assumption. }
  assert (Bound : exp (C1 * (t1 - t0)) * (d + (t1 - t0) * D) <= C * (d + e + H ^ 3)).
  { fold X. unfold C. rewrite Rmult_assoc. assert (TD : 0 <= (t1 - t0) * D) by (apply Rmult_le_pos; lra).
    apply Rmult_le_compat; [lra|lra|lra|].
    assert ((t1 - t0) * D <= T0 * D) by (apply Rmult_le_compat_r; assumption).
    assert (0 <= T0 * C1 * d) by (repeat apply Rmult_le_pos; lra). unfold D in *. lra. }
  assert (Small : C * (d + e + H ^ 3) <= r).
  { assert (C * (d + e) <= C * (r / (2 * C))) by (apply Rmult_le_compat_l; lra).
    assert (C * H ^ 3 <= C * (r / (2 * C))) by (apply Rmult_le_compat_l; lra). lra. }
  assert (Hall' : Forall (fun h => (0 < h <= H /\ exists m, stiff_three n h L A e cs m /\ forall v, veq (below n) (Phi h v) (erk_step m N h v)) /\ 0 < h) hs).
  { eapply Forall_impl; [|exact Hall]. cbn beta. intros h Hh'. split; [exact Hh'|apply Hh']. }
  assert (HTh : 0 <= total hs).
  { clear - Hall. induction Hall as [|a l [Ha _] _ IH]; cbn [total fold_right]; [lra|]. unfold total in *. lra. }
  assert (G := gronwall n u Phi t0 t1 r C1 D _ HC1 HD Hstep hs t0 v d Hall' (Rle_refl _) Htot Hd ltac:(lra) Hv).
  eapply vle_mono; [exact G|]. eapply Rle_trans; [|exact Bound].
  assert (0 <= total hs * D) by (apply Rmult_le_pos; assumption).
  apply Rmult_le_compat; [left; apply exp_pos|lra| |].
  - apply exp_mono. apply Rmult_le_compat_l; lra.
  - assert (total hs * D <= (t1 - t0) * D) by (apply Rmult_le_compat_r; lra). lra.
Qed.
