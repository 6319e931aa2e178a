(** * Chebyshev grid and differentiation matrix (C51, C52) *)

From Coq Require Import ZArith List Bool Reals Lra Lia.
From Coquelicot Require Import Hierarchy Derive AutoDerive.
From Verif Require Import Scalars Config Grids Derivatives SpecPoly.
Import ListNotations.
Local Open Scope R_scope.

(** ** Differentiation matrices from barycentric weights *)
Lemma is_derive_eq f x (a b : R) : is_derive f x a -> is_derive f x b -> a = b.
Proof. intros Ha Hb. apply is_derive_unique in Ha, Hb. congruence. Qed.

Lemma is_derive_shift (c x : R) : is_derive (fun y => y - c) x 1.
Proof. auto_derive; [exact I|ring]. Qed.
Lemma is_derive_parabola (x : R) : is_derive (fun y => 1 - y * y) x (- 2 * x).
Proof. auto_derive; [exact I|ring]. Qed.
Lemma is_derive_cos' (x : R) : is_derive cos x (- sin x).
Proof. auto_derive; [exact I|ring]. Qed.
Lemma is_derive_sin' (x : R) : is_derive sin x (cos x).
Proof. auto_derive; [exact I|ring]. Qed.
Lemma is_derive_dil (c x : R) : is_derive (fun y => c * y) x c.
Proof. auto_derive; [exact I|ring]. Qed.
Lemma is_derive_sumf (n : nat) (f : nat -> R -> R) (g : nat -> R) x :
  (forall k, (k < n)%nat -> is_derive (f k) x (g k)) -> is_derive (fun y => sumf n (fun k => f k y)) x (sumf n g).
Proof.
  intros H. induction n as [|n IH].
  - exact (is_derive_const 0 x).
  - cbn [sumf]. apply (is_derive_plus (fun y => sumf n (fun k => f k y)) (f n) x); [apply IH; auto|apply H; lia].
Qed.
Lemma is_derive_scal' c f x d : is_derive f x d -> is_derive (fun y => c * f y) x (c * d).
Proof. intros H. exact (is_derive_scal f x c d H). Qed.
Lemma sumf_plus n f g : sumf n (fun k => f k + g k) = sumf n f + sumf n g.
Proof. induction n; cbn; [ring|]. rewrite IHn. ring. Qed.
Lemma sumf_scal n c f : sumf n (fun k => c * f k) = c * sumf n f.
Proof. induction n; cbn; [ring|]. rewrite IHn. ring. Qed.
Lemma sumf_zero n f : (forall k, (k < n)%nat -> f k = 0) -> sumf n f = 0.
Proof. intros H. induction n; cbn; [ring|]. rewrite IHn, H by auto. ring. Qed.

Section Bary.
  Variable N : nat.
  Variable x : nat -> R.
  Hypothesis D : forall i j, (i < N)%nat -> (j < N)%nat -> x i = x j -> i = j.
  Notation others := (others N x).
  Notation W := (W N x).

  Lemma others_full i y : (i < N)%nat -> (y - x i) * others i y = prodf N (fun k => y - x k).
  Proof.
    clear D. unfold others. intros Hi.
    assert (G : forall m, prodf m (fun k => y - x k)
        = (if (i <? m)%nat then y - x i else 1) * prodf m (fun k => if Nat.eqb k i then 1 else y - x k)).
    { induction m as [|m IH]; [cbn; ring|]. cbn [prodf]. rewrite IH.
      destruct (Nat.eqb_spec m i) as [->|Q].
      - rewrite Nat.ltb_irrefl. replace (i <? S i)%nat with true by (symmetry; apply Nat.ltb_lt; lia). ring.
      - replace (i <? S m)%nat with (i <? m)%nat; [ring|]. destruct (Nat.ltb_spec i m), (Nat.ltb_spec i (S m)); try reflexivity; lia. }
    rewrite G, (proj2 (Nat.ltb_lt i N) Hi). ring.
  Qed.

  (** Derivatives of the Lagrange factors at the nodes. *)
  Lemma others_der_neq i j d : (i < N)%nat -> (j < N)%nat -> i <> j -> is_derive (others j) (x i) d ->
    d = W i / (x i - x j).
  Proof.
    intros Hi Hj Q Hd. assert (Z : x i - x j <> 0) by (intros A; apply Q, D; auto; lra).
    destruct (ispoly_der N (others i) (others_poly N x i Hi)) as [g [_ Hg]].
    assert (L : is_derive (fun y => (y - x j) * others j y) (x i) (1 * others j (x i) + (x i - x j) * d)).
    { apply (is_derive_mult (fun y => y - x j) (others j)); [apply is_derive_shift|exact Hd]. }
    assert (M : is_derive (fun y => (y - x i) * others i y) (x i) (1 * others i (x i) + (x i - x i) * g (x i))).
    { apply (is_derive_mult (fun y => y - x i) (others i)); [apply is_derive_shift|apply Hg]. }
    assert (E : 1 * others j (x i) + (x i - x j) * d = 1 * others i (x i) + (x i - x i) * g (x i)).
    { apply (is_derive_eq (fun y => (y - x i) * others i y) (x i)); [|exact M].
      eapply is_derive_ext; [|exact L]. intros y. cbn. rewrite !others_full by auto. reflexivity. }
    rewrite (others_0 N x j i Hi) in E by auto. fold (W i) in E. unfold Rdiv. apply (Rmult_eq_reg_l (x i - x j)); [|exact Z].
    field_simplify; [|exact Z]. lra.
  Qed.

  (** The matrix with the negative sum trick, from any multiple [c] of the weights. *)
  Variable c : nat -> R.
  Variable K : R.
  Hypothesis HK : K <> 0.
  Hypothesis Hc : forall i, (i < N)%nat -> W i = K * c i.
  Variable M : nat -> nat -> R.
  Hypothesis Moff : forall i j, (i < N)%nat -> (j < N)%nat -> i <> j -> M i j = c i / c j / (x i - x j).
  Hypothesis Mdiag : forall i, (i < N)%nat -> sumf N (M i) = 0.

  Theorem bary_exact p i d : ispoly N p -> (i < N)%nat -> is_derive p (x i) d ->
    sumf N (fun j => M i j * p (x j)) = d.
  Proof.
    intros Hp Hi Hd.
    assert (Cn : forall j, (j < N)%nat -> c j <> 0).
    { intros j Hj A. apply (W_neq N x D j Hj). rewrite Hc, A by exact Hj. ring. }
    assert (Q : exists q : nat -> R, forall j, (j < N)%nat -> is_derive (others j) (x i) (q j)).
    { exists (fun j => Derive (others j) (x i)). intros j Hj. apply Derive_correct.
      destruct (ispoly_der N (others j) (others_poly N x j Hj)) as [g [_ Hg]]. exists (g (x i)). apply Hg. }
    destruct Q as [q Hq].
    assert (G : forall p d, ispoly N p -> is_derive p (x i) d -> sumf N (fun j => p (x j) / W j * q j) = d).
    { intros p0 d0 Hp0 Hd0. apply (is_derive_eq p0 (x i)); [|exact Hd0].
      eapply (is_derive_ext (fun y => sumf N (fun j => p0 (x j) / W j * others j y))).
      - intros y. cbn. symmetry. apply (lagrange N x D p0 Hp0).
      - apply (is_derive_sumf N (fun j y => p0 (x j) / W j * others j y) (fun j => p0 (x j) / W j * q j)).
        intros j Hj. apply (is_derive_scal' (p0 (x j) / W j) (others j)). auto. }
    assert (P1 : ispoly N (fun _ => 1)) by (destruct N; [lia|apply ispoly_const]).
    assert (G1 := G (fun _ => 1) 0 P1 (is_derive_const 1 (x i))). cbn in G1.
    assert (Off : forall j, (j < N)%nat -> i <> j -> q j / W j = M i j).
    { intros j Hj A. rewrite (others_der_neq i j (q j)) by auto. rewrite Moff by auto. rewrite !Hc by auto.
      assert (x i - x j <> 0) by (intros B; apply A, D; auto; lra). field. auto. }
    assert (Dia : q i / W i = M i i).
    { assert (S : sumf N (fun j => 1 / W j * q j + -1 * M i j) = 0).
      { rewrite sumf_plus, sumf_scal, G1, Mdiag by exact Hi. ring. }
      rewrite (sumf_one N _ i Hi) in S.
      - replace (q i / W i) with (1 / W i * q i) by (field; now apply W_neq). lra.
      - intros k Hk A. rewrite <- Off by auto. field. now apply W_neq. }
    rewrite <- (G p d Hp Hd). apply sumf_ext. intros j Hj.
    destruct (Nat.eq_dec i j) as [<-|A]; [rewrite <- Dia|rewrite <- Off by auto]; field; now apply W_neq.
  Qed.
End Bary.

(** ** Chebyshev polynomials of the second kind *)
Fixpoint Vp (k : nat) (x : R) : R * R :=   (* (V k, V (k+1)) *)
  match k with O => (0, 1) | S k => let '(u, v) := Vp k x in (v, 2 * x * v - u) end.
Definition V k x := fst (Vp k x).
Lemma Vp_snd k x : snd (Vp k x) = V (S k) x.
Proof. unfold V. cbn. destruct (Vp k x). reflexivity. Qed.
Lemma V_SS k x : V (S (S k)) x = 2 * x * V (S k) x - V k x.
Proof. unfold V. cbn. destruct (Vp k x). reflexivity. Qed.
Lemma V_ind (P : nat -> Prop) : P O -> P 1%nat -> (forall k, P k -> P (S k) -> P (S (S k))) -> forall k, P k.
Proof. intros H0 H1 H k. assert (P k /\ P (S k)); [|tauto]. induction k; [tauto|]. destruct IHk. auto. Qed.
Lemma V_poly k : ispoly k (V k).
Proof.
  induction k as [| |k IH IH1] using V_ind.
  - exact (ispoly_0 0).
  - exact (ispoly_const 0 1).
  - apply (ispoly_ext _ (fun x => (2 * x + 0) * V (S k) x + -1 * V k x)); [intros; rewrite V_SS; ring|].
    apply ispoly_add; [now apply ispoly_lin|]. apply (ispoly_le k); [lia|]. now apply ispoly_scal.
Qed.
Lemma V_sin k t : V k (cos t) * sin t = sin (INR k * t).
Proof.
  induction k as [| |k IH IH1] using V_ind.
  - unfold V. cbn. rewrite (Rmult_0_l t), sin_0. ring.
  - unfold V. cbn. rewrite (Rmult_1_l t). ring.
  - rewrite V_SS. replace ((2 * cos t * V (S k) (cos t) - V k (cos t)) * sin t)
      with (2 * cos t * (V (S k) (cos t) * sin t) - V k (cos t) * sin t) by ring.
    rewrite IH, IH1. replace (INR k * t) with (INR (S k) * t - t) by (rewrite S_INR; ring).
    replace (INR (S (S k)) * t) with (INR (S k) * t + t) by (rewrite (S_INR (S k)); ring).
    rewrite sin_minus, sin_plus. ring.
Qed.
Lemma V_1 k : V k 1 = INR k.
Proof.
  induction k as [| |k IH IH1] using V_ind; [reflexivity|reflexivity|]. rewrite V_SS, IH, IH1, !S_INR. ring.
Qed.
Lemma V_m1 k : V k (-1) = - (-1) ^ k * INR k.
Proof.
  induction k as [| |k IH IH1] using V_ind; [unfold V; cbn; ring|unfold V; cbn; ring|].
  rewrite V_SS, IH, IH1, !S_INR. cbn [pow]. ring.
Qed.

(** ** The nodes *)
Definition node (n j : nat) : R := - cos (INR j * PI / INR n).

Lemma cos_nPI j : cos (INR j * PI) = (-1) ^ j.
Proof.
  induction j; [cbn; rewrite Rmult_0_l; apply cos_0|]. rewrite S_INR, Rmult_plus_distr_r, Rmult_1_l, neg_cos, IHj. cbn. ring.
Qed.
Lemma sin_nPI j : sin (INR j * PI) = 0.
Proof.
  induction j; [cbn; rewrite Rmult_0_l; apply sin_0|]. rewrite S_INR, Rmult_plus_distr_r, Rmult_1_l, neg_sin, IHj. ring.
Qed.
Lemma node_angle n j : (0 < n)%nat -> (j <= n)%nat -> 0 <= INR j * PI / INR n <= PI.
Proof.
  intros Hn Hj. assert (0 < INR n) by (apply lt_0_INR; lia). assert (INR j <= INR n) by (apply le_INR; lia).
  assert (0 <= INR j) by apply pos_INR. assert (P := PI_RGT_0). split.
  - apply Rmult_le_pos; [nra|]. left. now apply Rinv_0_lt_compat.
  - apply (Rmult_le_reg_r (INR n)); [lra|]. unfold Rdiv. rewrite Rmult_assoc, Rinv_l by lra. nra.
Qed.
Lemma node_lt n i j : (0 < n)%nat -> (i < j)%nat -> (j <= n)%nat -> node n i < node n j.
Proof.
  intros Hn Hij Hj. unfold node. apply Ropp_lt_contravar. assert (0 < INR n) by (apply lt_0_INR; lia).
  destruct (node_angle n i Hn ltac:(lia)), (node_angle n j Hn Hj). apply cos_decreasing_1; auto.
  apply (Rmult_lt_reg_r (INR n)); [lra|]. unfold Rdiv. rewrite !Rmult_assoc, Rinv_l by lra.
  assert (INR i < INR j) by (apply lt_INR; lia). assert (P := PI_RGT_0). nra.
Qed.
Lemma node_inj n i j : (0 < n)%nat -> (i <= n)%nat -> (j <= n)%nat -> node n i = node n j -> i = j.
Proof.
  intros Hn Hi Hj E. destruct (lt_eq_lt_dec i j) as [[A|A]|A]; [|exact A|].
  - assert (Q := node_lt n i j Hn A Hj). lra.
  - assert (Q := node_lt n j i Hn A Hi). lra.
Qed.
Lemma node_sym n j : (0 < n)%nat -> (j <= n)%nat -> node n (n - j) = - node n j.
Proof.
  intros Hn Hj. unfold node. assert (INR n <> 0) by (apply not_0_INR; lia). rewrite minus_INR by exact Hj.
  replace ((INR n - INR j) * PI / INR n) with (PI - INR j * PI / INR n) by (field; auto).
  rewrite cos_minus, cos_PI, sin_PI. ring.
Qed.
Lemma chebpts2_node n j : (0 < n)%nat -> (j <= n)%nat -> nth j (chebpts2 (n + 1)) 0 = node n j.
Proof.
  intros Hn Hj. unfold chebpts2.
  rewrite (nth_indep _ 0 (cos (linspace (- PI) 0 (n + 1) 0))) by (rewrite map_length, seq_length; lia).
  rewrite (map_nth (fun j => cos (linspace (- PI) 0 (n + 1) j))), seq_nth by lia.
  cbn [Nat.add]. unfold linspace, node. replace (n + 1 - 1)%nat with n by lia.
  assert (INR n <> 0) by (apply not_0_INR; lia).
  destruct (Nat.eqb_spec j n) as [->|Q].
  - replace (INR n * PI / INR n) with PI by (field; auto). rewrite cos_0, cos_PI. ring.
  - replace (INR j * ((0 - - PI) / INR n) + - PI) with (- (PI - INR j * PI / INR n)) by (field; auto).
    rewrite cos_neg, cos_minus, cos_PI, sin_PI. ring.
Qed.

Definition cheb_grid (n : nat) (a b : R) : list R := map (fun x => a + (b - a) * (x + 1) / 2) (chebpts2 (n + 1)).
Lemma cheb_grid_len n a b : length (cheb_grid n a b) = S n.
Proof. unfold cheb_grid, chebpts2. rewrite !map_length, seq_length. lia. Qed.
Lemma cheb_grid_nth n a b j : (0 < n)%nat -> (j <= n)%nat -> nth j (cheb_grid n a b) 0 = a + (b - a) * (node n j + 1) / 2.
Proof.
  intros Hn Hj. unfold cheb_grid. assert (L : length (chebpts2 (n + 1)) = S n) by (unfold chebpts2; rewrite map_length, seq_length; lia).
  rewrite (nth_indep _ 0 (a + (b - a) * (0 + 1) / 2)) by (rewrite map_length, L; lia).
  rewrite (map_nth (fun x => a + (b - a) * (x + 1) / 2)), chebpts2_node by auto. reflexivity.
Qed.
Lemma construct_cheb_ok n a b : (2 <= n)%nat -> construct_x_cheb (PInt (Z.of_nat n)) a b = inr (cheb_grid n a b).
Proof.
  intros H. cbn. replace (Z.of_nat n <? 2)%Z with false by (symmetry; apply Z.ltb_ge; lia). now rewrite Nat2Z.id.
Qed.

(** C51. *)
Theorem C51_chebyshev_grid (n : nat) (a b : R) : (2 <= n)%nat ->
  exists x, construct_x_cheb (PInt (Z.of_nat n)) a b = inr x /\ length x = S n /\ nth 0 x 0 = a /\ nth n x 0 = b /\
    (forall j, (j <= n)%nat -> nth j x 0 = (a + b) / 2 - (b - a) / 2 * cos (INR j * PI / INR n)) /\
    (forall j, (j <= n)%nat -> nth j x 0 + nth (n - j) x 0 = a + b) /\
    (a < b -> forall i j, (i < j)%nat -> (j <= n)%nat -> nth i x 0 < nth j x 0).
Proof.
  intros H. exists (cheb_grid n a b). rewrite construct_cheb_ok, cheb_grid_len by exact H.
  assert (INR n <> 0) by (apply not_0_INR; lia).
  repeat split; intros; rewrite ?cheb_grid_nth by lia.
  - unfold node. cbn. replace (0 * PI / INR n) with 0 by (field; auto). rewrite cos_0. field.
  - unfold node. replace (INR n * PI / INR n) with PI by (field; auto). rewrite cos_PI. field.
  - unfold node. field.
  - rewrite node_sym by lia. field.
  - assert (Q := node_lt n i j ltac:(lia) ltac:(assumption) ltac:(assumption)). nra.
Qed.
Theorem C51_errors (v : pyval R) (a b : R) :
  construct_x_cheb v a b = inl TypeError <-> (forall z, v <> PInt z) /\ (forall t, v <> PBool t).
Proof.
  split.
  - intros E. split; intros z ->; cbn in E; destruct (_ <? 2)%Z; discriminate.
  - intros [H1 H2]. destruct v; try reflexivity; exfalso; [eapply H1|eapply H2]; reflexivity.
Qed.
Theorem C51_range (v : pyval R) (a b : R) :
  construct_x_cheb v a b = inl ValueError <-> (exists t, v = PBool t) \/ exists z, v = PInt z /\ (z < 2)%Z.
Proof.
  split.
  - destruct v as [z|t|f|]; cbn; intros E; try discriminate.
    + right. exists z. split; [reflexivity|]. destruct (Z.ltb_spec z 2); [assumption|discriminate].
    + left. now exists t.
  - intros [[t ->]|[z [-> H]]]; cbn; [destruct t; reflexivity|]. now rewrite (proj2 (Z.ltb_lt _ _) H).
Qed.
Example C51_case : exists x, construct_x_cheb (PInt 2) 1 5 = inr x /\ length x = 3%nat /\ nth 1 x 0 = 3.
Proof.
  destruct (C51_chebyshev_grid 2 1 5 (le_n 2)) as [x [E [L [_ [_ [_ [S _]]]]]]]. exists x. split; [exact E|]. split; [exact L|].
  assert (Q := S 1%nat ltac:(lia)). cbn in Q. lra.
Qed.

(** ** Barycentric weights of the nodes *)
Lemma node_cos n j : (0 < n)%nat -> node n j = cos (PI - INR j * PI / INR n).
Proof. intros H. unfold node. rewrite cos_minus, cos_PI, sin_PI. ring. Qed.

Section Weights.
  Variable n : nat.
  Hypothesis Hn : (0 < n)%nat.
  Let P (x : R) : R := (1 - x * x) * V n x.

  Lemma P_poly : ispoly (n + 2) P.
  Proof.
    apply (ispoly_ext _ (fun x => (1 * x + 1) * ((-1 * x + 1) * V n x))); [intros; unfold P; ring|].
    replace (n + 2)%nat with (S (S n)) by lia. apply ispoly_lin, ispoly_lin, V_poly.
  Qed.
  Lemma P_cos t : P (cos t) = sin t * sin (INR n * t).
  Proof.
    unfold P. rewrite <- V_sin. replace (1 - cos t * cos t) with (sin t * sin t); [ring|].
    assert (Q := sin2_cos2 t). unfold Rsqr in Q. lra.
  Qed.
  Lemma n_angle j : INR n * (PI - INR j * PI / INR n) = INR n * PI - INR j * PI.
  Proof. assert (INR n <> 0) by (apply not_0_INR; lia). field. auto. Qed.
  Lemma P_node j : (j <= n)%nat -> P (node n j) = 0.
  Proof.
    intros Hj. rewrite node_cos, P_cos, n_angle by exact Hn.
    rewrite (sin_minus (INR n * PI)), !sin_nPI. ring.
  Qed.

  Lemma P_der j d : (j <= n)%nat -> is_derive P (node n j) d -> d = - INR n * (-1) ^ n * cheb_c n j.
  Proof.
    intros Hj Hd. destruct (ispoly_der n (V n) (V_poly n)) as [v [_ Hv]].
    assert (Hd' : is_derive P (node n j) (- 2 * node n j * V n (node n j) + (1 - node n j * node n j) * v (node n j))).
    { apply (is_derive_mult (fun x => 1 - x * x) (V n)); [apply is_derive_parabola|apply Hv]. }
    assert (E := is_derive_eq _ _ _ _ Hd Hd'). assert (N0 : INR n <> 0) by (apply not_0_INR; lia).
    assert (Sq : forall k, (-1) ^ k * (-1) ^ k = 1).
    { intros k. rewrite <- Rpow_mult_distr. replace (-1 * -1) with 1 by ring. apply pow1. }
    unfold cheb_c. destruct (Nat.eqb_spec j 0) as [->|Q0]; [|destruct (Nat.eqb_spec j n) as [->|Qn]].
    - replace (node n 0) with (-1) in E. 2:{ unfold node. cbn. replace (0 * PI / INR n) with 0 by (field; auto). now rewrite cos_0. }
      rewrite V_m1 in E. cbn [orb pow]. lra.
    - replace (node n n) with 1 in E. 2:{ unfold node. replace (INR n * PI / INR n) with PI by (field; auto). rewrite cos_PI. ring. }
      rewrite V_1 in E. cbn [orb]. assert (Q := Sq n). replace (- INR n * (-1) ^ n * (2 * (-1) ^ n)) with (- INR n * 2 * ((-1) ^ n * (-1) ^ n)) by ring.
      rewrite Q. lra.
    - cbn [orb]. set (t := PI - INR j * PI / INR n).
      assert (St : 0 < sin t).
      { assert (A := node_angle n j Hn Hj). assert (0 < INR n) by (apply lt_0_INR; lia).
        assert (0 < INR j) by (apply lt_0_INR; lia). assert (INR j < INR n) by (apply lt_INR; lia). assert (PP := PI_RGT_0).
        assert (X : 0 < INR j * PI / INR n). { apply Rdiv_lt_0_compat; nra. }
        assert (Y : INR j * PI / INR n < PI).
        { apply (Rmult_lt_reg_r (INR n)); [lra|]. unfold Rdiv. rewrite Rmult_assoc, Rinv_l by lra. nra. }
        unfold t. apply sin_gt_0; lra. }
      assert (Hn' : node n j = cos t) by (now apply node_cos). rewrite Hn' in Hd.
      assert (L : is_derive (fun y => P (cos y)) t (- sin t * d)).
      { apply (is_derive_comp P cos t d (- sin t)); [exact Hd|apply is_derive_cos']. }
      assert (M : is_derive (fun y => sin y * sin (INR n * y)) t (cos t * sin (INR n * t) + sin t * (INR n * cos (INR n * t)))).
      { apply (is_derive_mult sin (fun y => sin (INR n * y)) t); [apply is_derive_sin'|].
        apply (is_derive_comp sin (fun y => INR n * y) t (cos (INR n * t)) (INR n)); [apply is_derive_sin'|].
        apply is_derive_dil. }
      assert (F : - sin t * d = cos t * sin (INR n * t) + sin t * (INR n * cos (INR n * t))).
      { apply (is_derive_eq (fun y => sin y * sin (INR n * y)) t); [|exact M].
        eapply is_derive_ext; [|exact L]. intros y. cbn. apply P_cos. }
      replace (INR n * t) with (INR n * PI - INR j * PI) in F by (symmetry; apply n_angle).
      rewrite (sin_minus (INR n * PI)), (cos_minus (INR n * PI)), !sin_nPI, !cos_nPI in F.
      apply (Rmult_eq_reg_l (- sin t)); [|lra]. rewrite F. ring.
  Qed.

  Theorem cheb_weights : exists K, K <> 0 /\ forall i, (i < S n)%nat -> W (S n) (node n) i = K * cheb_c n i.
  Proof.
    destruct P_poly as [l [Hl E]].
    destruct (peval_roots (node n) (S n) l) as [q [Hq Q]].
    { intros i j Hi Hj. apply node_inj; lia. }
    { intros i Hi. rewrite <- E. apply P_node. lia. }
    assert (Kq : exists k, forall y, peval q y = k).
    { destruct q as [|k [|]]; [exists 0; reflexivity| |cbn in Hq; lia]. exists k. intros y. cbn. ring. }
    destruct Kq as [k Hk].
    assert (G : forall i, (i < S n)%nat -> - INR n * (-1) ^ n * cheb_c n i = k * W (S n) (node n) i).
    { intros i Hi. symmetry. apply (P_der i); [lia|].
      destruct (ispoly_der (S n) (others (S n) (node n) i) (others_poly _ _ i Hi)) as [g [_ Hg]].
      apply (is_derive_ext (fun y => k * ((y - node n i) * others (S n) (node n) i y))).
      - intros y. match goal with |- ?l = ?r => change (@eq R l r) end. rewrite others_full by exact Hi. rewrite E, Q, Hk. ring.
      - replace (W (S n) (node n) i) with (1 * others (S n) (node n) i (node n i) + (node n i - node n i) * g (node n i)) by (unfold W; ring).
        apply is_derive_scal'. apply (is_derive_mult (fun y => y - node n i) (others (S n) (node n) i)); [apply is_derive_shift|apply Hg]. }
    assert (N0 : INR n <> 0) by (apply not_0_INR; lia).
    assert (S1 : (-1) ^ n <> 0) by (apply pow_nonzero; lra).
    assert (K0 : k <> 0).
    { intros ->. assert (A := G 0%nat ltac:(lia)). unfold cheb_c in A. cbn in A. rewrite Rmult_0_l in A.
      apply Rmult_integral in A. destruct A as [A|A]; [|lra]. apply Rmult_integral in A. destruct A; [lra|auto]. }
    exists (- INR n * (-1) ^ n / k). split.
    - unfold Rdiv. repeat apply Rmult_integral_contrapositive_currified; auto; try lra. now apply Rinv_neq_0_compat.
    - intros i Hi. apply (Rmult_eq_reg_l k); [|exact K0]. rewrite <- G by exact Hi. field. exact K0.
  Qed.
End Weights.

Lemma prodf_skip N i al : (i < N)%nat -> al * prodf N (fun k => if Nat.eqb k i then 1 else al) = al ^ N.
Proof.
  intros Hi.
  assert (G : forall m, (if (i <? m)%nat then al else 1) * prodf m (fun k => if Nat.eqb k i then 1 else al) = al ^ m).
  { induction m as [|m IH]; [cbn; ring|]. cbn [prodf pow]. rewrite <- IH. destruct (Nat.eqb_spec m i) as [->|Q].
    - rewrite Nat.ltb_irrefl. replace (i <? S i)%nat with true by (symmetry; apply Nat.ltb_lt; lia). ring.
    - replace (i <? S m)%nat with (i <? m)%nat; [ring|]. destruct (Nat.ltb_spec i m), (Nat.ltb_spec i (S m)); try reflexivity; lia. }
  rewrite <- (G N), (proj2 (Nat.ltb_lt i N) Hi). reflexivity.
Qed.

Lemma rsum_sumf n f : rsum n f = sumf n f.
Proof. induction n; cbn; congruence. Qed.
Lemma cheb_c_neq n i : cheb_c n i <> 0.
Proof. unfold cheb_c. apply Rmult_integral_contrapositive_currified; [destruct (_ || _); lra|apply pow_nonzero; lra]. Qed.

(** The matrix of the code differentiates polynomials of degree at most [n] exactly. *)
Lemma cheb_exact (n : nat) (a b : R) p i d : (0 < n)%nat -> a <> b -> ispoly (S n) p -> (i <= n)%nat ->
  let x := cheb_grid n a b in
  is_derive p (nth i x 0) d -> rsum (S n) (fun j => cheb_m n x i j * p (nth j x 0)) = d.
Proof.
  intros Hn Hab Hp Hi x Hd. rewrite rsum_sumf.
  destruct (cheb_weights n Hn) as [K [HK HW]]. set (al := (b - a) / 2).
  assert (Hal : al <> 0) by (unfold al; lra).
  assert (X : forall k, (k < S n)%nat -> nth k x 0 = a + al * (node n k + 1)).
  { intros k Hk. unfold x. rewrite cheb_grid_nth by lia. unfold al. field. }
  assert (XD : forall i j, (i < S n)%nat -> (j < S n)%nat -> nth i x 0 = nth j x 0 -> i = j).
  { intros k l Hk Hl E. rewrite !X in E by auto. apply (node_inj n); try lia. apply (Rmult_eq_reg_l al); [lra|exact Hal]. }
  apply (bary_exact (S n) (fun j => nth j x 0) XD (cheb_c n) (al ^ n * K)).
  - apply Rmult_integral_contrapositive_currified; [now apply pow_nonzero|exact HK].
  - intros k Hk. rewrite Rmult_assoc, <- HW by exact Hk. apply (Rmult_eq_reg_l al); [|exact Hal].
    replace (al * (al ^ n * W (S n) (node n) k)) with (al ^ S n * W (S n) (node n) k) by (cbn; ring).
    rewrite <- (prodf_skip (S n) k al Hk), Rmult_assoc. f_equal. unfold W, others. rewrite <- prodf_mult.
    apply prodf_ext. intros l Hl. destruct (Nat.eqb l k); [ring|]. rewrite !X by auto. ring.
  - intros k l Hk Hl Q. unfold cheb_m, cheb_m0. replace (Nat.eqb k l) with false by (symmetry; now apply Nat.eqb_neq).
    rewrite Rplus_0_r, Rminus_0_r. assert (nth k x 0 - nth l x 0 <> 0) by (intros A; apply Q, XD; auto; lra).
    field. repeat split; try assumption; apply cheb_c_neq.
  - intros k Hk. unfold cheb_m. 
    rewrite (sumf_ext _ _ (fun j => cheb_m0 n x k j + -1 * (if Nat.eqb k j then rsum (n + 1) (cheb_m0 n x k) else 0))) by (intros; ring).
    rewrite sumf_plus, sumf_scal. rewrite (sumf_one (S n) (fun j => if Nat.eqb k j then _ else 0) k Hk).
    + cbn beta. rewrite (Nat.eqb_refl k). change rsum with sumf. replace (n + 1)%nat with (S n) by lia. ring.
    + intros l Hl Q. replace (Nat.eqb k l) with false; [reflexivity|]. symmetry. apply Nat.eqb_neq. auto.
  - exact Hp.
  - lia.
  - exact Hd.
Qed.

(** ** Powers of the matrix *)
Definition mvec (m : marr) (v : nat -> R) (i : nat) : R := rsum (m_cols m) (fun k => m_at m i k * v k).
Lemma mvec_ext m v w : (forall k, (k < m_cols m)%nat -> v k = w k) -> forall i, mvec m v i = mvec m w i.
Proof. intros H i. unfold mvec. change rsum with sumf. apply sumf_ext. intros k Hk. now rewrite H. Qed.
Lemma sumf_swap n m f : sumf n (fun i => sumf m (f i)) = sumf m (fun j => sumf n (fun i => f i j)).
Proof.
  induction n as [|n IH]; cbn; [symmetry; now apply sumf_zero|]. rewrite IH. symmetry. apply sumf_plus.
Qed.
Lemma mvec_mmul a b v i : mvec (mmul a b) v i = mvec a (mvec b v) i.
Proof.
  unfold mvec, mmul. cbn [m_cols m_at]. change rsum with sumf.
  rewrite (sumf_ext _ _ (fun k => sumf (m_cols a) (fun l => m_at a i l * m_at b l k * v k))).
  2:{ intros k Hk. rewrite Rmult_comm, <- sumf_scal. apply sumf_ext. intros; ring. }
  rewrite sumf_swap. apply sumf_ext. intros l Hl. rewrite <- sumf_scal. apply sumf_ext. intros; ring.
Qed.

Lemma mpow_size d k n : m_rows d = n -> m_cols d = n -> m_rows (mpow d k) = n /\ m_cols (mpow d k) = n.
Proof. intros Hr Hc. induction k; [tauto|]. cbn. tauto. Qed.

Lemma cheb_pow_exact (n : nat) (a b : R) k : (0 < n)%nat -> a <> b ->
  let x := cheb_grid n a b in let d := mk_marr (S n) (S n) (cheb_m n x) in
  forall p i, ispoly (S n) p -> (i <= n)%nat ->
  mvec (mpow d k) (fun j => p (nth j x 0)) i = Derive_n p (S k) (nth i x 0).
Proof.
  intros Hn Hab x d. induction k as [|k IH]; intros p i Hp Hi.
  - cbn [mpow Derive_n]. destruct (ispoly_der _ _ Hp) as [g [_ Hg]]. unfold mvec. cbn [d m_cols m_at].
    change (Derive (fun x => p x) (nth i x 0)) with (Derive p (nth i x 0)).
    apply (cheb_exact n a b p i); auto. apply Derive_correct. exists (g (nth i x 0)). apply Hg.
  - cbn [mpow]. rewrite mvec_mmul. destruct (ispoly_der _ _ Hp) as [g [Gp Hg]].
    rewrite (mvec_ext _ _ (fun j => g (nth j x 0))).
    + rewrite IH; [|apply (ispoly_le _ _ _ (Nat.le_sub_l (S n) 1) Gp)|exact Hi].
      rewrite <- (Derive_n_ext (Derive p) g) by (intros t; apply is_derive_unique, Hg).
      change (Derive p) with (Derive_n p 1). rewrite (Derive_n_comp p (S k) 1).
      replace (S k + 1)%nat with (S (S k)) by lia. reflexivity.
    + destruct (mpow_size d k (S n) eq_refl eq_refl) as [_ ->]. intros j Hj. unfold mvec. cbn [d m_cols m_at].
      apply (cheb_exact n a b p j); auto; lia.
Qed.

(** C52: for every polynomial of degree at most [n] (at most [n + 1] coefficients) and every order, [dx_cheb] with the
    matrix of [construct_x_dx_cheb] returns the exact derivative on the grid; also column by column. *)
Theorem C52_chebyshev_derivatives (n : nat) (a b : R) : (2 <= n)%nat -> a <> b ->
  exists x D, construct_x_dx_cheb (PInt (Z.of_nat n)) a b = inr (x, D) /\ length x = S n /\
    (forall (p : list R) k, (length p <= S n)%nat ->
       exists v, dx_cheb (mk_marr (S n) (S n) D) (U1 (S n) (fun j => peval p (nth j x 0))) (PInt (Z.of_nat k)) = inr (U1 (S n) v) /\
       forall i, (i <= n)%nat -> v i = Derive_n (peval p) k (nth i x 0)) /\
    (forall m (p : nat -> list R) k, (forall c, (length (p c) <= S n)%nat) ->
       exists v, dx_cheb (mk_marr (S n) (S n) D) (U2 (mk_marr (S n) m (fun j c => peval (p c) (nth j x 0)))) (PInt (Z.of_nat k))
                 = inr (U2 (mk_marr (S n) m v)) /\
       forall i c, (i <= n)%nat -> v i c = Derive_n (peval (p c)) k (nth i x 0)).
Proof.
  intros Hn Hab. unfold construct_x_dx_cheb. rewrite construct_cheb_ok by exact Hn.
  exists (cheb_grid n a b). rewrite cheb_grid_len. replace (S n - 1)%nat with n by lia.
  set (x := cheb_grid n a b). exists (cheb_m n x). split; [reflexivity|]. split; [reflexivity|].
  set (d := mk_marr (S n) (S n) (cheb_m n x)).
  assert (O : forall k : nat, check_order (PInt (Z.of_nat k)) = inr k).
  { intros k. cbn. replace (Z.of_nat k <? 0)%Z with false by (symmetry; apply Z.ltb_ge; lia). now rewrite Nat2Z.id. }
  assert (Hn' : (0 < n)%nat) by lia.
  split.
  - intros p k Hp. assert (Hp' : ispoly (S n) (peval p)) by (exists p; split; [exact Hp|reflexivity]).
    assert (G := fun k i => cheb_pow_exact n a b k Hn' Hab (peval p) i Hp'). fold x in G. cbv zeta in G. fold d in G.
    unfold dx_cheb. rewrite O. destruct k as [|k].
    + eexists. split; [reflexivity|]. reflexivity.
    + cbn [d m_rows m_cols]. rewrite Nat.eqb_refl. cbn [negb].
      exists (mvec (mpow d k) (fun j => peval p (nth j x 0))). split; [|intros i Hi; exact (G k i Hi)].
      destruct k as [|k]; cbn [matmul]; fold d.
      * cbn [d m_rows m_cols]. rewrite Nat.eqb_refl. reflexivity.
      * destruct (mpow_size d (S k) (S n) eq_refl eq_refl) as [-> Ec]. rewrite Ec, Nat.eqb_refl. unfold mvec. rewrite Ec. reflexivity.
  - intros m p k Hp.
    assert (G := fun k c i => cheb_pow_exact n a b k Hn' Hab (peval (p c)) i (ex_intro _ (p c) (conj (Hp c) (fun y => eq_refl)))).
    fold x in G. cbv zeta in G. fold d in G.
    unfold dx_cheb. rewrite O. destruct k as [|k].
    + eexists. split; [reflexivity|]. reflexivity.
    + cbn [d m_rows m_cols]. rewrite Nat.eqb_refl. cbn [negb].
      exists (fun i c => mvec (mpow d k) (fun j => peval (p c) (nth j x 0)) i). split; [|intros i c Hi; exact (G k c i Hi)].
      destruct k as [|k]; cbn [matmul]; fold d.
      * cbn [d m_rows m_cols]. rewrite Nat.eqb_refl. reflexivity.
      * destruct (mpow_size d (S k) (S n) eq_refl eq_refl) as [Er Ec]. unfold mmul, mvec. cbn [m_rows m_cols m_at].
        rewrite Er, Ec, Nat.eqb_refl. reflexivity.
Qed.
(** In particular constants are mapped to zero, also by the matrix itself. *)
Example C52_case : exists x D v, construct_x_dx_cheb (PInt 2) 0 1 = inr (x, D) /\
  dx_cheb (mk_marr 3 3 D) (U1 3 (fun j => 7 + nth j x 0 * nth j x 0)) (PInt 1) = inr (U1 3 v) /\ v 1%nat = 1.
Proof.
  destruct (C52_chebyshev_derivatives 2 0 1 (le_n 2) ltac:(lra)) as [x [D [E [_ [H _]]]]].
  destruct (H [7; 0; 1] 1%nat ltac:(cbn; lia)) as [v [Ev Hv]]. exists x, D, v. split; [exact E|]. split.
  - rewrite <- Ev. do 2 f_equal. apply FunctionalExtensionality.functional_extensionality. intros j. cbn. ring.
  - rewrite Hv by lia. cbn [Derive_n]. rewrite (is_derive_unique (fun y => peval [7; 0; 1] y) _ _ (peval_der _ _)). cbn.
    destruct (C51_chebyshev_grid 2 0 1 (le_n 2)) as [x' [E' [_ [_ [_ [_ [S _]]]]]]].
    unfold construct_x_dx_cheb in E. change (Z.of_nat 2) with 2%Z in E. change (Z.of_nat 2) with 2%Z in E'. rewrite E' in E. injection E as <- _.
    assert (Q := S 1%nat ltac:(lia)). cbn in Q. lra.
Qed.

Print Assumptions C51_chebyshev_grid.
Print Assumptions C51_errors.
Print Assumptions C52_chebyshev_derivatives.
