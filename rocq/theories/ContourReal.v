(** * Contour means of entire functions

    Taylor remainder of the complex exponential, sums of powers of the contour nodes, and the
    distance between the contour mean used by the ETD schemes and the exact function. *)

From Coq Require Import ZArith Reals Lra Lia FunctionalExtensionality Arith.
From Coquelicot Require Import Coquelicot.
From Verif Require Import Scalars Arrays CInst SpecPhi.
Local Open Scope R_scope.

(** ** psi in terms of phi *)
Lemma C2_neq (x : R) : x <> 0 -> RtoC x <> 0.
Proof. intros H E. apply H. injection E; auto. Qed.

Lemma psi1_phi (z : C) : z <> 0 -> psi1 Cops z = phi 1 z.
Proof.
  intros Hz. assert (H := phi_rec 0 z). change (phi 0 z) with (Cexp z) in H. cbn [fact INR] in H.
  unfold psi1. csimp. ceq. replace (/ 1)%R with 1 in H by field.
  change (fst z, snd z) with z in *.
  replace (Cexp z - RtoC (IZR 1))%C with (z * phi 1 z)%C by exact H. field. exact Hz.
Qed.

Lemma psi2_phi (z : C) : z <> 0 -> psi2 Cops z = (2 * phi 2 z)%C.
Proof.
  intros Hz. assert (H := phi_rec 0 z). assert (H2 := phi_rec 1 z). change (phi 0 z) with (Cexp z) in H. 
  cbn [fact INR Nat.add Nat.mul] in H, H2. replace (/ 1)%R with 1 in * by field.
  unfold psi2. csimp. ceq. 
  assert (E : (Cexp z - RtoC (IZR 1) - z = z * (z * phi 2 z))%C).
  { rewrite H2. replace (Cexp z - RtoC (IZR 1))%C with (z * phi 1 z)%C by exact H. ring. }
  rewrite E. field. exact Hz.
Qed.

Lemma psi3_phi (z : C) : z <> 0 -> psi3 Cops z = (6 * phi 3 z)%C.
Proof.
  intros Hz. assert (H := phi_rec 0 z). assert (H2 := phi_rec 1 z). assert (H3 := phi_rec 2 z).
  change (phi 0 z) with (Cexp z) in H. 
  cbn [fact INR Nat.add Nat.mul] in H, H2, H3. replace (/ 1)%R with 1 in * by field.
  replace (/ (1 + 1))%R with (1/2) in * by field.
  unfold psi3. csimp. ceq. 
  assert (E2 : (RtoC (IZR 2) <> 0)%C) by (apply C2_neq; lra).
  assert (E : (Cexp z - RtoC (IZR 1) - z - z * z / RtoC (IZR 2) = z * (z * (z * phi 3 z)))%C).
  { rewrite H3. rewrite RtoC_div by lra.
    replace (z * (phi 2 z - RtoC 1 / RtoC 2))%C with (z * phi 2 z - z * (RtoC 1 / RtoC 2))%C by ring.
    rewrite H2.
    replace (z * (phi 1 z - RtoC 1 - z * (RtoC 1 / RtoC 2)))%C with (z * phi 1 z - z - z * z / RtoC 2)%C.
    - rewrite H. reflexivity.
    - unfold Cdiv. ring. }
  rewrite E. field. exact Hz.
Qed.

(** ** Moduli *)
Lemma Cmod_Cexp z : Cmod (Cexp z) = exp (fst z).
Proof.
  unfold Cmod, Cexp; cbn [fst snd].
  replace ((exp (fst z) * cos (snd z)) ^ 2 + (exp (fst z) * sin (snd z)) ^ 2)
    with (exp (fst z) * exp (fst z) * ((sin (snd z)) ^ 2 + cos (snd z) ^ 2)) by ring.
  replace (sin (snd z) ^ 2 + cos (snd z) ^ 2) with 1.
  - rewrite Rmult_1_r. apply sqrt_square. left. apply exp_pos.
  - rewrite <- !Rsqr_pow2. symmetry. apply sin2_cos2.
Qed.
Lemma Re_le_Cmod (z : C) : fst z <= Cmod z.
Proof. eapply Rle_trans; [apply Rle_abs|]. apply Rmax_Cmod_l || (eapply Rle_trans; [|apply Rmax_Cmod]; apply Rmax_l). Qed.
Lemma exp_mono x y : x <= y -> exp x <= exp y.
Proof. intros [H| ->]; [left; apply exp_increasing; exact H|right; reflexivity]. Qed.
Lemma Cmod_Cexp_le z : Cmod (Cexp z) <= exp (Cmod z).
Proof. rewrite Cmod_Cexp. apply exp_mono, Re_le_Cmod. Qed.

Lemma Cmod_cpow z n : Cmod (cpow z n) = Cmod z ^ n.
Proof. induction n as [|n IH]; cbn [cpow pow]; [apply Cmod_1|]. rewrite Cmod_mult, IH. reflexivity. Qed.
Lemma cpow_mult a b n : (cpow (a * b) n = cpow a n * cpow b n)%C.
Proof. induction n as [|n IH]; cbn [cpow]; [ring|]. rewrite IH. ring. Qed.
Lemma cpow_R (x : R) n : cpow (RtoC x) n = RtoC (x ^ n).
Proof. induction n as [|n IH]; cbn [cpow pow]; [reflexivity|]. rewrite IH, RtoC_mult. reflexivity. Qed.
Lemma cpow_exp w n : (cpow (Cexp w) n = Cexp (RtoC (INR n) * w))%C.
Proof.
  induction n as [|n IH]; cbn [cpow].
  - cbn [INR]. rewrite Cmult_0_l. symmetry. apply Cexp_0.
  - rewrite IH, <- Cexp_plus. f_equal. rewrite S_INR, RtoC_plus. ring.
Qed.
Lemma cpow_add z a b : cpow z (a + b) = (cpow z a * cpow z b)%C.
Proof. induction a as [|a IH]; cbn [cpow Nat.add]; [ring|]. rewrite IH. ring. Qed.

Lemma csum_norm_const n f (b : R) : (forall i, (i < n)%nat -> Cmod (f i) <= b) ->
  Cmod (csum n f) <= INR n * b.
Proof.
  induction n as [|n IH]; intros H; cbn [csum]; [rewrite Cmod_0; cbn; lra|].
  eapply Rle_trans; [apply Cmod_triangle|]. rewrite S_INR.
  assert (Cmod (csum n f) <= INR n * b) by (apply IH; intros; apply H; lia).
  assert (Cmod (f n) <= b) by (apply H; lia). lra.
Qed.

(** ** Taylor remainder of the exponential *)
Definition exp_rem (n : nat) (w : C) : C :=
  (Cexp w - csum n (fun k => cpow w k * RtoC (/ INR (fact k))))%C.

Lemma exp_rem_0_at n : exp_rem (S n) 0 = 0.
Proof.
  unfold exp_rem. rewrite Cexp_0.
  assert (H : csum (S n) (fun k => (cpow 0 k * RtoC (/ INR (fact k)))%C) = RtoC 1).
  { induction n as [|n IH]; cbn [csum].
    - cbn. replace (/ 1)%R with 1 by field. ring.
    - cbn [csum] in IH. rewrite IH. cbn [cpow]. ring. }
  rewrite H. ring.
Qed.
Lemma cpow_der k (w : C) t : is_Cder (fun t => cpow (RtoC t * w) (S k) * RtoC (/ INR (fact (S k))))%C t
  (w * (cpow (RtoC t * w) k * RtoC (/ INR (fact k))))%C.
Proof.
  apply (is_Cder_eq (fun t => cpow w (S k) * RtoC (t ^ S k / INR (fact (S k))))%C _ t
           (0 * RtoC (t ^ S k / INR (fact (S k))) + cpow w (S k) * RtoC (t ^ k / INR (fact k)))%C).
  - intros s. rewrite cpow_mult, cpow_R. unfold Rdiv. rewrite RtoC_mult. ring.
  - rewrite cpow_mult, cpow_R. unfold Rdiv. rewrite (RtoC_mult (t ^ k)). cbn [cpow]. ring.
  - apply (is_Cder_mult (fun _ => cpow w (S k)) (fun t => RtoC (t ^ S k / INR (fact (S k)))));
      [apply is_Cder_const|apply is_Cder_R, pow_der].
Qed.
Lemma is_Cder_csum n (f : nat -> R -> C) l t : (forall k, (k < n)%nat -> is_Cder (f k) t (l k)) ->
  is_Cder (fun t => csum n (fun k => f k t)) t (csum n l).
Proof.
  induction n as [|n IH]; intros H; cbn [csum]; [apply is_Cder_const|].
  apply is_Cder_plus; [apply IH; intros; apply H; lia|apply H; lia].
Qed.
Lemma csum_shift n (f : nat -> C) : csum (S n) f = (f O + csum n (fun k => f (S k)))%C.
Proof. induction n as [|n IH]; [cbn; ring|]. cbn [csum] in *. rewrite IH. ring. Qed.

Lemma exp_rem_der n (w : C) t : is_Cder (fun t => exp_rem (S n) (RtoC t * w))%C t
  (w * exp_rem n (RtoC t * w))%C.
Proof.
  apply (is_Cder_eq (fun t => Cexp (0 + RtoC t * w) +
      (-1) * (1 + csum n (fun k => cpow (RtoC t * w) (S k) * RtoC (/ INR (fact (S k))))))%C _ t
    (w * Cexp (0 + RtoC t * w) + (0 * (1 + csum n (fun k => cpow (RtoC t * w) (S k) * RtoC (/ INR (fact (S k)))))
       + (-1) * (0 + csum n (fun k => w * (cpow (RtoC t * w) k * RtoC (/ INR (fact k)))))))%C).
  - intros s. unfold exp_rem. rewrite csum_shift. cbn [cpow fact INR].
    replace (/ 1)%R with 1 by field. rewrite Cplus_0_l. ring_simplify.
    replace (RtoC (-1)) with (- RtoC 1)%C by (rewrite <- RtoC_opp; reflexivity). ring.
  - rewrite csum_scal, Cplus_0_l. unfold exp_rem.
    replace (RtoC (-1)) with (- RtoC 1)%C by (rewrite <- RtoC_opp; reflexivity). ring.
  - apply is_Cder_plus; [apply is_Cder_exp|].
    apply (is_Cder_mult (fun _ => RtoC (-1))); [apply is_Cder_const|].
    apply is_Cder_plus; [apply is_Cder_const|].
    apply (is_Cder_csum n (fun k t => cpow (RtoC t * w) (S k) * RtoC (/ INR (fact (S k))))%C).
    intros k _. apply cpow_der.
Qed.

Theorem exp_rem_bound n (w : C) : Cmod (exp_rem n w) <= Cmod w ^ n / INR (fact n) * exp (Cmod w).
Proof.
  revert w. induction n as [|n IH]; intros w.
  - unfold exp_rem. cbn [csum pow fact INR]. replace (Cexp w - 0)%C with (Cexp w) by ring.
    replace (1 / 1) with 1 by field. rewrite Rmult_1_l. apply Cmod_Cexp_le.
  - assert (Hc : Ccont (fun t => w * exp_rem n (RtoC t * w))%C).
    { apply Ccont_mult; [apply Ccont_const|]. destruct n as [|n].
      - unfold exp_rem. cbn [csum]. apply (Ccont_ext (fun t => Cexp (0 + RtoC t * w))%C).
        + intros t. rewrite Cplus_0_l. ring.
        + apply Ccont_exp.
      - apply is_Cder_cont. intros t. eexists. apply exp_rem_der. }
    assert (H := is_Cint_der _ _ 0 1 (exp_rem_der n w) Hc). cbn beta in H.
    rewrite Cmult_0_l, exp_rem_0_at, Cmult_1_l in H.
    replace (exp_rem (S n) w) with (exp_rem (S n) w - 0)%C by ring.
    apply (Cint_norm _ (fun t => Cmod w ^ S n * exp (Cmod w) * (t ^ n / INR (fact n))) 0 1 _ _ Rle_0_1) with (2 := H).
    + intros t Ht. rewrite Cmod_mult. eapply Rle_trans.
      * apply Rmult_le_compat_l; [apply Cmod_ge_0|]. apply IH.
      * rewrite Cmod_mult, Cmod_R, Rabs_pos_eq by lra. rewrite Rpow_mult_distr.
        assert (Hw := Cmod_ge_0 w). assert (He : exp (t * Cmod w) <= exp (Cmod w)) by (apply exp_mono; nra).
        assert (0 < exp (t * Cmod w)) by apply exp_pos.
        assert (0 <= t ^ n) by (apply pow_le; lra). assert (0 <= Cmod w ^ n) by (apply pow_le; lra).
        assert (0 < INR (fact n)) by (apply INR_fact_lt_0).
        replace (Cmod w * (t ^ n * Cmod w ^ n / INR (fact n) * exp (t * Cmod w)))
          with ((Cmod w ^ S n * (t ^ n / INR (fact n))) * exp (t * Cmod w)) by (cbn [pow]; field; lra).
        replace (Cmod w ^ S n * exp (Cmod w) * (t ^ n / INR (fact n)))
          with ((Cmod w ^ S n * (t ^ n / INR (fact n))) * exp (Cmod w)) by ring.
        apply Rmult_le_compat_l; [|exact He].
        apply Rmult_le_pos; [apply pow_le; lra|]. apply Rmult_le_pos; [lra|]. left. apply Rinv_0_lt_compat. lra.
    + replace (Cmod w ^ S n / INR (fact (S n)) * exp (Cmod w))
        with (Cmod w ^ S n * exp (Cmod w) * (1 ^ S n / INR (fact (S n)) - 0 ^ S n / INR (fact (S n)))).
      2: { rewrite pow1, (pow_i (S n)) by lia. field. apply INR_fact_neq. }
      apply (@is_RInt_scal R_NormedModule).
      apply (is_RInt_derive (fun t => t ^ S n / INR (fact (S n))) (fun t => t ^ n / INR (fact n))).
      * intros t _. apply pow_der.
      * intros t _. destruct n as [|n].
        -- apply (continuous_ext (fun _ => 1 / INR (fact 0))); [reflexivity|]. apply continuous_const.
        -- apply (@ex_derive_continuous _ R_NormedModule). eexists. apply pow_der.
Qed.

(** ** Sums of powers of the nodes *)
Section Nodes.
  Variable cfg : etdcfg Rops.
  Notation M := (contour_points cfg).
  Notation Rad := (contour_radius cfg : R).

  Definition rho (j : nat) : C := node Cops cfg j.

  Hypothesis HM : (0 < M)%nat.
  Let HMR : INR M <> 0.
  Proof. apply not_0_INR. lia. Qed.

  Lemma rho_eq j : rho j = (RtoC Rad * Cexp (0, 2 * PI * (1/2 + INR j) / INR M)%R)%C.
  Proof.
    unfold rho, node, half, npts. csimp. f_equal. f_equal. rewrite <- !INR_IZR_INZ.
    unfold Cdiv, Cinv, Cmult, RtoC; cbn [fst snd]. apply C_eq; field; auto.
  Qed.

  Lemma Cmod_rho j : Cmod (rho j) = Rabs Rad.
  Proof. rewrite rho_eq, Cmod_mult, Cmod_R, Cmod_Cexp. cbn [fst]. rewrite exp_0. ring. Qed.

  Lemma geom_sum (w : C) n : ((w - 1) * csum n (fun j => cpow w j) = cpow w n - 1)%C.
  Proof. induction n as [|n IH]; cbn [csum cpow]; [ring|]. rewrite Cmult_plus_distr_l, IH. ring. Qed.

  Lemma Cexp_turn_neq x : 0 < x < 2 * PI -> Cexp (0, x) <> 1.
  Proof.
    intros Hx E. unfold Cexp in E. cbn [fst snd] in E. rewrite exp_0 in E. injection E as E _.
    assert (H : 0 < sin (x / 2)) by (apply sin_gt_0; lra).
    assert (G := cos_2a_sin (x / 2)). replace (2 * (x / 2)) with x in G by field. nra.
  Qed.
  Lemma Cexp_turns k : Cexp (0, 2 * PI * INR k)%R = 1.
  Proof.
    unfold Cexp. cbn [fst snd]. rewrite exp_0. 
    replace (2 * PI * INR k) with (0 + 2 * INR k * PI) by ring.
    rewrite cos_period, sin_period, cos_0, sin_0. apply C_eq; ring.
  Qed.

  (** Powers [0 < k < M] of the nodes sum to zero. *)
  Lemma rho_pow_sum k : (0 < k < M)%nat -> csum M (fun j => cpow (rho j) k) = 0.
  Proof.
    intros Hk.
    set (w := Cexp (0, 2 * PI * INR k / INR M)%R).
    assert (E : forall j, cpow (rho j) k = (cpow (RtoC Rad) k * Cexp (0, 2 * PI * INR k / (2 * INR M))%R * cpow w j)%C).
    { intros j. rewrite rho_eq, cpow_mult, cpow_exp. unfold w. rewrite cpow_exp, <- Cmult_assoc, <- Cexp_plus.
      f_equal. f_equal. unfold Cmult, Cplus, RtoC; cbn [fst snd]. apply C_eq; field; auto. }
    rewrite (csum_ext M _ _ (fun j _ => E j)), csum_scal.
    assert (Hw : (w - 1 <> 0)%C).
    { intros H. assert (G : w = 1) by (rewrite <- (Cplus_0_l 1), <- H; ring). revert G. apply Cexp_turn_neq.
      assert (0 < PI) by apply PI_RGT_0.
      assert (0 < INR k < INR M) by (split; [apply lt_0_INR|apply lt_INR]; lia).
      split.
      - apply Rdiv_lt_0_compat; [|lra]. nra.
      - apply Rmult_lt_reg_r with (INR M); [lra|]. unfold Rdiv. rewrite Rmult_assoc, Rinv_l by lra. nra. }
    assert (G := geom_sum w M).
    assert (Z : cpow w M = 1).
    { unfold w. rewrite cpow_exp. rewrite <- (Cexp_turns k). f_equal.
      unfold Cmult, RtoC; cbn [fst snd]. apply C_eq; field; auto. }
    rewrite Z in G. replace (1 - 1)%C with (RtoC 0) in G by ring.
    change (csum M (cpow w)) with (csum M (fun j => cpow w j)).
    destruct (Ceq_dec (csum M (fun j => cpow w j)) 0) as [H0|H0]; [rewrite H0; ring|].
    exfalso. revert G. apply Cmult_neq_0; assumption.
  Qed.
  (** The [M]-th power of every node is [-R^M]. *)
  Lemma rho_pow_M j : cpow (rho j) M = (- cpow (RtoC Rad) M)%C.
  Proof.
    rewrite rho_eq, cpow_mult, cpow_exp.
    replace (RtoC (INR M) * (0, 2 * PI * (1/2 + INR j) / INR M)%R)%C with ((0, PI)%R + (0, 2 * PI * INR j)%R)%C.
    - rewrite Cexp_plus, Cexp_turns. unfold Cexp at 1; cbn [fst snd]. rewrite exp_0, cos_PI, sin_PI.
      replace (1 * -1, 1 * 0)%R with (- (1))%C by (unfold Copp, RtoC; cbn; apply C_eq; ring). ring.
    - unfold Cmult, Cplus, RtoC; cbn [fst snd]. apply C_eq; field; auto.
  Qed.

  (** The mean of [exp(s rho_j)] is close to 1. *)
  Lemma mean_exp (s : R) : 0 <= s <= 1 ->
    Cmod (csum M (fun j => Cexp (RtoC s * rho j)) / RtoC (INR M) - 1)%C <=
    Rabs Rad ^ M / INR (fact M) * exp (Rabs Rad).
  Proof.
    intros Hs.
    assert (E : csum M (fun j => Cexp (RtoC s * rho j))%C =
                (RtoC (INR M) + csum M (fun j => exp_rem M (RtoC s * rho j)))%C).
    { rewrite (csum_ext M (fun j => Cexp (RtoC s * rho j))%C
         (fun j => csum M (fun k => cpow (RtoC s * rho j) k * RtoC (/ INR (fact k))) + exp_rem M (RtoC s * rho j))%C)
        by (intros; unfold exp_rem; ring).
      rewrite csum_plus, csum_swap. f_equal.
      assert (Em : exists m, M = S m) by (exists (pred M); lia). destruct Em as [m Em].
      rewrite Em, csum_shift.
      match goal with |- (_ + csum m ?f)%C = _ => rewrite (csum_0 m f) end.
      - change (INR (fact 0)) with 1. replace (/ 1)%R with 1 by field. cbn [cpow].
        assert (G : forall q, csum q (fun _ => (1 * 1)%C) = RtoC (INR q)).
        { induction q as [|q IH]; [reflexivity|]. cbn [csum]. rewrite IH, S_INR, RtoC_plus. ring. }
        rewrite G. ring.
      - intros k Hk.
        rewrite (csum_ext (S m) _ (fun j => (cpow (RtoC s) (S k) * RtoC (/ INR (fact (S k)))) * cpow (rho j) (S k))%C)
          by (intros; rewrite cpow_mult; ring).
        rewrite csum_scal, <- Em, rho_pow_sum by (rewrite Em; lia). ring. }
    rewrite E.
    assert (HMC : RtoC (INR M) <> 0) by (apply C2_neq; exact HMR).
    replace ((RtoC (INR M) + csum M (fun j => exp_rem M (RtoC s * rho j))) / RtoC (INR M) - 1)%C
      with (csum M (fun j => exp_rem M (RtoC s * rho j)) / RtoC (INR M))%C by (field; exact HMC).
    rewrite Cmod_div by exact HMC. rewrite Cmod_R, Rabs_pos_eq by apply pos_INR.
    assert (HMp : 0 < INR M) by (apply lt_0_INR; exact HM).
    apply Rmult_le_reg_r with (INR M); [exact HMp|]. unfold Rdiv at 1. rewrite Rmult_assoc, Rinv_l, Rmult_1_r by exact HMR.
    rewrite (Rmult_comm _ (INR M)). apply csum_norm_const. intros j _.
    eapply Rle_trans; [apply exp_rem_bound|].
    assert (Hr : Cmod (RtoC s * rho j)%C <= Rabs Rad).
    { rewrite Cmod_mult, Cmod_R, Cmod_rho, Rabs_pos_eq by lra. pose proof (Rabs_pos Rad). nra. }
    assert (0 <= Cmod (RtoC s * rho j)%C) by apply Cmod_ge_0.
    apply Rmult_le_compat.
    - apply Rmult_le_pos; [apply pow_le; lra|]. left. apply Rinv_0_lt_compat, INR_fact_lt_0.
    - left. apply exp_pos.
    - apply Rmult_le_compat_r; [left; apply Rinv_0_lt_compat, INR_fact_lt_0|]. apply pow_incr. lra.
    - apply exp_mono. exact Hr.
  Qed.

  (** ** The contour mean of phi *)
  Theorem phi_mean k (q : R) (z : C) : 0 <= q <= 1 ->
    Cmod (csum M (fun j => phi (S k) (RtoC q * (z + rho j))) / RtoC (INR M) - phi (S k) (RtoC q * z))%C
    <= exp (Cmod z + Rabs Rad) * Rabs Rad ^ M / INR (fact M) / INR (fact (S k)).
  Proof.
    intros Hq.
    assert (HMC : RtoC (INR M) <> 0) by (apply C2_neq; exact HMR).
    set (c := (/ RtoC (INR M))%C).
    assert (H1 : is_Cint (fun t => c * csum M (fun j => phi_f k (RtoC q * (z + rho j)) t) + (-1) * phi_f k (RtoC q * z) t)%C 0 1
                   (c * csum M (fun j => phi (S k) (RtoC q * (z + rho j))) + (-1) * phi (S k) (RtoC q * z))%C).
    { apply is_Cint_plus; [apply is_Cint_scal; apply (is_Cint_csum M (fun j t => phi_f k (RtoC q * (z + rho j)) t)%C); intros; apply phi_int|
                           apply is_Cint_scal; apply phi_int]. }
    replace (csum M (fun j => phi (S k) (RtoC q * (z + rho j))) / RtoC (INR M) - phi (S k) (RtoC q * z))%C
      with (c * csum M (fun j => phi (S k) (RtoC q * (z + rho j))) + (-1) * phi (S k) (RtoC q * z))%C.
    2: { unfold c, Cdiv. replace (RtoC (-1)) with (- RtoC 1)%C by (rewrite <- RtoC_opp; reflexivity). ring. }
    assert (B0 : 0 <= Rabs Rad ^ M / INR (fact M)).
    { apply Rmult_le_pos; [apply pow_le, Rabs_pos|]. left. apply Rinv_0_lt_compat, INR_fact_lt_0. }
    set (B := exp (Cmod z) * (Rabs Rad ^ M / INR (fact M) * exp (Rabs Rad))).
    apply (Cint_norm _ (fun t => B * (t ^ k / INR (fact k))) 0 1 _ _ Rle_0_1) with (2 := H1).
    - intros t Ht.
      assert (E : (c * csum M (fun j => phi_f k (RtoC q * (z + rho j)) t) + (-1) * phi_f k (RtoC q * z) t)%C
        = (Cexp (RtoC ((1 - t) * q) * z) * (csum M (fun j => Cexp (RtoC ((1 - t) * q) * rho j)) / RtoC (INR M) - 1)
            * RtoC (t ^ k / INR (fact k)))%C).
      { unfold phi_f.
        rewrite (csum_ext M _ (fun j => (Cexp (RtoC ((1 - t) * q) * z) * RtoC (t ^ k / INR (fact k))) * Cexp (RtoC ((1 - t) * q) * rho j))%C).
        - rewrite csum_scal, RtoC_mult, <- Cmult_assoc. unfold c, Cdiv.
          replace (RtoC (-1)) with (- RtoC 1)%C by (rewrite <- RtoC_opp; reflexivity).
          replace (RtoC (1 - t) * (RtoC q * z))%C with (RtoC (1 - t) * RtoC q * z)%C by ring. ring.
        - intros j _. rewrite RtoC_mult.
          replace (RtoC (1 - t) * (RtoC q * (z + rho j)))%C with (RtoC (1 - t) * RtoC q * z + RtoC (1 - t) * RtoC q * rho j)%C by ring.
          rewrite Cexp_plus. ring. }
      rewrite E, !Cmod_mult, Cmod_R.
      assert (P : 0 <= t ^ k / INR (fact k)).
      { apply Rmult_le_pos; [apply pow_le; lra|]. left. apply Rinv_0_lt_compat, INR_fact_lt_0. }
      rewrite Rabs_pos_eq by exact P. apply Rmult_le_compat_r; [exact P|]. unfold B.
      assert (Hs : 0 <= (1 - t) * q <= 1) by nra.
      apply Rmult_le_compat; try apply Cmod_ge_0.
      + eapply Rle_trans; [apply Cmod_Cexp_le|]. apply exp_mono. rewrite Cmod_mult, Cmod_R, Rabs_pos_eq by lra.
        pose proof (Cmod_ge_0 z). nra.
      + apply mean_exp. exact Hs.
    - replace (exp (Cmod z + Rabs Rad) * Rabs Rad ^ M / INR (fact M) / INR (fact (S k)))
        with (B * (1 ^ S k / INR (fact (S k)) - 0 ^ S k / INR (fact (S k)))).
      2: { unfold B. rewrite pow1, (pow_i (S k)) by lia. rewrite exp_plus.
           field. split; apply INR_fact_neq. }
      apply (@is_RInt_scal R_NormedModule).
      apply (is_RInt_derive (fun t => t ^ S k / INR (fact (S k))) (fun t => t ^ k / INR (fact k))).
      + intros t _. apply pow_der.
      + intros t _. destruct k as [|k'].
        * apply (continuous_ext (fun _ => 1 / INR (fact 0))); [reflexivity|]. apply continuous_const.
        * apply (@ex_derive_continuous _ R_NormedModule). eexists. apply pow_der.
  Qed.
End Nodes.
