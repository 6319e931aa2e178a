(** * Benchmark models (C60 - C62, C68) *)

From Coq Require Import ZArith List Bool Reals Lra Lia FunctionalExtensionality.
From Coquelicot Require Import Hierarchy Derive AutoDerive Complex.
From Verif Require Import Scalars Config CInst SpecPhi ContourReal SpecPoly Grids Derivatives Fourier PropsGrids PropsCheb PropsDeriv Models.
Import ListNotations.
Local Open Scope R_scope.

(** ** The soliton (C60) *)

Lemma is_derive_cosh x : is_derive cosh x (sinh x).
Proof. apply is_derive_Reals, derivable_pt_lim_cosh. Qed.
Lemma is_derive_sinh x : is_derive sinh x (cosh x).
Proof. apply is_derive_Reals, derivable_pt_lim_sinh. Qed.
Lemma cosh_pos x : 0 < cosh x.
Proof. unfold cosh. assert (A := exp_pos x). assert (B := exp_pos (- x)). lra. Qed.
Lemma cosh_sinh x : sinh x ^ 2 = cosh x ^ 2 - 1.
Proof. unfold sinh, cosh. assert (A : exp x * exp (- x) = 1) by (rewrite <- exp_plus, Rplus_opp_r; apply exp_0). nra. Qed.

(** [g], [g1], ... as functions of [x] with their derivatives: [u] is a function of [x] and [t] for which
    [u_x], [u_xx], [u_xxx], [u_t] exist everywhere, and the residual of the KdV equation is [res]. *)
Definition kdv_residual (u : R -> R -> R) (res : R -> R -> R) : Prop :=
  exists ux uxx uxxx ut : R -> R -> R,
    (forall x t, is_derive (fun y => u y t) x (ux x t)) /\
    (forall x t, is_derive (fun y => ux y t) x (uxx x t)) /\
    (forall x t, is_derive (fun y => uxx y t) x (uxxx x t)) /\
    (forall x t, is_derive (fun s => u x s) t (ut x t)) /\
    forall x t, ut x t + 6 * u x t * ux x t + uxxx x t = res x t.

(** The profile and its derivatives, for [y = a (x - x0 - a^2 t) / 2]. *)
Definition sol_x (a y : R) : R := - (a ^ 3 / 2) * (sinh y / cosh y ^ 3).
Definition sol_xx (a y : R) : R := - (a ^ 4 / 4) * ((3 - 2 * cosh y ^ 2) / cosh y ^ 4).
Definition sol_xxx (a y : R) : R := a ^ 5 / 2 * (3 * sinh y / cosh y ^ 5 - sinh y / cosh y ^ 3).
Definition sol_arg (a x0 t x : R) : R := a * (x - x0 - a ^ 2 * t) / 2.
Lemma arg_x a x0 t x : is_derive (sol_arg a x0 t) x (a / 2).
Proof. unfold sol_arg. auto_derive; [exact I|]. field. Qed.
Lemma arg_t a x0 t x : is_derive (fun s => sol_arg a x0 s x) t (- a ^ 3 / 2).
Proof. unfold sol_arg. auto_derive; [exact I|]. field. Qed.
Lemma chain (f g : R -> R) x d e c : is_derive f (g x) d -> is_derive g x e -> c = e * d -> is_derive (fun y => f (g y)) x c.
Proof. intros A B ->. exact (is_derive_comp f g x d e A B). Qed.
Ltac hyp y := assert (K := cosh_pos y); assert (K0 : cosh y <> 0) by lra;
  auto_derive; repeat split; try (now eexists; apply is_derive_cosh); try (now eexists; apply is_derive_sinh);
  try (match goal with |- ?l <> 0 => repeat (apply Rmult_integral_contrapositive_currified; [exact K0|]); lra end); try lra;
  try (rewrite (is_derive_unique (fun x => cosh x) y (sinh y) (is_derive_cosh y)), ?(is_derive_unique (fun x => sinh x) y (cosh y) (is_derive_sinh y))).
Lemma d_sech (a y : R) : is_derive (fun y => 1 / 2 * a ^ 2 / cosh y ^ 2) y (- a ^ 2 * (sinh y / cosh y ^ 3)).
Proof. hyp y. field. exact K0. Qed.
Lemma d_sol_x (a y : R) : is_derive (sol_x a) y (- (a ^ 3 / 2) * ((3 - 2 * cosh y ^ 2) / cosh y ^ 4)).
Proof.
  replace (3 - 2 * cosh y ^ 2) with (cosh y ^ 2 - 3 * sinh y ^ 2) by (rewrite cosh_sinh; ring).
  unfold sol_x. hyp y. field. exact K0.
Qed.
Lemma d_sol_xx (a y : R) : is_derive (sol_xx a) y (a ^ 4 * (3 * sinh y / cosh y ^ 5 - sinh y / cosh y ^ 3)).
Proof. unfold sol_xx. hyp y. field. exact K0. Qed.
Lemma soliton_arg a x0 t x : soliton_at a x0 t x = 1 / 2 * a ^ 2 / cosh (sol_arg a x0 t x) ^ 2.
Proof. reflexivity. Qed.
Lemma sol_u_x a x0 t x : is_derive (soliton_at a x0 t) x (sol_x a (sol_arg a x0 t x)).
Proof.
  apply (chain (fun y => 1 / 2 * a ^ 2 / cosh y ^ 2) (sol_arg a x0 t) x _ _ _ (d_sech a _) (arg_x a x0 t x)). unfold sol_x. field. assert (K := cosh_pos (sol_arg a x0 t x)). lra.
Qed.
Lemma sol_u_t a x0 t x : is_derive (fun s => soliton_at a x0 s x) t (- a ^ 2 * sol_x a (sol_arg a x0 t x)).
Proof.
  apply (chain (fun y => 1 / 2 * a ^ 2 / cosh y ^ 2) (fun s => sol_arg a x0 s x) t _ _ _ (d_sech a _) (arg_t a x0 t x)). unfold sol_x. field. assert (K := cosh_pos (sol_arg a x0 t x)). lra.
Qed.
Lemma sol_ux_x a x0 t x : is_derive (fun x => sol_x a (sol_arg a x0 t x)) x (sol_xx a (sol_arg a x0 t x)).
Proof.
  apply (chain (sol_x a) (sol_arg a x0 t) x _ _ _ (d_sol_x a _) (arg_x a x0 t x)). unfold sol_xx. field. assert (K := cosh_pos (sol_arg a x0 t x)). lra.
Qed.
Lemma sol_uxx_x a x0 t x : is_derive (fun x => sol_xx a (sol_arg a x0 t x)) x (sol_xxx a (sol_arg a x0 t x)).
Proof.
  apply (chain (sol_xx a) (sol_arg a x0 t) x _ _ _ (d_sol_xx a _) (arg_x a x0 t x)). unfold sol_xxx. field. assert (K := cosh_pos (sol_arg a x0 t x)). lra.
Qed.
Lemma sol_residual a y : - a ^ 2 * sol_x a y + 6 * (1 / 2 * a ^ 2 / cosh y ^ 2) * sol_x a y + sol_xxx a y = 0.
Proof. unfold sol_x, sol_xxx. field. assert (K := cosh_pos y). lra. Qed.

(** C60: every entry of [kdv_soliton] is the value of one solution of u_t + 6 u u_x + u_xxx = 0; its
    maximum is [a^2 / 2], reached at [x0 + a^2 t] only (for a <> 0). *)
Theorem C60_soliton_solves_kdv (ampl x0 : R) :
  exists u : R -> R -> R, kdv_residual u (fun _ _ => 0) /\
    (forall x t, kdv_soliton x ampl x0 t = map (fun xi => u xi t) x) /\
    (forall t, u (x0 + ampl ^ 2 * t) t = ampl ^ 2 / 2) /\
    forall x t, ampl <> 0 -> x <> x0 + ampl ^ 2 * t -> 0 < u x t < ampl ^ 2 / 2.
Proof.
  exists (fun x t => soliton_at ampl x0 t x). split; [|split; [reflexivity|split]].
  - exists (fun x t => sol_x ampl (sol_arg ampl x0 t x)), (fun x t => sol_xx ampl (sol_arg ampl x0 t x)),
      (fun x t => sol_xxx ampl (sol_arg ampl x0 t x)), (fun x t => - ampl ^ 2 * sol_x ampl (sol_arg ampl x0 t x)).
    split; [intros; apply sol_u_x|]. split; [intros; apply sol_ux_x|]. split; [intros; apply sol_uxx_x|]. split; [intros; apply sol_u_t|].
    intros x t. rewrite soliton_arg. apply sol_residual.
  - intros t. unfold soliton_at. replace (ampl * (x0 + ampl ^ 2 * t - x0 - ampl ^ 2 * t) / 2) with 0 by field. rewrite cosh_0. field.
  - intros x t Ha Hx. rewrite soliton_arg. set (y := sol_arg ampl x0 t x).
    assert (Hy : y <> 0). { unfold y, sol_arg. intros E. apply Hx. assert (ampl * (x - x0 - ampl ^ 2 * t) = 0) by lra. apply Rmult_integral in H. lra. }
    assert (Q : 1 < cosh y ^ 2). { assert (Q := cosh_sinh y). assert (sinh y <> 0).
      { intros E. assert (S0 := sinh_0). destruct (Rtotal_order y 0) as [L|[L|L]]; [|contradiction|]; apply sinh_lt in L; lra. } nra. }
    assert (A : 0 < ampl ^ 2) by nra. split.
    + apply Rdiv_lt_0_compat; lra.
    + apply (Rmult_lt_reg_r (cosh y ^ 2)); [lra|]. unfold Rdiv. rewrite Rmult_assoc, Rinv_l by lra. nra.
Qed.
Example C60_case : kdv_soliton [3; 4] 1 2 1 = [1 / 2; soliton_at 1 2 1 4] /\ 0 < soliton_at 1 2 1 4 < 1 / 2.
Proof.
  destruct (C60_soliton_solves_kdv 1 2) as (u & _ & E & Hm & Hp). specialize (E [3; 4] 1). cbn [map] in E. 
  assert (E3 : soliton_at 1 2 1 3 = u 3 1) by (injection E; auto). assert (E4 : soliton_at 1 2 1 4 = u 4 1) by (injection E; auto).
  split.
  - unfold kdv_soliton. cbn [map]. rewrite E3. specialize (Hm 1). replace (2 + 1 ^ 2 * 1) with 3 in Hm by ring. rewrite Hm. f_equal. field.
  - rewrite E4. specialize (Hp 4 1 ltac:(lra) ltac:(lra)). lra.
Qed.
Print Assumptions C60_soliton_solves_kdv.

(** ** Superpositions (C68) *)
Lemma is_derive_rsum (n : nat) (f : nat -> R -> R) (g : nat -> R) x :
  (forall i, (i < n)%nat -> is_derive (f i) x (g i)) -> is_derive (fun y => rsum n (fun i => f i y)) x (rsum n g).
Proof.
  intros H. rewrite rsum_sumf. apply (is_derive_ext (fun y => sumf n (fun i => f i y))); [intros t; symmetry; apply rsum_sumf|].
  apply is_derive_sumf. exact H.
Qed.

(** [kdv_multi_soliton] raises [ValueError] exactly when the lengths differ; otherwise it returns the sum of
    the solitons, whose residual is the sum of the mixed products [6 u_i (u_j)_x], [i <> j]. *)
Theorem C68_multi_soliton (ampl x0 : list R) :
  (length x0 <> length ampl -> forall x t, kdv_multi_soliton x ampl x0 t = inl ValueError) /\
  (length x0 = length ampl -> exists u ux : nat -> R -> R -> R,
     (forall i x t, (i < length ampl)%nat -> kdv_soliton x (nth i ampl 0) (nth i x0 0) t = map (fun xi => u i xi t) x) /\
     (forall i x t, is_derive (fun y => u i y t) x (ux i x t)) /\
     (forall x t, kdv_multi_soliton x ampl x0 t = inr (map (fun xi => rsum (length ampl) (fun i => u i xi t)) x)) /\
     kdv_residual (fun x t => rsum (length ampl) (fun i => u i x t))
       (fun x t => rsum (length ampl) (fun i => rsum (length ampl) (fun j => if Nat.eqb i j then 0 else 6 * u i x t * ux j x t)))).
Proof.
  split.
  - intros H x t. unfold kdv_multi_soliton. destruct (Nat.eqb_spec (length x0) (length ampl)); [contradiction|]. reflexivity.
  - intros H. set (m := length ampl). set (A := fun i => nth i ampl 0). set (X := fun i => nth i x0 0).
    exists (fun i x t => soliton_at (A i) (X i) t x), (fun i x t => sol_x (A i) (sol_arg (A i) (X i) t x)).
    split; [reflexivity|]. split; [intros; apply sol_u_x|]. split.
    { intros x t. unfold kdv_multi_soliton. rewrite H, Nat.eqb_refl. reflexivity. }
    exists (fun x t => rsum m (fun i => sol_x (A i) (sol_arg (A i) (X i) t x))), (fun x t => rsum m (fun i => sol_xx (A i) (sol_arg (A i) (X i) t x))),
      (fun x t => rsum m (fun i => sol_xxx (A i) (sol_arg (A i) (X i) t x))), (fun x t => rsum m (fun i => - A i ^ 2 * sol_x (A i) (sol_arg (A i) (X i) t x))).
    split; [intros x t; apply (is_derive_rsum m (fun i y => soliton_at (A i) (X i) t y)); intros; apply sol_u_x|].
    split; [intros x t; apply (is_derive_rsum m (fun i y => sol_x (A i) (sol_arg (A i) (X i) t y))); intros; apply sol_ux_x|].
    split; [intros x t; apply (is_derive_rsum m (fun i y => sol_xx (A i) (sol_arg (A i) (X i) t y))); intros; apply sol_uxx_x|].
    split; [intros x t; apply (is_derive_rsum m (fun i s => soliton_at (A i) (X i) s x)); intros; apply sol_u_t|].
    intros x t. cbv beta. set (U := fun i => soliton_at (A i) (X i) t x). set (D := fun i => sol_x (A i) (sol_arg (A i) (X i) t x)).
    assert (RS : forall f, rsum m f = sumf m f) by (intros; apply rsum_sumf).
    refine (eq_trans (f_equal2 Rplus (f_equal2 Rplus (RS _) (f_equal2 Rmult (f_equal (Rmult 6) (RS U)) (RS D))) (RS _)) _).
    refine (eq_trans _ (eq_sym (RS _))).
    transitivity (sumf m (fun i => sumf m (fun j => 6 * U i * D j - if Nat.eqb i j then 6 * U i * D i else 0))).
    + transitivity (sumf m (fun i => sumf m (fun j => 6 * U i * D j)) - sumf m (fun i => 6 * U i * D i)).
      * assert (P : 6 * sumf m U * sumf m D = sumf m (fun i => sumf m (fun j => 6 * U i * D j))).
        { rewrite (sumf_ext m (fun i => sumf m (fun j => 6 * U i * D j)) (fun i => (6 * sumf m D) * U i)).
          - rewrite sumf_scal. ring.
          - intros i _. rewrite sumf_scal. ring. }
        rewrite P. clear P.
        assert (Z : sumf m (fun i => - A i ^ 2 * D i) + sumf m (fun i => 6 * U i * D i) + sumf m (fun i => sol_xxx (A i) (sol_arg (A i) (X i) t x)) = 0).
        { rewrite <- !sumf_plus. apply sumf_zero. intros i _. apply sol_residual. }
        unfold D in *. lra.
      * rewrite (sumf_ext m (fun i => sumf m (fun j => 6 * U i * D j - if Nat.eqb i j then 6 * U i * D i else 0))
          (fun i => sumf m (fun j => 6 * U i * D j) + (-1) * (6 * U i * D i))).
        -- rewrite sumf_plus, sumf_scal. ring.
        -- intros i Hi. rewrite (sumf_ext m _ (fun j => 6 * U i * D j + (-1) * (if Nat.eqb i j then 6 * U i * D i else 0))) by (intros; ring).
           rewrite sumf_plus. f_equal. rewrite sumf_scal. f_equal. rewrite (sumf_one m _ i Hi); [now rewrite Nat.eqb_refl|].
           intros j Hj Q. destruct (Nat.eqb_spec i j); [congruence|reflexivity].
    + apply sumf_ext. intros i Hi. refine (eq_trans _ (eq_sym (RS _))). apply sumf_ext. intros j Hj. unfold U, D. destruct (Nat.eqb_spec i j) as [->|Q]; ring.
Qed.

(** Two equal solitons: the superposition does not solve the equation. *)
Theorem C68_superposition_refuted :
  exists u, (forall x t, kdv_multi_soliton x [2; 2] [0; 0] t = inr (map (fun xi => u xi t) x)) /\
    ~ kdv_residual u (fun _ _ => 0).
Proof.
  exists (fun x t => soliton_at 2 0 t x + soliton_at 2 0 t x). split.
  - intros x t. unfold kdv_multi_soliton. cbn. f_equal. apply map_ext. intros y. rewrite Rplus_0_l. reflexivity.
  - intros (ux & uxx & uxxx & ut & H1 & H2 & H3 & H4 & H5).
    assert (Dbl : forall f x d, is_derive f x d -> is_derive (fun y => f y + f y) x (2 * d)).
    { intros f x d H. replace (2 * d) with (d + d) by ring. exact (is_derive_plus f f x d d H H). }
    assert (E1 : forall x t, ux x t = 2 * sol_x 2 (sol_arg 2 0 t x)).
    { intros x t. apply (is_derive_eq _ _ _ _ (H1 x t)). apply Dbl, sol_u_x. }
    assert (E2 : forall x t, uxx x t = 2 * sol_xx 2 (sol_arg 2 0 t x)).
    { intros x t. apply (is_derive_eq _ _ _ _ (H2 x t)). apply (is_derive_ext (fun x => 2 * sol_x 2 (sol_arg 2 0 t x))); [intros; symmetry; apply E1|].
      apply is_derive_scal', sol_ux_x. }
    assert (E3 : forall x t, uxxx x t = 2 * sol_xxx 2 (sol_arg 2 0 t x)).
    { intros x t. apply (is_derive_eq _ _ _ _ (H3 x t)). apply (is_derive_ext (fun x => 2 * sol_xx 2 (sol_arg 2 0 t x))); [intros; symmetry; apply E2|].
      apply is_derive_scal', sol_uxx_x. }
    assert (E4 : forall x t, ut x t = 2 * (- 2 ^ 2 * sol_x 2 (sol_arg 2 0 t x))).
    { intros x t. apply (is_derive_eq _ _ _ _ (H4 x t)). apply Dbl. apply sol_u_t. }
    specialize (H5 1 0). rewrite E1, E3, E4 in H5. rewrite soliton_arg in H5.
    assert (Y : sol_arg 2 0 0 1 = 1) by (unfold sol_arg; field). rewrite Y in H5.
    assert (Z := sol_residual 2 1).
    assert (P : (1 / 2 * 2 ^ 2 / cosh 1 ^ 2) * sol_x 2 1 = 0) by lra.
    assert (K := cosh_pos 1). assert (S1 : sinh 0 < sinh 1) by (apply sinh_lt; lra). rewrite sinh_0 in S1.
    unfold sol_x in P. assert (Q : sinh 1 / cosh 1 ^ 5 = 0).
    { transitivity (- / 8 * ((1 / 2 * 2 ^ 2 / cosh 1 ^ 2) * (- (2 ^ 3 / 2) * (sinh 1 / cosh 1 ^ 3)))); [field; lra|rewrite P; ring]. }
    assert (0 < sinh 1 / cosh 1 ^ 5) by (apply Rdiv_lt_0_compat; [lra|apply pow_lt; lra]). lra.
Qed.
Print Assumptions C68_multi_soliton.
Print Assumptions C68_superposition_refuted.

(** ** Allen-Cahn (C62) *)
Lemma inner_len {B} (x : list B) : length (inner x) = (length x - 2)%nat.
Proof.
  unfold inner. destruct x as [|a x]; [reflexivity|]. cbn [tl]. induction x as [|b x IH] in a |- *; [reflexivity|].
  destruct x as [|c x]; [reflexivity|]. cbn [removelast length] in *. rewrite (IH b). cbn. lia.
Qed.
Lemma inner_nth {B} (d : B) x k : (k < length x - 2)%nat -> nth k (inner x) d = nth (S k) x d.
Proof.
  intros H. unfold inner. destruct x as [|a x]; [cbn in H; lia|]. cbn [tl nth].
  revert k H. induction x as [|b x IH]; intros k H; [cbn in H; lia|]. destruct x as [|c x]; [cbn in H; lia|].
  change (removelast (b :: c :: x)) with (b :: removelast (c :: x)). destruct k as [|k]; [reflexivity|]. cbn [nth]. apply IH. cbn in *. lia.
Qed.
(** The grid values of [w]: the state shifted by [x] inside, [x] at the two ends. *)
Definition shifted (x : list R) (u : list C) (j : nat) : C :=
  if Nat.eqb j 0 || Nat.eqb j (length x - 1) then RtoC (nth j x 0) else (nth (j - 1) u (RtoC 0) + RtoC (nth j x 0))%C.

(** C62 for every interior state: [L u + N(u)] is [eps D^2 w + w - w^3] at the interior points; [D^2] is the
    matrix of the second derivative, exact for polynomials (C52). *)
Theorem C62_allen_cahn (n : nat) (a b eps : R) (u : list C) : (2 <= n)%nat -> a <> b -> length u = (n - 1)%nat ->
  exists x D L N, construct_x_dx_cheb (PInt (Z.of_nat n)) a b = inr (x, D) /\
    allen_cahn_lin (mk_marr (S n) (S n) D) eps = inr L /\ m_rows L = (n - 1)%nat /\ m_cols L = (n - 1)%nat /\
    allen_cahn_nl x u = inr N /\ length N = (n - 1)%nat /\
    forall i, (i < n - 1)%nat ->
      (csum (n - 1) (fun j => RtoC (m_at L i j) * nth j u (RtoC 0)) + nth i N (RtoC 0))%C =
      (RtoC eps * csum (S n) (fun j => RtoC (rsum (S n) (fun k => D (S i) k * D k j)%R) * shifted x u j)
       + shifted x u (S i) - cpow (shifted x u (S i)) 3)%C.
Proof.
  intros Hn Hab Hu. unfold construct_x_dx_cheb. rewrite construct_cheb_ok by lia.
  exists (cheb_grid n a b). rewrite cheb_grid_len. replace (S n - 1)%nat with n by lia.
  set (x := cheb_grid n a b). exists (cheb_m n x). set (D := cheb_m n x). set (d := mk_marr (S n) (S n) D).
  assert (Lx : length x = S n) by apply cheb_grid_len.
  unfold allen_cahn_lin. cbn [d m_rows m_cols]. rewrite Nat.eqb_refl. fold d.
  unfold allen_cahn_nl. rewrite inner_len, Lx, Hu. replace (S n - 2)%nat with (n - 1)%nat by lia. rewrite Nat.eqb_refl.
  eexists _, _. split; [reflexivity|]. split; [reflexivity|]. cbn [inner_mat mplus mtimes mmul m_rows m_cols d].
  split; [lia|]. split; [lia|]. split; [reflexivity|]. split; [apply tab_len|].
  intros i Hi. set (D2 := fun p q => rsum (S n) (fun k => D p k * D k q)).
  cbn [m_at inner_mat mplus mtimes mmul meye m_rows m_cols]. fold D.
  match goal with |- (_ + nth i (tab ?m ?f) _)%C = _ => change (nth i (tab m f) (RtoC 0)) with (at_ (RtoC 0) (tab m f) i) end.
  rewrite tab_nth by lia.
  replace (if Nat.eqb (n - 1) 1 then at_ 0 (inner x) 0 else at_ 0 (inner x) i) with (nth (S i) x 0).
  2:{ unfold at_. destruct (Nat.eqb_spec (n - 1) 1) as [E|E]; [replace i with O by lia|]; rewrite inner_nth by (rewrite Lx; lia); reflexivity. }
  replace (if Nat.eqb (n - 1) 1 then at_ (RtoC 0) u 0 else at_ (RtoC 0) u i) with (nth i u (RtoC 0)).
  2:{ unfold at_. destruct (Nat.eqb_spec (n - 1) 1) as [E|E]; [replace i with O by lia|]; reflexivity. }
  set (X := fun j => nth j x 0). set (U := fun j => nth j u (RtoC 0)).
  assert (Wi : shifted x u (S i) = (U i + RtoC (X (S i)))%C).
  { unfold shifted. rewrite Lx. replace (Nat.eqb (S i) (S n - 1)) with false by (symmetry; apply Nat.eqb_neq; lia). cbn [Nat.eqb orb].
    replace (S i - 1)%nat with i by lia. reflexivity. }
  rewrite Wi. fold (U i) (X (S i)).
  (* the second derivative of the identity vanishes *)
  assert (DX : rsum (S n) (fun j => D2 (S i) j * X j) = 0).
  { assert (Pid : ispoly (S n) (fun y => y)).
    { exists [0; 1]. split; [cbn; lia|]. intros y. cbn. ring. }
    assert (Q := cheb_pow_exact n a b 1 ltac:(lia) Hab (fun y => y) (S i) Pid ltac:(lia)). cbv zeta in Q. fold x in Q. fold D in Q. fold d in Q.
    unfold mvec in Q. cbn [mpow mmul m_cols m_at d m_rows] in Q. refine (eq_trans Q _).
    cbn [Derive_n]. rewrite (Derive_ext _ (fun _ => 1)); [apply Derive_const|]. intros t. apply Derive_id. }
  assert (Sp : forall f : nat -> C, csum (S n) f = (f O + csum (n - 1) (fun j => f (S j)) + f n)%C).
  { intros f. change (csum (S n) f) with (csum n f + f n)%C. rewrite csum_first by lia. reflexivity. }
  assert (Q : forall m f, csum m (fun j => RtoC (f j)) = RtoC (rsum m f)).
  { induction m; intros f; cbn; [reflexivity|]. now rewrite IHm, RtoC_plus. }
  assert (Main : csum (S n) (fun j => RtoC (D2 (S i) j) * shifted x u j)%C = csum (n - 1) (fun j => RtoC (D2 (S i) (S j)) * U j)%C).
  { transitivity (csum (S n) (fun j => RtoC (D2 (S i) j) * (shifted x u j - RtoC (X j)))%C).
    - rewrite (csum_ext (S n) (fun j => RtoC (D2 (S i) j) * shifted x u j)%C
        (fun j => RtoC (D2 (S i) j) * (shifted x u j - RtoC (X j)) + RtoC (D2 (S i) j * X j))%C).
      + rewrite csum_plus, Q, DX. ring.
      + intros j _. rewrite RtoC_mult. ring.
    - rewrite Sp. unfold shifted at 1 3. rewrite Lx. cbn [Nat.eqb orb].
      replace (S n - 1)%nat with n by lia. rewrite Nat.eqb_refl, orb_true_r. fold (X O) (X n).
      replace (RtoC (D2 (S i) O) * (RtoC (X O) - RtoC (X O)))%C with (RtoC 0) by ring.
      replace (RtoC (D2 (S i) n) * (RtoC (X n) - RtoC (X n)))%C with (RtoC 0) by ring.
      rewrite Cplus_0_l, Cplus_0_r. apply csum_ext. intros j Hj. f_equal. unfold shifted. rewrite Lx.
      replace (Nat.eqb (S j) (S n - 1)) with false by (symmetry; apply Nat.eqb_neq; lia). cbn [Nat.eqb orb].
      replace (S j - 1)%nat with j by lia. fold (X (S j)) (U j). ring. }
  change (fun j => RtoC (rsum (S n) (fun k => (D (S i) k * D k j)%R)) * shifted x u j)%C with (fun j => RtoC (D2 (S i) j) * shifted x u j)%C.
  rewrite Main.
  rewrite (csum_ext (n - 1) _ (fun j => RtoC eps * (RtoC (D2 (S i) (S j)) * U j) + (if Nat.eqb i j then U i else RtoC 0))%C).
  - rewrite csum_plus, csum_scal. rewrite (csum_one (n - 1) i (fun j => if Nat.eqb i j then U i else RtoC 0) Hi).
    + rewrite Nat.eqb_refl. ring.
    + intros k _ Hk. destruct (Nat.eqb_spec i k); [congruence|reflexivity].
  - intros j Hj. fold (U j). change (Nat.eqb (S i) (S j)) with (Nat.eqb i j).
    rewrite RtoC_plus, RtoC_mult.
    change (rsum (m_cols d) (fun k => m_at d (S i) k * m_at d k (S j))) with (D2 (S i) (S j)).
    destruct (Nat.eqb_spec i j) as [E|E]; [rewrite E|]; ring.
Qed.

(** For the values of a polynomial that meets the boundary conditions [w(a) = a], [w(b) = b], the discrete
    right-hand side is exactly the Allen-Cahn right-hand side [eps w'' + w - w^3]. *)
Theorem C62_allen_cahn_exact (n : nat) (a b eps : R) (w : R -> R) : (2 <= n)%nat -> a <> b -> ispoly (S n) w -> w a = a -> w b = b ->
  exists x D L N, construct_x_dx_cheb (PInt (Z.of_nat n)) a b = inr (x, D) /\
    let u := tab (n - 1) (fun j => RtoC (w (nth (S j) x 0) - nth (S j) x 0)) in
    allen_cahn_lin (mk_marr (S n) (S n) D) eps = inr L /\ allen_cahn_nl x u = inr N /\
    forall i, (i < n - 1)%nat -> let y := nth (S i) x 0 in
      (csum (n - 1) (fun j => RtoC (m_at L i j) * nth j u (RtoC 0)) + nth i N (RtoC 0))%C =
      RtoC (eps * Derive_n w 2 y + w y - w y ^ 3).
Proof.
  intros Hn Hab Hp Wa Wb. set (x := cheb_grid n a b).
  set (u := tab (n - 1) (fun j => RtoC (w (nth (S j) x 0) - nth (S j) x 0))).
  destruct (C62_allen_cahn n a b eps u Hn Hab (tab_len _ _)) as (x' & D & L & N & E1 & E2 & _ & _ & E3 & _ & H).
  exists x', D, L, N.
  assert (Ex : x' = x /\ D = cheb_m n x).
  { unfold construct_x_dx_cheb in E1. rewrite construct_cheb_ok in E1 by lia. rewrite cheb_grid_len in E1.
    replace (S n - 1)%nat with n in E1 by lia. fold x in E1. split; congruence. }
  destruct Ex as [-> ED]. split; [exact E1|]. split; [exact E2|]. split; [exact E3|]. intros i Hi y. refine (eq_trans (H i Hi) _).
  assert (Lx : length x = S n) by apply cheb_grid_len.
  assert (S' : forall j, (j <= n)%nat -> shifted x u j = RtoC (w (nth j x 0))).
  { intros j Hj. unfold shifted. rewrite Lx. replace (S n - 1)%nat with n by lia.
    destruct (Nat.eqb_spec j 0) as [->|J0]; cbn [orb].
    { f_equal. unfold x. rewrite cheb_grid_nth by lia. replace (a + (b - a) * (node n 0 + 1) / 2) with a; [now rewrite Wa|].
      unfold node. replace (INR 0 * PI / INR n) with 0 by (cbn; field; apply not_0_INR; lia). rewrite cos_0. field. }
    destruct (Nat.eqb_spec j n) as [->|Jn].
    { f_equal. unfold x. rewrite cheb_grid_nth by lia. replace (a + (b - a) * (node n n + 1) / 2) with b; [now rewrite Wb|].
      unfold node. replace (INR n * PI / INR n) with PI by (field; apply not_0_INR; lia). rewrite cos_PI. field. }
    change (nth (j - 1) u (RtoC 0)) with (at_ (RtoC 0) u (j - 1)). unfold u. rewrite tab_nth by lia.
    replace (S (j - 1)) with j by lia. rewrite <- RtoC_plus. f_equal. ring. }
  rewrite (csum_ext (S n) _ (fun j => RtoC (rsum (S n) (fun k => D (S i) k * D k j) * w (nth j x 0)))).
  2:{ intros j Hj. rewrite S' by lia. now rewrite RtoC_mult. }
  assert (Q : forall m f, csum m (fun j => RtoC (f j)) = RtoC (rsum m f)).
  { induction m; intros f; cbn; [reflexivity|]. now rewrite IHm, RtoC_plus. }
  rewrite Q, S' by lia. fold y.
  assert (P := cheb_pow_exact n a b 1 ltac:(lia) Hab w (S i) Hp ltac:(lia)). cbv zeta in P. fold x in P. rewrite <- ED in P.
  unfold mvec in P. cbn [mpow mmul m_cols m_at m_rows] in P. fold y in P.
  change (rsum (S n) (fun j => rsum (S n) (fun k => D (S i) k * D k j) * w (nth j x 0)) = Derive_n w 2 y) in P.
  rewrite P. cbn [cpow]. rewrite <- !RtoC_mult, <- RtoC_plus, <- RtoC_minus. reflexivity.
Qed.

(** Non-vacuity: on [[-1, 1]] with [n = 3] the cubic [w(y) = y^3] meets the boundary conditions and is not
    linear; the discrete right-hand side is [6 eps y + y^3 - y^9]. *)
Example C62_case (eps : R) : exists x D L N, construct_x_dx_cheb (PInt 3) (-1) 1 = inr (x, D) /\
    let u := tab 2 (fun j => RtoC (nth (S j) x 0 ^ 3 - nth (S j) x 0)) in
    allen_cahn_lin (mk_marr 4 4 D) eps = inr L /\ allen_cahn_nl x u = inr N /\
    forall i, (i < 2)%nat -> let y := nth (S i) x 0 in
      (csum 2 (fun j => RtoC (m_at L i j) * nth j u (RtoC 0)) + nth i N (RtoC 0))%C = RtoC (eps * (6 * y) + y ^ 3 - y ^ 9).
Proof.
  assert (Hp : ispoly 4 (fun y => y ^ 3)).
  { exists [0; 0; 0; 1]. split; [cbn; lia|]. intros y. cbn. ring. }
  destruct (C62_allen_cahn_exact 3 (-1) 1 eps (fun y => y ^ 3) ltac:(lia) ltac:(lra) Hp ltac:(cbv beta; ring) ltac:(cbv beta; ring)) as (x & D & L & N & E1 & E2 & E3 & H).
  exists x, D, L, N. split; [exact E1|]. split; [exact E2|]. split; [exact E3|]. intros i Hi y. refine (eq_trans (H i Hi) _). fold y.
  f_equal. assert (Q : Derive_n (fun y => y ^ 3) 2 y = 6 * y).
  { cbn [Derive_n]. rewrite (Derive_ext _ (fun t => 3 * t ^ 2)).
    - rewrite (is_derive_unique _ _ (6 * y)); [reflexivity|]. auto_derive; [trivial|]. ring.
    - intros t. apply is_derive_unique. auto_derive; [trivial|]. ring. }
  rewrite Q. ring.
Qed.

(** What is refused: a derivative matrix that is not square, and states whose length does not fit the grid. *)
Theorem C62_errors : (forall d eps, m_cols d <> m_rows d -> allen_cahn_lin d eps = inl ValueError) /\
  (forall x u, length u <> (length x - 2)%nat -> length u <> 1%nat -> length x <> 3%nat -> allen_cahn_nl x u = inl ValueError).
Proof.
  split.
  - intros d eps H. unfold allen_cahn_lin. now rewrite (proj2 (Nat.eqb_neq _ _) H).
  - intros x u H1 H2 H3. unfold allen_cahn_nl. rewrite inner_len.
    rewrite (proj2 (Nat.eqb_neq _ _) H1), (proj2 (Nat.eqb_neq _ _) H2). now rewrite (proj2 (Nat.eqb_neq (length x - 2) 1) ltac:(lia)).
Qed.
Print Assumptions C62_allen_cahn.
Print Assumptions C62_allen_cahn_exact.
Print Assumptions C62_errors.
