(** * Local errors from the formal expansions

    Spec file: what the sums of [OrderWords] mean for a smooth solution, and the error of one step
    of a method given by a table. *)

From Coq Require Import ZArith List Bool Arith Reals Lra Lia QArith Qreals FunctionalExtensionality Setoid Morphisms.
From Coquelicot Require Import Complex.
From Verif Require Import CInst SpecRK SpecERK SchemeIFReal SpecPhi Asym Solution Voc OrderWords.
Import ListNotations.
Local Open Scope R_scope.

(** The functions [phi_k] of [sL], for all [k]; [k = 0] is the exponential. *)
Record phi_family (n : nat) (L : nat -> nat -> C) (T : R) (Ex : R -> nat -> nat -> C) (PH : nat -> R -> cvec -> cvec) : Prop := {
  pf_ops : phi_ops n L T PH;
  pf_0 : forall s v, veq (below n) (PH 0%nat s v) (mflow n Ex s v);
  pf_rec : forall k s v, veq (below n) (PH k s v) (cadd (rscal (/ INR (fact k)) v) (rscal s (mdot n L (PH (S k) s v))));
  pf_bnd : forall k, exists B, 0 <= B /\ forall s, 0 <= s <= T -> opn n (PH k s) B }.
(** [J] has the time derivative [J1], with a quadratic remainder. *)
Record Jsmooth (n : nat) (t0 tf K : R) (J J1 : R -> cvec -> cvec) : Prop := {
  js_lin : forall t, t0 <= t <= tf -> rlinear n (J1 t);
  js_bnd : forall t, t0 <= t <= tf -> opn n (J1 t) K;
  js_der : forall s t, t0 <= s <= tf -> t0 <= t <= tf ->
    opn n (fun v => csub (csub (J s v) (J t v)) (rscal (s - t) (J1 t v))) (K * (s - t) ^ 2) }.

Lemma Q2R_qfact k : Q2R (qfact k) = / INR (fact k).
Proof.
  unfold qfact, Q2R. cbn [Qnum Qden]. rewrite Rmult_1_l. f_equal. rewrite INR_IZR_INZ. f_equal.
  assert (H := lt_O_fact k). rewrite <- positive_nat_Z, Nat2Pos.id by lia. reflexivity.
Qed.
Lemma Q2R_qpow q m : Q2R (qpow q m) = Q2R q ^ m.
Proof. induction m as [|m IH]; cbn [qpow pow]; [unfold Q2R; cbn; lra|]. rewrite Q2R_mult, IH. reflexivity. Qed.
Lemma Q2R_1 : Q2R 1 = 1. Proof. unfold Q2R; cbn; lra. Qed.
Lemma Q2R_m1 : Q2R (-1) = -1. Proof. unfold Q2R; cbn; lra. Qed.
Lemma Q2R_0 : Q2R 0 = 0. Proof. unfold Q2R; cbn; lra. Qed.
Lemma unitb_R q : unitb q = true -> 0 <= Q2R q <= 1.
Proof.
  intros H. apply andb_prop in H. destruct H as [H1 H2]. apply Qle_bool_iff in H1. apply Qle_bool_iff in H2.
  apply Qle_Rle in H1. apply Qle_Rle in H2. rewrite Q2R_0 in H1. rewrite Q2R_1 in H2. lra.
Qed.

Section Local.
  Variables n p : nat.
  Variable L : nat -> nat -> C.
  Variable Ex : R -> nat -> nat -> C.
  Variable N : cvec -> cvec.
  Variables t0 tf rho K : R.
  Variable u : R -> cvec.
  Variable f : nat -> R -> cvec.
  Variables J J1 : R -> cvec -> cvec.
  Variable PH : nat -> R -> cvec -> cvec.
  Hypothesis HF : matflow n L Ex.
  Hypothesis HS : smooth n p L N t0 tf rho K u f J.
  Hypothesis HJ : Jsmooth n t0 tf K J J1.
  Hypothesis HP : phi_family n L (tf - t0) Ex PH.
  Notation adm := (adm t0 tf).
  Notation O := (bigO n R adm).
  Notation OO := (opO n R adm).
  Let ap := adm_pos t0 tf.

  (** ** Values of the sums *)
  Definition letter_op (a : letter) (t : R) : cvec -> cvec :=
    match a with AL => mdot n L | AJ => J t | AD => J1 t end.
  Definition wbase (k : nat) (t : R) : cvec := if Nat.leb k p then f k t else czero.
  Definition wval (w : word) (t : R) : cvec := fold_right (fun a v => letter_op a t v) (wbase (snd w) t) (fst w).
  Definition tval (x : Q * word) (t h : R) : cvec := rscal (Q2R (fst x) * h ^ wdeg (snd x)) (wval (snd x) t).
  Definition fval (s : fsum) (t h : R) : cvec := fold_right (fun x v => cadd (tval x t h) v) czero s.

  Lemma fval_nil t h : fval [] t h = czero.
  Proof. reflexivity. Qed.
  Lemma fval_cons x s t h : fval (x :: s) t h = cadd (tval x t h) (fval s t h).
  Proof. reflexivity. Qed.
  Lemma fval_app s s' t h : fval (s ++ s') t h = cadd (fval s t h) (fval s' t h).
  Proof.
    induction s as [|x s IH]; cbn [app].
    - rewrite fval_nil. apply functional_extensionality; intros i; unfold cadd, czero. ring.
    - rewrite !fval_cons, IH. apply functional_extensionality; intros i. unfold cadd. ring.
  Qed.
  Lemma fval_scale c s t h : fval (fscale c s) t h = rscal (Q2R c) (fval s t h).
  Proof.
    induction s as [|x s IH].
    - change (fscale c []) with (@nil (Q * word)). rewrite fval_nil. apply functional_extensionality; intros i; unfold cscal, czero. ring.
    - change (fscale c (x :: s)) with ((c * fst x, snd x)%Q :: fscale c s). rewrite !fval_cons, IH. apply functional_extensionality; intros i.
      unfold cadd, tval, cscal. cbn [fst snd]. rewrite Q2R_mult, !RtoC_mult. ring.
  Qed.
  Lemma adm_t t h : adm t h -> t0 <= t <= tf.
  Proof. intros (H1 & H2 & H3). lra. Qed.
  Lemma letter_lin a t : t0 <= t <= tf -> rlinear n (letter_op a t).
  Proof.
    intros Ht. destruct a; cbn.
    - apply linear_rlinear. apply mdot_linear.
    - apply (so_Jlin _ _ _ _ _ _ _ _ _ _ _ HS t Ht).
    - apply (js_lin _ _ _ _ _ _ HJ t Ht).
  Qed.
  Lemma letter_bnd a : exists B, 0 <= B /\ forall t, t0 <= t <= tf -> opn n (letter_op a t) B.
  Proof.
    assert (HK := so_K _ _ _ _ _ _ _ _ _ _ _ HS). destruct a; cbn.
    - destruct (L_bound n L) as (B & HB & H). exists B. split; [exact HB|]. intros _ _. exact H.
    - exists K. split; [exact HK|]. apply (so_Jbnd _ _ _ _ _ _ _ _ _ _ _ HS).
    - exists K. split; [exact HK|]. apply (js_bnd _ _ _ _ _ _ HJ).
  Qed.
  Lemma letter_OO a : OO 0 (fun t h => letter_op a t).
  Proof.
    destruct (letter_bnd a) as (B & HB & H). exists B, 1. split; [exact HB|]. split; [lra|]. intros t h Ha _. cbn [pow]. rewrite Rmult_1_r.
    apply H. apply (adm_t t h Ha).
  Qed.
  Lemma letter_ext a t x y : t0 <= t <= tf -> veq (below n) x y -> veq (below n) (letter_op a t x) (letter_op a t y).
  Proof. intros Ht. destruct (letter_bnd a) as (B & _ & H). apply (rl_ext n _ B); [apply letter_lin; exact Ht|apply H; exact Ht]. Qed.
  Lemma letter_zero a t : t0 <= t <= tf -> veq (below n) (letter_op a t czero) czero.
  Proof.
    intros Ht i Hi. assert (X := rl_scal _ _ (letter_lin a t Ht) 0 czero i Hi).
    assert (Z : rscal 0 czero = czero) by (apply functional_extensionality; intros j; unfold cscal, czero; ring).
    rewrite Z in X. rewrite X. unfold cscal, czero. ring.
  Qed.
  Lemma fval_lift a s t h : adm t h -> veq (below n) (fval (flift a s) t h) (rscal (h ^ ldeg a) (letter_op a t (fval s t h))).
  Proof.
    intros Ha. assert (Ht := adm_t t h Ha). induction s as [|x s IH]; intros i Hi.
    - change (flift a []) with (@nil (Q * word)). rewrite fval_nil. unfold cscal. rewrite (letter_zero a t Ht i Hi). unfold czero. ring.
    - change (flift a (x :: s)) with ((fst x, (a :: fst (snd x), snd (snd x))) :: flift a s). rewrite !fval_cons.
      unfold cadd at 1. rewrite (IH i Hi). unfold cscal.
      rewrite (rl_add _ _ (letter_lin a t Ht) (tval x t h) (fval s t h) i Hi). unfold cadd, tval. cbn [fst snd].
      rewrite (rl_scal _ _ (letter_lin a t Ht) _ (wval (snd x) t) i Hi). unfold cscal.
      change (wdeg (a :: fst (snd x), snd (snd x))) with (ldeg a + wdeg (snd x))%nat.
      change (wval (a :: fst (snd x), snd (snd x)) t) with (letter_op a t (wval (snd x) t)).
      rewrite pow_add, !RtoC_mult. ring.
  Qed.
  Lemma fval_insert q w s t h : fval (finsert q w s) t h = cadd (tval (q, w) t h) (fval s t h).
  Proof.
    induction s as [|[q' w'] s IH]; cbn [finsert].
    - destruct (Qeq_bool q 0) eqn:E; [|reflexivity]. apply Qeq_bool_iff in E. apply Qeq_eqR in E.
      rewrite fval_nil. apply functional_extensionality. intros i. unfold tval, cadd, cscal, czero. cbn [fst snd]. rewrite E, Q2R_0, Rmult_0_l. ring.
    - destruct (weqb w w') eqn:E.
      + apply weqb_eq in E. subst w'. assert (X : Q2R (Qred (q + q')) = Q2R q + Q2R q') by (rewrite <- Q2R_plus; apply Qeq_eqR, Qred_correct).
        cbn zeta. destruct (Qeq_bool (Qred (q + q')) 0) eqn:E0; apply functional_extensionality; intros i; rewrite ?fval_cons;
          unfold tval, cadd, cscal; cbn [fst snd].
        * apply Qeq_bool_iff in E0. apply Qeq_eqR in E0. rewrite X, Q2R_0 in E0. replace (Q2R q') with (- Q2R q) by lra.
          rewrite !RtoC_mult, RtoC_opp. ring.
        * rewrite X, !RtoC_mult, RtoC_plus. ring.
      + rewrite !fval_cons, IH. apply functional_extensionality. intros i. unfold cadd. ring.
  Qed.
  Lemma fval_norm s t h : fval (fnorm s) t h = fval s t h.
  Proof.
    induction s as [|[q w] s IH]; [reflexivity|]. change (fnorm ((q, w) :: s)) with (finsert q w (fnorm s)). rewrite fval_insert, IH. reflexivity.
  Qed.
  Lemma wval_O w : O 0 (fun t h => wval w t).
  Proof.
    destruct w as [ls k]. unfold wval. cbn [fst snd]. induction ls as [|a ls IH]; cbn [fold_right].
    - unfold wbase. destruct (Nat.leb k p) eqn:E; [|apply O_zero]. apply Nat.leb_le in E. apply (f_O n p L N t0 tf rho K u f J HS k E).
    - exact (O_op n R adm ap 0 0 _ _ (letter_OO a) IH).
  Qed.
  Lemma tval_O x : O (wdeg (snd x)) (tval x).
  Proof. assert (X := O_mul n R adm ap (Q2R (fst x)) (wdeg (snd x)) 0 _ (wval_O (snd x))). rewrite Nat.add_0_r in X. exact X. Qed.
  Lemma fval_O r s : (forall x, In x s -> (r <= wdeg (snd x))%nat) -> O r (fval s).
  Proof.
    induction s as [|x s IH]; intros H; [apply O_zero|]. apply (O_add n R adm r (tval x) (fval s)).
    - apply (O_weak n R adm ap r (wdeg (snd x))); [apply H; left; reflexivity|apply tval_O].
    - apply IH. intros y Hy. apply H. right. exact Hy.
  Qed.
  Lemma fmin_le s top x : In x s -> (fmin s top <= wdeg (snd x))%nat.
  Proof. induction s as [|y s IH]; intros H; [destruct H|]. cbn [fmin fold_right]. fold (fmin s top). destruct H as [->|H]; [lia|]. specialize (IH H). lia. Qed.
  Lemma fmin_top s top : (fmin s top <= top)%nat.
  Proof. induction s as [|y s IH]; [apply le_n|]. cbn [fmin fold_right]. fold (fmin s top). lia. Qed.
  Lemma fmin_pos s top : (1 <= top)%nat -> (1 <= fmin s top)%nat.
  Proof. intros H. induction s as [|y s IH]; [exact H|]. cbn [fmin fold_right]. fold (fmin s top). assert (X := wdeg_pos (snd y)). lia. Qed.

  (** ** Known up to a degree *)
  Definition ex (d : nat) (F : R -> R -> cvec) (s : fsum) : Prop := O (S d) (fun t h => csub (F t h) (fval s t h)).
  Lemma ex_ext d F G s : (forall t h, adm t h -> veq (below n) (F t h) (G t h)) -> ex d F s -> ex d G s.
  Proof. intros H. apply O_ext. intros t h Ha. apply csub_proper; [apply H; exact Ha|reflexivity]. Qed.
  Lemma ex_fext d F s s' : (forall t h, adm t h -> veq (below n) (fval s t h) (fval s' t h)) -> ex d F s -> ex d F s'.
  Proof. intros H. apply O_ext. intros t h Ha. apply csub_proper; [reflexivity|apply H; exact Ha]. Qed.
  Lemma ex_weak d d' F s : (d' <= d)%nat -> ex d F s -> ex d' F s.
  Proof. intros H. apply (O_weak n R adm ap). lia. Qed.
  Lemma ex_add d F G s s' : ex d F s -> ex d G s' -> ex d (fun t h => cadd (F t h) (G t h)) (s ++ s').
  Proof.
    intros H1 H2. eapply O_ext; [|apply (O_add n R adm (S d) _ _ H1 H2)]. intros t h _ i _. rewrite fval_app. unfold cadd, csub. ring.
  Qed.
  Lemma ex_scale d c F s : ex d F s -> ex d (fun t h => rscal (Q2R c) (F t h)) (fscale c s).
  Proof.
    intros H. eapply O_ext; [|apply (O_const n R adm ap (Q2R c) (S d) _ H)]. intros t h _ i _. rewrite fval_scale. unfold cscal, csub. ring.
  Qed.
  Lemma ex_zero d : ex d (fun _ _ => czero) [].
  Proof. eapply O_ext; [|apply (O_zero n R adm (S d))]. intros t h _ i _. unfold csub, czero. cbn. unfold czero. ring. Qed.
  Lemma ex_small d F G s : ex d F s -> O (S d) G -> ex d (fun t h => cadd (F t h) (G t h)) s.
  Proof. intros H1 H2. eapply O_ext; [|apply (O_add n R adm (S d) _ _ H1 H2)]. intros t h _ i _. unfold cadd, csub. ring. Qed.
  Lemma ex_trunc d F s : ex d F s -> ex d F (ftrunc d s).
  Proof.
    intros H. assert (X : O (S d) (fun t h => csub (fval s t h) (fval (ftrunc d s) t h))).
    { clear H. induction s as [|x s IH].
      - apply (O_ext n R adm (S d) (fun _ _ => czero)); [|apply O_zero]. intros t h _ i _. cbn. unfold csub, czero. ring.
      - cbn [ftrunc filter]. destruct (Nat.leb (wdeg (snd x)) d) eqn:E.
        + eapply O_ext; [|exact IH]. intros t h _ i _. rewrite !fval_cons. unfold csub, cadd, ftrunc. ring.
        + apply Nat.leb_gt in E. eapply O_ext; [|apply (O_add n R adm (S d) _ _ IH (O_weak n R adm ap (S d) (wdeg (snd x)) _ ltac:(lia) (tval_O x)))].
          intros t h _ i _. rewrite fval_cons. unfold csub, cadd, ftrunc. ring. }
    eapply O_ext; [|apply (O_add n R adm (S d) _ _ H X)]. intros t h _ i _. unfold cadd, csub. ring.
  Qed.
  Lemma ex_norm d F s : ex d F s -> ex d F (fnorm s).
  Proof. apply ex_fext. intros t h _. rewrite fval_norm. reflexivity. Qed.
  Lemma ex_O d F s r : ex d F s -> (r <= S d)%nat -> (forall x, In x s -> (r <= wdeg (snd x))%nat) -> O r F.
  Proof.
    intros H Hr Hs. eapply O_ext; [|apply (O_add n R adm r _ _ (O_weak n R adm ap r (S d) _ Hr H) (fval_O r s Hs))].
    intros t h _ i _. unfold cadd, csub. ring.
  Qed.

  (** ** Coefficients *)
  Definition Lp (m : nat) (v : cvec) : cvec := Nat.iter m (mdot n L) v.
  Definition pser (k : nat) (M : nat) (s : R) (v : cvec) : cvec := vsum M (fun m => rscal (s ^ m / INR (fact (m + k))) (Lp m v)).
  Lemma Lp_S m v : Lp (S m) v = Lp m (mdot n L v).
  Proof. induction m as [|m IH]; [reflexivity|]. change (mdot n L (Lp (S m) v) = mdot n L (Lp m (mdot n L v))). rewrite IH. reflexivity. Qed.
  Lemma Lp_lin m : rlinear n (Lp m).
  Proof.
    induction m as [|m IH]; [split; reflexivity|]. destruct (L_bound n L) as (B & HB & H).
    apply (rlinear_comp n (mdot n L) (Lp m) B H (linear_rlinear n _ (mdot_linear n L)) IH).
  Qed.
  Lemma L_ext x y : veq (below n) x y -> veq (below n) (mdot n L x) (mdot n L y).
  Proof. destruct (L_bound n L) as (B & HB & H). apply (rl_ext n _ B); [apply linear_rlinear, mdot_linear|exact H]. Qed.
  Lemma Lp_ext m x y : veq (below n) x y -> veq (below n) (Lp m x) (Lp m y).
  Proof. intros H. induction m as [|m IH]; [exact H|]. apply (L_ext _ _ IH). Qed.
  Lemma Lp_bnd m : exists B, 0 <= B /\ opn n (Lp m) B.
  Proof.
    induction m as [|m (B & HB & H)]; [exists 1; split; [lra|apply opn_id]|]. destruct (L_bound n L) as (B' & HB' & H').
    exists (B' * B). split; [apply Rmult_le_pos; assumption|]. apply (opn_comp n (mdot n L) (Lp m) B' B HB H' H).
  Qed.
  Lemma pser_exact k M s v : veq (below n) (PH k s v) (cadd (pser k M s v) (rscal (s ^ M) (Lp M (PH (M + k)%nat s v)))).
  Proof.
    induction M as [|M IH]; intros i Hi.
    - unfold pser, vsum. cbn. unfold cadd, cscal. cbn. ring.
    - rewrite (IH i Hi). unfold cadd, pser, vsum. cbn [csum]. unfold cscal at 2 4 5.
      assert (X := Lp_ext M _ _ (pf_rec _ _ _ _ _ HP (M + k)%nat s v) i Hi). rewrite X.
      rewrite (rl_add _ _ (Lp_lin M) _ _ i Hi). unfold cadd. rewrite (rl_scal _ _ (Lp_lin M) _ _ i Hi), (rl_scal _ _ (Lp_lin M) _ _ i Hi).
      unfold cscal. replace (Lp (S M) (PH (S M + k)%nat s v) i) with (Lp M (mdot n L (PH (S (M + k)) s v)) i).
      + cbn [pow]. unfold Rdiv. rewrite !RtoC_mult. ring.
      + cbn [Nat.add]. rewrite Lp_S. reflexivity.
  Qed.
  Lemma PH_bnd k th : 0 <= th <= 1 -> OO 0 (fun t h => PH k (th * h)).
  Proof.
    intros Hth. destruct (pf_bnd _ _ _ _ _ HP k) as (B & HB & H). exists B, 1. split; [exact HB|]. split; [lra|].
    intros t h (H1 & H2 & H3) _. cbn [pow]. rewrite Rmult_1_r. apply H. split; [apply Rmult_le_pos; lra|nra].
  Qed.
  Lemma PH_series k th M : 0 <= th <= 1 -> OO M (fun t h v => csub (PH k (th * h) v) (pser k M (th * h) v)).
  Proof.
    intros Hth. destruct (Lp_bnd M) as (B & HB & H). destruct (pf_bnd _ _ _ _ _ HP (M + k)%nat) as (B' & HB' & H').
    exists (B * B'), 1. split; [apply Rmult_le_pos; assumption|]. split; [lra|]. intros t h (H1 & H2 & H3) _ v x Hx Hv.
    assert (Hs : 0 <= th * h <= h) by (split; [apply Rmult_le_pos; lra|nra]).
    apply (vle_ext n (rscal ((th * h) ^ M) (Lp M (PH (M + k)%nat (th * h) v)))).
    - intros i Hi. unfold csub. rewrite (pser_exact k M (th * h) v i Hi). unfold cadd. ring.
    - apply (vle_mono n _ (Rabs ((th * h) ^ M) * (B * (B' * x)))).
      + apply vle_rscal. apply H; [apply Rmult_le_pos; assumption|]. apply H'; [lra|exact Hx|exact Hv].
      + assert (P : Rabs ((th * h) ^ M) <= h ^ M) by (rewrite Rabs_pos_eq by (apply pow_le; lra); apply pow_incr; exact Hs).
        apply Rle_trans with (h ^ M * (B * (B' * x))); [|right; ring]. apply Rmult_le_compat_r; [|exact P]. apply Rmult_le_pos; [exact HB|apply Rmult_le_pos; assumption].
  Qed.
  Lemma pser_sub k M s a b : veq (below n) (pser k M s (csub a b)) (csub (pser k M s a) (pser k M s b)).
  Proof.
    intros i Hi. unfold csub at 2. unfold pser, vsum.
    transitivity (csum M (fun m => RtoC (s ^ m / INR (fact (m + k))) * Lp m a i + (- RtoC 1) * (RtoC (s ^ m / INR (fact (m + k))) * Lp m b i)))%C.
    - apply csum_ext. intros m _. unfold cscal. rewrite (rl_sub n _ a b (Lp_lin m) i Hi). unfold csub. ring.
    - rewrite csum_plus, csum_scal. unfold cscal. ring.
  Qed.
  Lemma fval_liftn m s t h : adm t h -> veq (below n) (fval (fliftn m s) t h) (rscal (h ^ m) (Lp m (fval s t h))).
  Proof.
    intros Ha. induction m as [|m IH]; intros i Hi.
    - change (fval s t h i = RtoC 1 * fval s t h i)%C. ring.
    - change (fliftn (S m) s) with (flift AL (fliftn m s)). rewrite (fval_lift AL _ t h Ha i Hi). unfold cscal at 1. cbn [letter_op ldeg].
      rewrite (L_ext _ _ IH i Hi). rewrite (rl_scal _ _ (linear_rlinear n _ (mdot_linear n L)) _ _ i Hi). unfold cscal.
      change (Lp (S m) (fval s t h)) with (mdot n L (Lp m (fval s t h))). cbn [pow]. rewrite !RtoC_mult. ring.
  Qed.
  Lemma fval_phi D k th s t h : adm t h -> veq (below n) (fval (fphi D k th s) t h) (pser k (S D) (Q2R th * h) (fval s t h)).
  Proof.
    intros Ha. unfold fphi, pser, vsum. generalize (S D). intros M i Hi.
    assert (G : forall M b, fval (flat_map (fun m => fscale (qpow th m * qfact (m + k)) (fliftn m s)) (seq b M)) t h i =
              csum M (fun m => rscal ((Q2R th * h) ^ (b + m) / INR (fact (b + m + k))) (Lp (b + m) (fval s t h)) i)).
    { clear M. induction M as [|M IH]; intros b; [reflexivity|]. cbn [seq flat_map]. rewrite fval_app. unfold cadd. rewrite IH, fval_scale. unfold cscal at 1.
      rewrite (fval_liftn b s t h Ha i Hi), ContourReal.csum_shift. f_equal.
      - unfold cscal. rewrite Nat.add_0_r, Q2R_mult, Q2R_qpow, Q2R_qfact, Rpow_mult_distr. unfold Rdiv. rewrite !RtoC_mult. ring.
      - apply csum_ext. intros m _. rewrite Nat.add_succ_r. reflexivity. }
    exact (G M 0%nat).
  Qed.
  Lemma ex_bounded d F s : ex d F s -> O 0 F.
  Proof. intros H. apply (ex_O d F s 0 H); [lia|]. intros; lia. Qed.
  Lemma ex_phi D d k th F s : (d <= D)%nat -> 0 <= Q2R th <= 1 -> ex d F s -> ex d (fun t h => PH k (Q2R th * h) (F t h)) (fphi D k th s).
  Proof.
    intros Hd Hth H.
    assert (A1 := O_op n R adm ap (S D) 0 _ _ (PH_series k (Q2R th) (S D) Hth) (ex_bounded d F s H)). rewrite Nat.add_0_r in A1.
    assert (A2 := O_op n R adm ap 0 (S d) _ _ (PH_bnd k (Q2R th) Hth) H).
    assert (A3 := O_op n R adm ap (S D) (S d) _ _ (PH_series k (Q2R th) (S D) Hth) H).
    assert (A4 := O_sub n R adm (S d) _ _ (O_weak n R adm ap (S d) (S D) _ ltac:(lia) A1) (O_weak n R adm ap (S d) (S D + S d) _ ltac:(lia) A3)).
    eapply O_ext; [|apply (O_add n R adm (S d) _ _ A4 A2)].
    intros t h Ha i Hi. unfold cadd, csub. rewrite (fval_phi D k th s t h Ha i Hi).
    fold (csub (F t h) (fval s t h)). rewrite (pser_sub k (S D) _ _ _ i Hi). unfold csub. ring.
  Qed.

  Lemma ex_truncD D d F s : (d <= D)%nat -> ex d F s -> ex d F (ftrunc D s).
  Proof.
    intros Hd H. assert (X : O (S D) (fun t h => csub (fval s t h) (fval (ftrunc D s) t h))).
    { assert (Y : ex D (fval s) s).
      { apply (O_ext n R adm (S D) (fun _ _ => czero)); [|apply O_zero]. intros t h _ i _. unfold csub, czero. ring. }
      exact (ex_trunc D _ _ Y). }
    eapply O_ext; [|apply (O_add n R adm (S d) _ _ H (O_weak n R adm ap (S d) (S D) _ ltac:(lia) X))]. intros t h _ i _. unfold cadd, csub. ring.
  Qed.
  Lemma ex_sum D d (G : nat -> R -> R -> cvec) (g : nat -> fsum) M : forall b, (forall m, (m < b + M)%nat -> ex d (G m) (g m)) -> (d <= D)%nat ->
    ex d (fun t h => vsum M (fun m => G (b + m)%nat t h)) (flat_map g (seq b M)).
  Proof.
    induction M as [|M IH]; intros b H Hd; [apply ex_zero|]. cbn [seq flat_map].
    eapply ex_ext; [|apply (ex_add d _ _ _ _ (H b ltac:(lia)) (IH (S b) ltac:(intros m Hm; apply H; lia) Hd))].
    intros t h _ i _. unfold cadd, vsum. rewrite ContourReal.csum_shift, Nat.add_0_r. f_equal. apply csum_ext. intros m _. rewrite Nat.add_succ_r. reflexivity.
  Qed.
  Lemma ex_exact d F s : (forall t h, adm t h -> veq (below n) (F t h) (fval s t h)) -> ex d F s.
  Proof. intros H. apply (O_ext n R adm (S d) (fun _ _ => czero)); [|apply O_zero]. intros t h Ha i Hi. unfold csub, czero. rewrite (H t h Ha i Hi). ring. Qed.
  Lemma ex_base d q k : (k <= p)%nat -> ex d (fun t h => rscal (Q2R q * h ^ S k) (f k t)) [(q, ([], k))].
  Proof.
    intros Hk. apply ex_exact. intros t h _ i _. rewrite fval_cons, fval_nil. unfold tval, wval, wbase, wdeg. cbn [fst snd fold_right].
    rewrite (proj2 (Nat.leb_le k p) Hk). unfold cadd, czero. ring.
  Qed.

  (** ** The solution *)
  Lemma ex_taylor D c : (D <= p)%nat -> 0 <= Q2R c <= 1 -> ex D (fun t h => rscal h (f 0%nat (t + Q2R c * h))) (ftaylor D c).
  Proof.
    intros HD Hc. assert (A := O_mul n R adm ap 1 1 D _ (f_taylor n p L N t0 tf rho K u f J HS D (Q2R c) HD Hc)).
    assert (B : ex D (fun t h => vsum D (fun k => rscal (Q2R (qpow c k * qfact k) * h ^ S k) (f k t))) (ftaylor D c)).
    { assert (E : ftaylor D c = flat_map (fun k => [((qpow c k * qfact k)%Q, ([], k) : word)]) (seq 0 D)).
      { unfold ftaylor. induction (seq 0 D) as [|k l IH]; [reflexivity|]. cbn [map flat_map app]. rewrite IH. reflexivity. }
      rewrite E. apply (ex_sum D D (fun k t h => rscal (Q2R (qpow c k * qfact k) * h ^ S k) (f k t)) _ D 0%nat); [|lia].
      intros k Hk. apply ex_base. lia. }
    eapply O_ext; [|apply (O_add n R adm (S D) _ _ A B)]. intros t h _ i _. unfold cadd, csub, cscal, vsum, vtay.
    assert (X : csum D (fun k => RtoC (Q2R (qpow c k * qfact k) * h ^ S k) * f k t i)%C = (RtoC h * csum D (fun k => RtoC ((Q2R c * h) ^ k / INR (fact k)) * f k t i))%C).
    { rewrite <- csum_scal. apply csum_ext. intros k _. rewrite Q2R_mult, Q2R_qpow, Q2R_qfact, Rpow_mult_distr. unfold Rdiv. cbn [pow]. rewrite !RtoC_mult. ring. }
    rewrite X. cbn [pow]. rewrite Rmult_1_l, Rmult_1_r. ring.
  Qed.
  Lemma PH_lin k s : rlinear n (PH k s).
  Proof. apply (po_lin _ _ _ _ (pf_ops _ _ _ _ _ HP)). Qed.
  Lemma ex_voc D c : (D <= p)%nat -> 0 <= Q2R c <= 1 ->
    ex D (fun t h => csub (u (t + Q2R c * h)) (PH 0%nat (Q2R c * h) (u t))) (fvoc D c).
  Proof.
    intros HD Hc. assert (A := voc n p L Ex N t0 tf rho K u f J PH HF HS (pf_ops _ _ _ _ _ HP) D (Q2R c) HD Hc).
    assert (B : ex D (fun t h => vsum D (fun k => PH (S k) (Q2R c * h) (rscal (Q2R (qpow c (S k)) * h ^ S k) (f k t)))) (fvoc D c)).
    { apply (ex_sum D D (fun k t h => PH (S k) (Q2R c * h) (rscal (Q2R (qpow c (S k)) * h ^ S k) (f k t))) (fun k => fphi D (S k) c [(qpow c (S k), ([], k))]) D 0%nat); [|lia].
      intros k Hk. apply ex_phi; [lia|exact Hc|]. apply ex_base. lia. }
    eapply O_ext; [|apply (O_add n R adm (S D) _ _ A B)]. intros t h _ i Hi. unfold cadd, csub. rewrite (pf_0 _ _ _ _ _ HP _ _ i Hi).
    assert (X : vsum D (fun k => PH (S k) (Q2R c * h) (rscal (Q2R (qpow c (S k)) * h ^ S k) (f k t))) i = vocsum f PH D t (Q2R c * h) i).
    { unfold vsum, vocsum, vsum. apply csum_ext. intros k _. rewrite (rl_scal _ _ (PH_lin (S k) _) _ _ i Hi). unfold cscal. rewrite Q2R_qpow, Rpow_mult_distr. reflexivity. }
    rewrite X. ring.
  Qed.

  (** ** Linearised nonlinear term *)
  Lemma J_series th : 0 <= th <= 1 -> OO 2 (fun t h v => csub (csub (J (t + th * h) v) (J t v)) (rscal (th * h) (J1 t v))).
  Proof.
    intros Hth. assert (HK := so_K _ _ _ _ _ _ _ _ _ _ _ HS). exists K, 1. split; [exact HK|]. split; [lra|]. intros t h Ha _.
    assert (X := js_der _ _ _ _ _ _ HJ (t + th * h) t (th_time t0 tf th t h Hth Ha) (adm_t t h Ha)).
    replace (t + th * h - t) with (th * h) in X by ring. apply (opn_mono n _ (K * (th * h) ^ 2)); [exact X|].
    apply Rmult_le_compat_l; [exact HK|]. assert (Hp := ap t h Ha). apply pow_incr. split; [apply Rmult_le_pos; lra|nra].
  Qed.
  Lemma ex_J e r th F s : 0 <= Q2R th <= 1 -> ex e F s -> O r F ->
    ex (Nat.min (S e) (r + 2)) (fun t h => rscal h (J (t + Q2R th * h) (F t h))) (flift AJ s ++ fscale th (flift AD s)).
  Proof.
    intros Hth H Hr. set (d := Nat.min (S e) (r + 2)).
    assert (A1 := O_mul n R adm ap 1 1 (2 + r) _ (O_op n R adm ap 2 r _ _ (J_series (Q2R th) Hth) Hr)).
    assert (A2 := O_mul n R adm ap 1 1 (0 + S e) _ (O_op n R adm ap 0 (S e) _ _ (letter_OO AJ) H)).
    assert (A3 := O_mul n R adm ap (Q2R th) 2 (0 + S e) _ (O_op n R adm ap 0 (S e) _ _ (letter_OO AD) H)).
    assert (B1 := O_weak n R adm ap (S d) (1 + (2 + r)) _ ltac:(unfold d; lia) A1).
    assert (B2 := O_weak n R adm ap (S d) (1 + (0 + S e)) _ ltac:(unfold d; lia) A2).
    assert (B3 := O_weak n R adm ap (S d) (2 + (0 + S e)) _ ltac:(unfold d; lia) A3).
    eapply O_ext; [|apply (O_add n R adm (S d) _ _ B1 (O_add n R adm (S d) _ _ B2 B3))].
    intros t h Ha i Hi. assert (Ht := adm_t t h Ha). cbn [letter_op]. rewrite fval_app, fval_scale. unfold cadd, cscal.
    unfold csub at 5. rewrite (fval_lift AJ s t h Ha i Hi), (fval_lift AD s t h Ha i Hi). cbn [letter_op ldeg].
    rewrite (rl_sub n _ _ _ (letter_lin AJ t Ht) i Hi), (rl_sub n _ _ _ (letter_lin AD t Ht) i Hi). cbn [letter_op]. unfold csub, cscal.
    cbn [pow]. rewrite !RtoC_mult. ring.
  Qed.
  Lemma ex_N e th F s V : 0 <= Q2R th <= 1 -> (e <= p)%nat ->
    ex e (fun t h => csub (V t h) (u (t + Q2R th * h))) s -> F = (fun t h => N (V t h)) -> forall D, (D <= p)%nat ->
    ex (snd (fnext D th (s, e))) (fun t h => rscal h (F t h)) (fst (fnext D th (s, e))).
  Proof.
    intros Hth He H -> D HD. unfold fnext. cbn [fst snd]. set (r := fmin s (S e)). set (d := Nat.min D (Nat.min (S e) (Nat.min (r + 2) (r + r)))).
    assert (Hr : O r (fun t h => csub (V t h) (u (t + Q2R th * h)))).
    { apply (ex_O e _ s r H); [apply fmin_top|]. intros x Hx. apply fmin_le. exact Hx. }
    assert (Hr1 : (1 <= r)%nat) by (apply fmin_pos; lia).
    assert (A1 := ex_weak D d _ _ ltac:(unfold d; lia) (ex_taylor D th HD Hth)).
    assert (A2 := ex_weak (Nat.min (S e) (r + 2)) d _ _ ltac:(unfold d; lia) (ex_J e r th _ s Hth H Hr)).
    assert (A3 := O_mul n R adm ap 1 1 (r + r) _ (O_quad n R adm ap r (Nrem N u J (Q2R th)) _ ltac:(lia) (Nrem_quad n p L N t0 tf rho K u f J HS (Q2R th) Hth) Hr)).
    assert (A4 := O_weak n R adm ap (S d) (1 + (r + r)) _ ltac:(unfold d; lia) A3).
    apply ex_norm. apply ex_trunc.
    eapply ex_ext; [|apply (ex_small d _ _ _ (ex_add d _ _ _ _ A1 A2) A4)].
    intros t h Ha i Hi. unfold cadd, cscal. rewrite (N_expand n p L N t0 tf rho K u f J HS (Q2R th) t h (V t h) Hth Ha i Hi). unfold cadd, Jop. cbn [pow].
    rewrite Rmult_1_l, Rmult_1_r. ring.
  Qed.

  (** ** Methods *)
  Definition pop (ts : list pterm) (h : R) (v : cvec) : cvec :=
    fold_right (fun x w => cadd (rscal (Q2R (fst (fst x))) (PH (snd (fst x)) (Q2R (snd x) * h) v)) w) czero ts.
  Definition row_ops (r : row) (h : R) : list op := map (fun ts => pop ts h) (r_a r).
  Definition row_E (r : row) (h : R) : op := PH 0%nat (Q2R (r_c r) * h).
  Definition table_erk (m : method) (h : R) : erk :=
    mk_erk (map (fun r => row_E r h) (mt_stages m)) (map (fun r => row_ops r h) (mt_stages m)) (row_E (mt_last m) h) (row_ops (mt_last m) h).
  Lemma pop_scal ts h c v i : (i < n)%nat -> pop ts h (rscal c v) i = (RtoC c * pop ts h v i)%C.
  Proof.
    intros Hi. induction ts as [|x ts IH]; cbn [pop fold_right]; [unfold czero; ring|]. fold (pop ts h (rscal c v)). fold (pop ts h v).
    unfold cadd. rewrite IH. unfold cscal at 1. rewrite (rl_scal _ _ (PH_lin _ _) c v i Hi). unfold cscal. ring.
  Qed.
  Lemma ex_coef D d ts F s : (d <= D)%nat -> forallb (fun x => unitb (snd x)) ts = true -> ex d F s -> ex d (fun t h => pop ts h (F t h)) (fcoef D ts s).
  Proof.
    intros Hd Hu H. induction ts as [|x ts IH]; [apply ex_zero|]. cbn [forallb] in Hu. apply andb_prop in Hu. destruct Hu as [H1 H2].
    cbn [pop fold_right fcoef flat_map]. apply ex_add; [|apply IH; exact H2].
    apply ex_truncD; [exact Hd|]. apply ex_scale. apply ex_phi; [exact Hd|apply unitb_R; exact H1|exact H].
  Qed.
  Definition inv (g : known) (F : R -> R -> cvec) : Prop := ex (snd g) (fun t h => rscal h (F t h)) (fst g).
  Lemma fdeg_le D a : forall gs, (fdeg D a gs <= D)%nat.
  Proof. induction a as [|ts a IH]; intros [|g gs]; cbn [fdeg]; try (destruct ts); try lia; specialize (IH gs); lia. Qed.
  Lemma ex_comb D : forall a gs Fs, forallb (forallb (fun x => unitb (snd x))) a = true -> Forall2 inv gs Fs ->
    ex (fdeg D a gs) (fun t h => rscal h (ocomb (map (fun ts => pop ts h) a) (map (fun F => F t h) Fs))) (fcomb D a gs).
  Proof.
    induction a as [|ts a IH]; intros gs Fs Hu H.
    - assert (X := ex_zero D). cbn [map ocomb fcomb fdeg]. destruct gs; (eapply ex_ext; [|exact X]); intros t h _ i _; unfold cscal, czero; ring.
    - destruct H as [|g F gs Fs Hg H].
      + cbn [map ocomb fcomb fdeg]. assert (X : ex D (fun t h => rscal h (fun _ => RtoC 0)) []) by
          (eapply ex_ext; [|exact (ex_zero D)]; intros t h _ i _; unfold cscal, czero; ring).
        destruct ts; exact X.
      + cbn [forallb] in Hu. apply andb_prop in Hu. destruct Hu as [H1 H2]. specialize (IH gs Fs H2 H). cbn [map ocomb fcomb].
        assert (Hd := fdeg_le D a gs).
        assert (G : forall d, (d <= fdeg D a gs)%nat -> (ts = [] \/ (d <= snd g)%nat) ->
                  ex d (fun t h => rscal h (cadd (pop ts h (F t h)) (ocomb (map (fun ts => pop ts h) a) (map (fun F => F t h) Fs)))) (fcoef D ts (fst g) ++ fcomb D a gs)).
        { intros d Hd1 Hd2. assert (X : ex d (fun t h => pop ts h (rscal h (F t h))) (fcoef D ts (fst g))).
          { destruct Hd2 as [->|Hd2]; [apply ex_zero|]. apply ex_coef; [lia|exact H1|]. apply (ex_weak (snd g) d); [exact Hd2|exact Hg]. }
          eapply ex_ext; [|apply (ex_add d _ _ _ _ X (ex_weak _ d _ _ Hd1 IH))].
          intros t h _ i Hi. unfold cadd, cscal at 2 3. rewrite (pop_scal ts h h (F t h) i Hi). ring. }
        cbn [fdeg]. destruct ts as [|x ts]; [apply G; [lia|left; reflexivity]|]. apply G; [lia|right; lia].
  Qed.
  Lemma ex_err D r gs Fs : (D <= p)%nat -> row_ok r = true -> Forall2 inv gs Fs ->
    ex (snd (ferr D r gs)) (fun t h => csub (erk_value h (u t) (row_E r h) (row_ops r h) (map (fun F => F t h) Fs)) (u (t + Q2R (r_c r) * h))) (fst (ferr D r gs)).
  Proof.
    intros HD Hr H. apply andb_prop in Hr. destruct Hr as [H1 H2]. unfold ferr. cbn [fst snd]. set (e := fdeg D (r_a r) gs).
    assert (He := fdeg_le D (r_a r) gs). fold e in He. apply ex_norm, ex_trunc.
    assert (A1 := ex_comb D (r_a r) gs Fs H2 H). fold e in A1.
    assert (A2 := ex_weak D e _ _ He (ex_scale D (-1) _ _ (ex_voc D (r_c r) HD (unitb_R _ H1)))).
    eapply ex_ext; [|apply (ex_add e _ _ _ _ A1 A2)]. intros t h _ i _. unfold erk_value, row_E, row_ops, cadd, csub, cscal.
    rewrite Q2R_m1, RtoC_m1. ring.
  Qed.
  Fixpoint fam_stages (rows : list row) (Fs : list (R -> R -> cvec)) : list (R -> R -> cvec) :=
    match rows with
    | [] => Fs
    | r :: rows => fam_stages rows (Fs ++ [fun t h => N (erk_value h (u t) (row_E r h) (row_ops r h) (map (fun F => F t h) Fs))])
    end.
  Lemma fam_erk t h : forall rows Fs, erk_stages N h (u t) (map (fun r => row_E r h) rows) (map (fun r => row_ops r h) rows) (map (fun F => F t h) Fs)
    = map (fun F => F t h) (fam_stages rows Fs).
  Proof. induction rows as [|r rows IH]; intros Fs; [reflexivity|]. cbn [map erk_stages fam_stages]. rewrite <- IH, map_app. reflexivity. Qed.
  Lemma inv_stages D : (D <= p)%nat -> forall rows gs Fs, forallb row_ok rows = true -> Forall2 inv gs Fs -> Forall2 inv (fstages D rows gs) (fam_stages rows Fs).
  Proof.
    intros HD. induction rows as [|r rows IH]; intros gs Fs Hr H; [exact H|]. cbn [forallb] in Hr. apply andb_prop in Hr. destruct Hr as [H1 H2].
    cbn [fstages fam_stages]. apply IH; [exact H2|]. apply Forall2_app; [exact H|]. constructor; [|constructor].
    unfold inv. assert (X := ex_err D r gs Fs HD H1 H). destruct (ferr D r gs) as [s e] eqn:E. cbn [fst snd] in X.
    assert (He : (e <= p)%nat).
    { assert (Y := fdeg_le D (r_a r) gs). unfold ferr in E. injection E as _ E. lia. }
    apply andb_prop in H1. destruct H1 as [H1 _]. exact (ex_N e (r_c r) _ s _ (unitb_R _ H1) He X eq_refl D HD).
  Qed.
  (** The error of a step from the solution. *)
  Theorem table_local D m : (D <= p)%nat -> method_ok m = true ->
    ex (snd (flocal D m)) (fun t h => csub (erk_step (table_erk m h) N h (u t)) (u (t + h))) (fst (flocal D m)).
  Proof.
    intros HD Hm. apply andb_prop in Hm. destruct Hm as [Hm H3]. apply andb_prop in Hm. destruct Hm as [H1 H2].
    assert (X := ex_err D (mt_last m) _ _ HD H2 (inv_stages D HD (mt_stages m) [] [] H1 (Forall2_nil _))).
    apply Qeq_bool_iff in H3. apply Qeq_eqR in H3. rewrite Q2R_1 in H3.
    eapply ex_ext; [|exact X]. intros t h _ i _. unfold csub, erk_step, table_erk. cbn [er_E er_a er_E1 er_b].
    rewrite H3, Rmult_1_l. assert (Y := fam_erk t h (mt_stages m) []). cbn [map] in Y. rewrite Y. reflexivity.
  Qed.
End Local.
