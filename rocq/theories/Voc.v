(** * The variation-of-constants expansion of a smooth solution

    Spec file: operators [PHI k s = phi_k(sL)] given by their differential equation, and the
    expansion [u(t+s) = exp(sL) u(t) + sum_k s^k phi_k(sL) f_(k-1)(t) + O(s^(m+1))]. *)

From Coq Require Import ZArith List Bool Reals Lra Lia FunctionalExtensionality Setoid Morphisms.
From Coquelicot Require Import AutoDerive Hierarchy Derive Complex Continuity.
From Verif Require Import CInst SpecRK SchemeIFReal SpecPhi SpecPoly ContourReal PropsETD ContourMatrix MatrixFlow Asym Solution.
Import ListNotations.
Local Open Scope R_scope.

(** [PHI k s] for [k >= 1]: linear; [d/ds (s^k PHI k s v) = L (s^k PHI k s v) + s^(k-1)/(k-1)! v];
    and [PHI k s = 1/k! + O(s)] on [0, T]. *)
Record phi_ops (n : nat) (L : nat -> nat -> C) (T : R) (PHI : nat -> R -> cvec -> cvec) : Prop := {
  po_lin : forall k s, rlinear n (PHI k s);
  po_der : forall k v s i, (i < n)%nat ->
    is_Cder (fun s => (RtoC (s ^ S k) * PHI (S k) s v i)%C) s
            (mdot n L (rscal (s ^ S k) (PHI (S k) s v)) i + RtoC (s ^ k / INR (fact k)) * v i)%C;
  po_near : forall k, (1 <= k)%nat -> exists B, 0 <= B /\ forall s, 0 <= s <= T ->
    opn n (fun v => csub (PHI k s v) (rscal (/ INR (fact k)) v)) (B * s) }.

(** ** 1-D operators *)
Definition dmat (L : cvec) : nat -> nat -> C := diagm L.
Definition dexp (L : cvec) (t : R) : nat -> nat -> C := diagm (fun i => Cexp (RtoC t * L i)%C).
Definition dPHI (L : cvec) (k : nat) (s : R) (v : cvec) : cvec := fun i => (phi k (RtoC s * L i) * v i)%C.

Lemma mdot_diag n d v i : (i < n)%nat -> mdot n (diagm d) v i = (d i * v i)%C.
Proof.
  intros Hi. unfold mdot, diagm. transitivity (csum n (fun j => mident i j * (d i * v j))%C).
  - apply csum_ext. intros j _. unfold mident. destruct (Nat.eqb i j); ring.
  - apply (mdot_ident n (fun j => d i * v j)%C i Hi).
Qed.
Lemma phi_bound k w : Cmod (phi k w) <= exp (Cmod w).
Proof.
  assert (F1 : 1 <= INR (fact k)). { change 1 with (INR 1). apply le_INR. assert (X := lt_O_fact k). lia. }
  assert (Q : / INR (fact k) <= 1). { rewrite <- Rinv_1. apply Rinv_le_contravar; lra. }
  assert (Q0 : 0 < / INR (fact k)) by (apply Rinv_0_lt_compat; lra).
  assert (PE := exp_pos (Cmod w)).
  destruct (Ceq_dec w 0) as [->|Hw].
  - rewrite phi_0, Cmod_R, Cmod_0, exp_0, Rabs_pos_eq by lra. exact Q.
  - assert (G := exp_rem_bound k w). rewrite <- phi_exp_rem, Cmod_mult, Cmod_cpow in G.
    assert (P : 0 < Cmod w ^ k) by (apply pow_lt, Cmod_gt_0; exact Hw).
    apply Rmult_le_reg_l with (Cmod w ^ k); [exact P|]. eapply Rle_trans; [exact G|].
    unfold Rdiv. rewrite Rmult_assoc. apply Rmult_le_compat_l; [lra|].
    rewrite <- (Rmult_1_l (exp (Cmod w))) at 2. apply Rmult_le_compat_r; lra.
Qed.
(** [q_k(s) = s^k phi_k(s lam)]. *)
Lemma qk_rec (lam : C) k s : lam <> 0%C -> (RtoC (s ^ S k) * phi (S k) (RtoC s * lam) = / lam * (RtoC (s ^ k) * phi k (RtoC s * lam) - RtoC (s ^ k / INR (fact k))))%C.
Proof.
  intros Hl. assert (G := phi_rec k (RtoC s * lam)%C). 
  transitivity (/ lam * (RtoC (s ^ k) * (RtoC s * lam * phi (S k) (RtoC s * lam))))%C.
  - cbn [pow]. rewrite RtoC_mult. field. exact Hl.
  - rewrite G. unfold Rdiv. rewrite RtoC_mult. ring.
Qed.
Lemma qk_der (lam : C) k s : is_Cder (fun s => (RtoC (s ^ S k) * phi (S k) (RtoC s * lam))%C) s
  (lam * (RtoC (s ^ S k) * phi (S k) (RtoC s * lam)) + RtoC (s ^ k / INR (fact k)))%C.
Proof.
  destruct (Ceq_dec lam 0) as [->|Hl].
  - apply (is_Cder_eq (fun s => RtoC (s ^ S k / INR (fact (S k)))) _ s (RtoC (s ^ k / INR (fact k)))).
    + intros r. rewrite Cmult_0_r, phi_0, <- RtoC_mult. reflexivity.
    + ring.
    + apply is_Cder_R. apply pow_der.
  - induction k as [|k IH].
    + apply (is_Cder_eq (fun s => / lam * (Cexp (0 + RtoC s * lam) + RtoC (-1)))%C _ s (/ lam * (lam * Cexp (0 + RtoC s * lam) + 0))%C).
      * intros r. rewrite (qk_rec lam 0 r Hl). cbn [phi pow fact INR]. replace (1 / 1) with 1 by field. rewrite RtoC_m1, Cplus_0_l. ring.
      * rewrite (qk_rec lam 0 s Hl). cbn [phi pow fact INR]. replace (1 / 1) with 1 by field. rewrite Cplus_0_l. field. exact Hl.
      * apply is_Cder_scal. apply is_Cder_plus; [apply is_Cder_exp|apply is_Cder_const].
    + eapply is_Cder_eq; [intros r; symmetry; apply (qk_rec lam (S k) r Hl)| |].
      2:{ apply is_Cder_scal. apply is_Cder_minus; [exact IH|]. apply is_Cder_R. apply pow_der. }
      rewrite (qk_rec lam (S k) s Hl). field. exact Hl.
Qed.

Section Diag.
  Variable n : nat.
  Variable L : cvec.
  Lemma dexp_flow : matflow n (dmat L) (dexp L).
  Proof.
    split.
    - intros i j _ _. unfold dexp, diagm, mident. destruct (Nat.eqb i j); [|reflexivity]. rewrite Cmult_0_l, Cexp_0. reflexivity.
    - intros s t i j Hi Hj. unfold mprod. change (csum n (fun k => dexp L s i k * dexp L t k j)%C) with (mdot n (dexp L s) (fun k => dexp L t k j) i).
      unfold dexp at 1. rewrite (mdot_diag n _ _ i Hi). unfold dexp, diagm.
      destruct (Nat.eqb i j); [|ring]. rewrite RtoC_plus, Cmult_plus_distr_r, Cexp_plus. ring.
    - intros t i j Hi Hj. unfold mprod. change (csum n (fun k => dmat L i k * dexp L t k j)%C) with (mdot n (dmat L) (fun k => dexp L t k j) i).
      unfold dmat. rewrite (mdot_diag n _ _ i Hi). unfold dexp, diagm. destruct (Nat.eqb i j).
      + apply (is_Cder_eq (fun t => Cexp (0 + RtoC t * L i))%C _ t (L i * Cexp (0 + RtoC t * L i))%C).
        * intros s. rewrite Cplus_0_l. reflexivity.
        * rewrite Cplus_0_l. reflexivity.
        * apply is_Cder_exp.
      + eapply is_Cder_eq; [reflexivity| |apply is_Cder_const]. ring.
  Qed.
  Lemma dexp_dflow t v : veq (below n) (mflow n (dexp L) t v) (dflow L t v).
  Proof. intros i Hi. unfold mflow, dexp. rewrite (mdot_diag n _ _ i Hi). reflexivity. Qed.
  Lemma dPHI_ops T : 0 <= T -> phi_ops n (dmat L) T (dPHI L).
  Proof.
    intros HT. split.
    - intros k s. split; [intros a b i _; unfold dPHI, cadd; ring|intros c a i _; unfold dPHI, cscal; ring].
    - intros k v s i Hi. unfold dmat. rewrite (mdot_diag n _ _ i Hi). unfold dPHI, cscal.
      apply (is_Cder_eq (fun s => v i * (RtoC (s ^ S k) * phi (S k) (RtoC s * L i)))%C _ s
                        (v i * (L i * (RtoC (s ^ S k) * phi (S k) (RtoC s * L i)) + RtoC (s ^ k / INR (fact k))))%C).
      + intros r. ring.
      + ring.
      + apply is_Cder_scal. apply qk_der.
    - intros k _. destruct (vle_exists n L) as (l & Hl & HL). exists (l * exp (T * l)).
      split; [apply Rmult_le_pos; [exact Hl|left; apply exp_pos]|]. intros s Hs v x Hx Hv i Hi.
      unfold csub, dPHI, cscal.
      replace (phi k (RtoC s * L i) * v i - RtoC (/ INR (fact k)) * v i)%C
        with ((RtoC s * L i) * phi (S k) (RtoC s * L i) * v i)%C by (rewrite phi_rec; ring).
      rewrite !Cmod_mult, Cmod_R, (Rabs_pos_eq s) by lra. specialize (HL i Hi). specialize (Hv i Hi).
      assert (PB := phi_bound (S k) (RtoC s * L i)%C). rewrite Cmod_mult, Cmod_R, (Rabs_pos_eq s) in PB by lra.
      assert (P0 := Cmod_ge_0 (L i)). assert (P1 := Cmod_ge_0 (v i)). assert (P2 := Cmod_ge_0 (phi (S k) (RtoC s * L i)%C)).
      assert (PE : exp (s * Cmod (L i)) <= exp (T * l)).
      { apply exp_mono. apply Rmult_le_compat; lra. }
      apply Rle_trans with ((s * l) * exp (T * l) * x); [|right; ring].
      apply Rmult_le_compat; [apply Rmult_le_pos; [apply Rmult_le_pos; lra|exact P2]|exact P1| |exact Hv].
      apply Rmult_le_compat; [apply Rmult_le_pos; lra|exact P2| |lra]. apply Rmult_le_compat_l; lra.
  Qed.
End Diag.

(** ** The expansion *)
Section Expansion.
  Variables n p : nat.
  Variable L : nat -> nat -> C.
  Variable Ex : R -> nat -> nat -> C.
  Variable N : cvec -> cvec.
  Variables t0 tf rho K : R.
  Variable u : R -> cvec.
  Variable f : nat -> R -> cvec.
  Variable J : R -> cvec -> cvec.
  Variable PHI : nat -> R -> cvec -> cvec.
  Hypothesis HF : matflow n L Ex.
  Hypothesis HS : smooth n p L N t0 tf rho K u f J.
  Hypothesis HP : phi_ops n L (tf - t0) PHI.
  Notation E := (mflow n Ex).
  Notation adm := (adm t0 tf).
  Notation O := (bigO n R adm).
  Notation OO := (opO n R adm).

  Definition vsum (m : nat) (g : nat -> cvec) : cvec := fun i => csum m (fun k => g k i).
  Definition vocsum (m : nat) (t s : R) : cvec := vsum m (fun k => rscal (s ^ S k) (PHI (S k) s (f k t))).

  Lemma vocsum_der m t s i : (i < n)%nat ->
    is_Cder (fun s => vocsum m t s i) s (mdot n L (vocsum m t s) i + vtay (fun k => f k t) m s i)%C.
  Proof.
    intros Hi. unfold vocsum, vsum, vtay.
    assert (X : mdot n L (fun i => csum m (fun k => rscal (s ^ S k) (PHI (S k) s (f k t)) i)) i
                = csum m (fun k => mdot n L (rscal (s ^ S k) (PHI (S k) s (f k t))) i)).
    { induction m as [|m IH].
      - cbn [csum]. unfold mdot. apply csum_0. intros j _. ring.
      - cbn [csum]. rewrite <- IH. unfold mdot. rewrite <- csum_plus. apply csum_ext. intros; ring. }
    rewrite X, <- csum_plus. apply (is_Cder_csum m (fun k s => rscal (s ^ S k) (PHI (S k) s (f k t)) i)).
    intros k _. apply (po_der _ _ _ _ HP k (f k t) s i Hi).
  Qed.
  Lemma vocsum_0 m t i : vocsum m t 0 i = RtoC 0.
  Proof.
    unfold vocsum, vsum. induction m as [|m IH]; cbn [csum]; [reflexivity|]. rewrite IH. unfold cscal. cbn [pow]. rewrite Rmult_0_l. ring.
  Qed.
  Theorem voc m th : (m <= p)%nat -> 0 <= th <= 1 ->
    O (S m) (fun t h => csub (u (t + th * h)) (cadd (E (th * h) (u t)) (vocsum m t (th * h)))).
  Proof.
    intros Hm Hth. destruct (flow_bound n L Ex HF (tf - t0)) as (M & HM & HE).
    assert (HK := so_K _ _ _ _ _ _ _ _ _ _ _ HS).
    exists (M * (2 * (M * (2 * K)))), 1. split; [repeat apply Rmult_le_pos; lra|]. split; [lra|].
    intros t h (H1 & H2 & H3) _. set (s := th * h). assert (Hs : 0 <= s <= h) by (unfold s; split; [apply Rmult_le_pos; lra|nra]).
    assert (FB := mf_flow n L Ex HF).
    (* W(s) = exp(-sL) (u(t+s) - sum) *)
    set (w := fun r => csub (u (t + r)) (vocsum m t r)).
    set (g := fun r => csub (f 0%nat (t + r)) (vtay (fun k => f k t) m r)).
    assert (DW : forall r i, 0 <= r <= s -> (i < n)%nat -> is_Cder (fun r => E (- r) (w r) i) r (E (- r) (g r) i)).
    { intros r i Hr Hi. assert (Ht : t0 <= t + r <= tf) by lra.
      eapply is_Cder_eq; [reflexivity| |apply (lawson_der n L Ex HF w (fun r => csub (cadd (mdot n L (u (t + r))) (N (u (t + r))))
          (cadd (mdot n L (vocsum m t r)) (vtay (fun k => f k t) m r))) r i Hi)].
      - apply (lin_ext _ _ (flow_lin _ _ FB (- r))); [|exact Hi]. intros j Hj. unfold g, w.
        unfold csub, cadd. rewrite (so_f0 _ _ _ _ _ _ _ _ _ _ _ HS (t + r) Ht j Hj).
        assert (X := rl_sub n (mdot n L) (u (t + r)) (vocsum m t r) (linear_rlinear n _ (mdot_linear n L)) j Hj). unfold csub in X. rewrite X. ring.
      - intros j Hj. unfold w, csub. apply is_Cder_minus.
        + apply (is_Cder_shift (fun r => u r j)). apply (so_eq _ _ _ _ _ _ _ _ _ _ _ HS); assumption.
        + apply vocsum_der. exact Hj. }
    assert (GB : forall r, 0 <= r <= s -> vle n (E (- r) (g r)) (M * (2 * K * s ^ m))).
    { intros r Hr. apply HE; [rewrite Rabs_Ropp, (Rabs_pos_eq r), (Rabs_pos_eq (tf - t0)) by lra; lra| |].
      - repeat apply Rmult_le_pos; try lra. apply pow_le; lra.
      - intros i Hi. unfold g, csub.
        apply Rle_trans with (2 * K * r ^ m).
        + assert (X := taylor_cplx K s m (fun k r => f k (t + r) i)). cbn beta in X.
          unfold ctay in X. unfold vtay. rewrite Rplus_0_r in X. apply X; [| |exact Hr].
          * intros k r' Hk Hr'. apply (is_Cder_shift (fun r => f k r i)). apply (so_der _ _ _ _ _ _ _ _ _ _ _ HS); [lia|lra|exact Hi].
          * intros r' Hr'. apply (so_bnd _ _ _ _ _ _ _ _ _ _ _ HS); [lia|lra|exact Hi].
        + apply Rmult_le_compat_l; [lra|]. apply pow_incr. lra. }
    apply (vle_ext n (E s (csub (E (- s) (w s)) (u t)))).
    { etransitivity; [apply rl_sub, (E_rlinear n L Ex HF)|]. intros i Hi. unfold csub at 1.
      rewrite (flow_comp _ _ FB s (- s) _ i Hi), Rplus_opp_r, (flow_0 _ _ FB _ i Hi). unfold w, csub, cadd. ring. }
    apply (vle_mono n _ (M * (2 * (M * (2 * K * s ^ m)) * s))).
    - apply HE; [rewrite (Rabs_pos_eq s), (Rabs_pos_eq (tf - t0)) by lra; lra| |].
      + repeat apply Rmult_le_pos; try lra. apply pow_le; lra.
      + intros i Hi. unfold csub.
        assert (X := taylor_cplx (M * (2 * K * s ^ m)) s 1 (fun k r => match k with Datatypes.O => E (- r) (w r) i | _ => E (- r) (g r) i end)).
        cbn beta iota in X. unfold ctay in X. cbn [csum fact INR pow] in X.
        assert (W0 : E (- 0) (w 0) i = u t i).
        { rewrite Ropp_0. rewrite (flow_0 _ _ FB _ i Hi). unfold w, csub. rewrite vocsum_0, Rplus_0_r. ring. }
        rewrite W0 in X. rewrite <- (Rmult_1_r s) at 4.
        replace (E (- s) (w s) i - u t i)%C with (E (- s) (w s) i - (0 + RtoC (1 / 1) * u t i))%C by (replace (1 / 1) with 1 by field; ring).
        apply X; [| |lra].
        * intros k r Hk Hr. assert (k = 0)%nat by lia. subst k. apply DW; assumption.
        * intros r Hr. apply GB; assumption.
    - cbn [pow]. replace (M * (2 * (M * (2 * K * s ^ m)) * s)) with (M * (2 * (M * (2 * K))) * (s * s ^ m)) by ring.
      apply Rmult_le_compat_l; [repeat apply Rmult_le_pos; lra|]. change (s ^ S m <= h ^ S m). apply pow_incr. exact Hs.
  Qed.

  (** Expansion of [f] itself. *)
  Theorem f_taylor m th : (m <= p)%nat -> 0 <= th <= 1 ->
    O m (fun t h => csub (f 0%nat (t + th * h)) (vtay (fun k => f k t) m (th * h))).
  Proof.
    intros Hm Hth.
    assert (G := bigO_taylor n t0 tf (fun k t s => f k (t + s)) m th K Hth (so_K _ _ _ _ _ _ _ _ _ _ _ HS)).
    eapply O_ext; [|apply G].
    - intros t h _ i Hi. unfold csub, vtay. apply (f_equal (fun z => _ - z)%C). apply csum_ext. intros k _. rewrite Rplus_0_r. reflexivity.
    - intros k t s i Hk Ht Hs Hts Hi. apply (is_Cder_shift (fun r => f k r i)). apply (so_der _ _ _ _ _ _ _ _ _ _ _ HS); [lia|lra|exact Hi].
    - intros t s Ht Hs Hts. apply (so_bnd _ _ _ _ _ _ _ _ _ _ _ HS); [exact Hm|lra].
  Qed.

  Definition Pop (k : nat) (th t h : R) : cvec -> cvec := PHI k (th * h).
  Lemma Pop_near k th : (1 <= k)%nat -> 0 <= th <= 1 -> OO 1 (fun t h v => csub (Pop k th t h v) (rscal (/ INR (fact k)) v)).
  Proof.
    intros Hk Hth. destruct (po_near _ _ _ _ HP k Hk) as (B & HB & H). exists B, 1. split; [exact HB|]. split; [lra|].
    intros t h (H1 & H2 & H3) _. assert (A : 0 <= th * h <= h) by (split; [apply Rmult_le_pos; lra|nra]).
    apply (opn_mono n _ (B * (th * h))); [apply H; lra|]. cbn [pow]. apply Rmult_le_compat_l; [exact HB|lra].
  Qed.
  Lemma Pop_O k th : (1 <= k)%nat -> 0 <= th <= 1 -> OO 0 (Pop k th).
  Proof.
    intros Hk Hth. assert (G := opO_weak n R adm (adm_pos t0 tf) 0 1 _ ltac:(lia) (Pop_near k th Hk Hth)).
    eapply opO_ext; [|apply (opO_add n R adm 0 _ _ G (opO_const n R adm (/ INR (fact k)) 0 _ (opO_id n R adm)))].
    intros t h v _ i _. unfold cadd, csub. ring.
  Qed.
  (** [N] near the solution, in the original variable. *)
  Definition Jop (th t h : R) : cvec -> cvec := J (t + th * h).
  Definition Nrem (th t h : R) (d : cvec) : cvec :=
    csub (csub (N (cadd (u (t + th * h)) d)) (N (u (t + th * h)))) (J (t + th * h) d).
  Lemma N_expand th t h (U : cvec) : 0 <= th <= 1 -> adm t h ->
    veq (below n) (N U) (cadd (f 0%nat (t + th * h)) (cadd (Jop th t h (csub U (u (t + th * h)))) (Nrem th t h (csub U (u (t + th * h)))))).
  Proof.
    intros Hth Ha i Hi. unfold Jop, Nrem. set (d := csub U (u (t + th * h))).
    assert (EU : veq (below n) (cadd (u (t + th * h)) d) U) by (intros j _; unfold d, cadd, csub; ring).
    unfold cadd at 1 2. rewrite (so_f0 _ _ _ _ _ _ _ _ _ _ _ HS (t + th * h) (th_time t0 tf th t h Hth Ha) i Hi).
    unfold csub. rewrite (so_N _ _ _ _ _ _ _ _ _ _ _ HS _ _ EU i Hi). ring.
  Qed.
  Lemma Jop_O th : 0 <= th <= 1 -> OO 0 (Jop th).
  Proof.
    intros Hth. exists K, 1. split; [apply (so_K _ _ _ _ _ _ _ _ _ _ _ HS)|]. split; [lra|]. intros t h Ha _. cbn [pow]. rewrite Rmult_1_r.
    apply (so_Jbnd _ _ _ _ _ _ _ _ _ _ _ HS). apply th_time; assumption.
  Qed.
  Lemma Jop_rlinear th t h : 0 <= th <= 1 -> adm t h -> rlinear n (Jop th t h).
  Proof. intros Hth Ha. apply (so_Jlin _ _ _ _ _ _ _ _ _ _ _ HS). apply th_time; assumption. Qed.
  Lemma Jop_diff th th' : 0 <= th <= 1 -> 0 <= th' <= 1 -> OO 1 (fun t h v => csub (Jop th t h v) (Jop th' t h v)).
  Proof.
    intros H1 H2. exists K, 1. assert (HK := so_K _ _ _ _ _ _ _ _ _ _ _ HS). split; [exact HK|]. split; [lra|]. intros t h Ha _.
    apply (opn_mono n _ (K * Rabs (t + th * h - (t + th' * h)))).
    - apply (so_Jtime _ _ _ _ _ _ _ _ _ _ _ HS); apply th_time; assumption.
    - destruct Ha as (_ & Hh & _). apply Rmult_le_compat_l; [exact HK|]. replace (t + th * h - (t + th' * h)) with ((th - th') * h) by ring.
      rewrite Rabs_mult, (Rabs_pos_eq h) by lra. cbn [pow]. assert (Rabs (th - th') <= 1) by (apply Rabs_le; lra). nra.
  Qed.
  Lemma Nrem_quad th : 0 <= th <= 1 -> quadratic n R adm (Nrem th).
  Proof.
    intros Hth. assert (Hr := so_rho _ _ _ _ _ _ _ _ _ _ _ HS). assert (HK := so_K _ _ _ _ _ _ _ _ _ _ _ HS).
    exists K, rho, 1. split; [exact HK|]. split; [exact Hr|]. split; [lra|]. intros t h Ha _ v x Hx Hv.
    assert (Ht := th_time t0 tf th t h Hth Ha).
    assert (D : veq (below n) (csub (cadd (u (t + th * h)) v) (u (t + th * h))) v) by (intros i _; unfold csub, cadd; ring).
    eapply vle_ext; [|apply (so_Jquad _ _ _ _ _ _ _ _ _ _ _ HS (t + th * h) (cadd (u (t + th * h)) v) x Ht Hx)].
    - unfold Nrem. apply csub_proper; [reflexivity|]. intros i Hi.
      apply (rl_ext n (J (t + th * h)) K _ _ (so_Jlin _ _ _ _ _ _ _ _ _ _ _ HS _ Ht) (so_Jbnd _ _ _ _ _ _ _ _ _ _ _ HS _ Ht) D i Hi).
    - eapply vle_ext; [|exact Hv]. symmetry. exact D.
  Qed.
  Lemma f_O k : (k <= p)%nat -> O 0 (fun t h => f k t).
  Proof.
    intros Hk. exists K, 1. split; [apply (so_K _ _ _ _ _ _ _ _ _ _ _ HS)|]. split; [lra|]. intros t h (H1 & H2 & H3) _. cbn [pow]. rewrite Rmult_1_r.
    apply (so_bnd _ _ _ _ _ _ _ _ _ _ _ HS); [exact Hk|lra].
  Qed.
End Expansion.
