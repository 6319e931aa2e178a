(** * Smooth solutions of [u' = L u + N(u)]

    Spec file: what it means that a solution and the nonlinear function are smooth, the variable
    [exp(-sL) u(t+s)] and the Taylor expansions of the solution in it. *)

From Coq Require Import ZArith List Bool Reals Lra Lia FunctionalExtensionality Setoid Morphisms.
From Coquelicot Require Import AutoDerive Hierarchy Derive Complex Continuity.
From Verif Require Import CInst SpecRK SchemeIFReal SpecPhi SpecPoly ContourReal PropsETD ContourMatrix MatrixFlow Asym.
Import ListNotations.
Local Open Scope R_scope.

(** ** Taylor expansions on an interval *)
Lemma taylor_real (B H : R) : forall m (f : nat -> R -> R),
  (forall k t, (k < m)%nat -> 0 <= t <= H -> is_derive (f k) t (f (S k) t)) ->
  (forall t, 0 <= t <= H -> Rabs (f m t) <= B) ->
  forall t, 0 <= t <= H -> Rabs (f 0%nat t - tay f m t) <= B * (t ^ m / INR (fact m)).
Proof.
  induction m as [|m IH]; intros f Hf HB t Ht.
  - unfold tay. cbn. replace (f 0%nat t - 0) with (f 0%nat t) by ring. replace (B * (1 / 1)) with B by field. apply HB, Ht.
  - specialize (IH (fun k => f (S k)) (fun k t Hk Ht => Hf (S k) t ltac:(lia) Ht) HB).
    assert (D : forall s (sg : R), 0 <= s <= H -> is_derive (fun s => B * (s ^ S m / INR (fact (S m))) - sg * (f 0%nat s - tay f (S m) s)) s
                  (B * (s ^ m / INR (fact m)) - sg * (f 1%nat s - tay (fun k => f (S k)) m s))).
    { intros s sg Hs. apply (is_derive_minus (V := R_NormedModule)).
      - apply is_derive_scal, pow_der.
      - apply is_derive_scal. apply (is_derive_minus (V := R_NormedModule)); [apply Hf; [lia|exact Hs]|apply tay_der]. }
    assert (G : forall sg, (sg = 1 \/ sg = -1) -> 0 <= B * (t ^ S m / INR (fact (S m))) - sg * (f 0%nat t - tay f (S m) t)).
    { intros sg Hs.
      destruct (MVT_gen (fun s => B * (s ^ S m / INR (fact (S m))) - sg * (f 0%nat s - tay f (S m) s)) 0 t
                  (fun s => B * (s ^ m / INR (fact m)) - sg * (f 1%nat s - tay (fun k => f (S k)) m s))) as (c & Hc & E).
      - rewrite Rmin_left, Rmax_right by lra. intros s Hs'. apply D. lra.
      - rewrite Rmin_left, Rmax_right by lra. intros s Hs'. apply derivable_continuous_pt. eexists. apply is_derive_Reals. apply (D s sg). lra.
      - rewrite Rmin_left, Rmax_right in Hc by lra.
        assert (Z : B * (0 ^ S m / INR (fact (S m))) - sg * (f 0%nat 0 - tay f (S m) 0) = 0).
        { rewrite tay_shift. assert (Z : sumf m (fun k => 0 ^ S k / INR (fact (S k)) * f (S k) 0) = 0).
          { clear. induction m as [|m IH]; cbn [sumf]; [reflexivity|]. rewrite IH, pow_i by lia. unfold Rdiv. ring. }
          rewrite Z, pow_i by lia. unfold Rdiv. ring. }
        rewrite Z, !Rminus_0_r in E. rewrite E. apply Rmult_le_pos; [|lra].
        specialize (IH c ltac:(lra)). unfold Rabs in IH. destruct Hs as [-> | ->]; destruct (Rcase_abs _) in IH; lra. }
    assert (G1 := G 1 ltac:(auto)). assert (G2 := G (-1) ltac:(auto)). apply Rabs_le. lra.
Qed.
(** The Taylor polynomial with [m] terms of a chain of derivatives. *)
Definition ctay (F : nat -> R -> C) (m : nat) (s : R) : C := csum m (fun k => RtoC (s ^ k / INR (fact k)) * F k 0)%C.
Lemma taylor_cplx (B H : R) m (F : nat -> R -> C) :
  (forall k t, (k < m)%nat -> 0 <= t <= H -> is_Cder (F k) t (F (S k) t)) ->
  (forall t, 0 <= t <= H -> Cmod (F m t) <= B) ->
  forall s, 0 <= s <= H -> Cmod (F 0%nat s - ctay F m s)%C <= 2 * B * s ^ m.
Proof.
  intros HF HB s Hs.
  assert (G1 := taylor_real B H m (fun k t => fst (F k t)) (fun k t Hk Ht => proj1 (HF k t Hk Ht))).
  assert (G2 := taylor_real B H m (fun k t => snd (F k t)) (fun k t Hk Ht => proj2 (HF k t Hk Ht))).
  eapply Rle_trans; [apply Cmod_parts|]. unfold ctay. rewrite csum_parts.
  assert (E1 : fst (F 0%nat s - (sumf m (fun k => fst (RtoC (s ^ k / INR (fact k)) * F k 0)%C),
                                 sumf m (fun k => snd (RtoC (s ^ k / INR (fact k)) * F k 0)%C)))%C
               = fst (F 0%nat s) - tay (fun k t => fst (F k t)) m s).
  { unfold Cminus, Cplus, Copp. cbn [fst snd]. unfold Rminus. do 2 f_equal. unfold tay. apply sumf_ext. intros k _.
    unfold Cmult, RtoC; cbn [fst snd]. ring. }
  assert (E2 : snd (F 0%nat s - (sumf m (fun k => fst (RtoC (s ^ k / INR (fact k)) * F k 0)%C),
                                 sumf m (fun k => snd (RtoC (s ^ k / INR (fact k)) * F k 0)%C)))%C
               = snd (F 0%nat s) - tay (fun k t => snd (F k t)) m s).
  { unfold Cminus, Cplus, Copp. cbn [fst snd]. unfold Rminus. do 2 f_equal. unfold tay. apply sumf_ext. intros k _.
    unfold Cmult, RtoC; cbn [fst snd]. ring. }
  rewrite E1, E2.
  assert (B1 : forall t, 0 <= t <= H -> Rabs (fst (F m t)) <= B).
  { intros t Ht. eapply Rle_trans; [apply parts_Cmod|]. apply HB, Ht. }
  assert (B2 : forall t, 0 <= t <= H -> Rabs (snd (F m t)) <= B).
  { intros t Ht. eapply Rle_trans; [apply parts_Cmod|]. apply HB, Ht. }
  specialize (G1 B1 s Hs). specialize (G2 B2 s Hs).
  assert (B0 : 0 <= B).
  { specialize (HB s Hs). assert (X := Cmod_ge_0 (F m s)). lra. }
  assert (P : 0 <= s ^ m) by (apply pow_le; lra).
  assert (Q : s ^ m / INR (fact m) <= s ^ m).
  { assert (F1 : 1 <= INR (fact m)). { change 1 with (INR 1). apply le_INR. assert (X := lt_O_fact m). lia. }
    rewrite <- (Rmult_1_r (s ^ m)) at 2. unfold Rdiv. apply Rmult_le_compat_l; [exact P|].
    rewrite <- Rinv_1. apply Rinv_le_contravar; lra. }
  assert (Q' : B * (s ^ m / INR (fact m)) <= B * s ^ m) by (apply Rmult_le_compat_l; assumption). lra.
Qed.

Lemma is_Cder_unique f t l m : is_Cder f t l -> is_Cder f t m -> l = m.
Proof.
  intros [H1 H2] [H3 H4]. rewrite (surjective_pairing l), (surjective_pairing m). f_equal.
  - rewrite <- (is_derive_unique _ _ _ H1). apply is_derive_unique. exact H3.
  - rewrite <- (is_derive_unique _ _ _ H2). apply is_derive_unique. exact H4.
Qed.
Lemma is_Cder_comp f (g : R -> R) t l d : is_Cder f (g t) l -> is_derive g t d -> is_Cder (fun t => f (g t)) t (RtoC d * l)%C.
Proof.
  intros [H1 H2] Hg. split; cbn.
  - replace (d * fst l - 0 * snd l) with (scal d (fst l)) by (unfold scal; cbn; unfold mult; cbn; ring).
    apply (is_derive_comp (V := R_NormedModule) (fun t => fst (f t)) g); assumption.
  - replace (d * snd l + 0 * fst l) with (scal d (snd l)) by (unfold scal; cbn; unfold mult; cbn; ring).
    apply (is_derive_comp (V := R_NormedModule) (fun t => snd (f t)) g); assumption.
Qed.
Lemma der_shift (t s : R) : is_derive (fun s => t + s) s 1.
Proof. auto_derive; [auto|ring]. Qed.
Lemma is_Cder_shift f t s l : is_Cder f (t + s) l -> is_Cder (fun s => f (t + s)) s l.
Proof.
  intros H. apply (is_Cder_eq (fun s => f (t + s)) _ s (RtoC 1 * l)%C); [reflexivity|ring|].
  apply (is_Cder_comp f (fun s => t + s)); [exact H|apply der_shift].
Qed.
Lemma is_Cder_minus f g t l m : is_Cder f t l -> is_Cder g t m -> is_Cder (fun t => f t - g t)%C t (l - m)%C.
Proof.
  intros H1 H2. apply (is_Cder_eq (fun t => f t + RtoC (-1) * g t)%C _ t (l + RtoC (-1) * m)%C).
  - intros s. rewrite RtoC_m1. ring.
  - rewrite RtoC_m1. ring.
  - apply is_Cder_plus; [exact H1|]. apply is_Cder_scal. exact H2.
Qed.
(** A product of a matrix and a vector that both vary. *)
Lemma is_Cder_mdot n (M dM : R -> nat -> nat -> C) (w dw : R -> cvec) s i :
  (forall j, (j < n)%nat -> is_Cder (fun s => M s i j) s (dM s i j)) ->
  (forall j, (j < n)%nat -> is_Cder (fun s => w s j) s (dw s j)) ->
  is_Cder (fun s => mdot n (M s) (w s) i) s (mdot n (dM s) (w s) i + mdot n (M s) (dw s) i)%C.
Proof.
  intros H1 H2. unfold mdot. rewrite <- csum_plus.
  apply (is_Cder_csum n (fun j s => M s i j * w s j)%C (fun j => dM s i j * w s j + M s i j * dw s j)%C).
  intros j Hj. apply is_Cder_mult; [apply H1|apply H2]; exact Hj.
Qed.

(** ** Exponentials of matrices, as solution operators *)
Record matflow (n : nat) (L : nat -> nat -> C) (Ex : R -> nat -> nat -> C) : Prop := {
  mf_0 : meq n (Ex 0) mident;
  mf_comp : forall s t, meq n (mprod n (Ex s) (Ex t)) (Ex (s + t));
  mf_der : forall t i j, (i < n)%nat -> (j < n)%nat -> is_Cder (fun t => Ex t i j) t (mprod n L (Ex t) i j) }.

(** Norm of a matrix whose entries are at most [B]. *)
Lemma opn_mdot n M B : 0 <= B -> (forall i j, (i < n)%nat -> (j < n)%nat -> Cmod (M i j) <= B) -> opn n (mdot n M) (INR n * B).
Proof.
  intros HB H v x Hx Hv i Hi. unfold mdot.
  apply Rle_trans with (INR n * (B * x)); [|right; ring].
  apply csum_norm_const. intros j Hj. rewrite Cmod_mult. apply Rmult_le_compat; try apply Cmod_ge_0; [apply H; assumption|apply Hv; assumption].
Qed.
Lemma matrix_bound n (M : nat -> nat -> C) : exists B, 0 <= B /\ forall i j, (i < n)%nat -> (j < n)%nat -> Cmod (M i j) <= B.
Proof.
  assert (G : forall m, exists B, 0 <= B /\ forall i j, (i < m)%nat -> (j < n)%nat -> Cmod (M i j) <= B).
  { induction m as [|m (B & HB & IH)]; [exists 0; split; [lra|]; intros; lia|].
    destruct (vle_exists n (M m)) as (x & Hx & H). exists (B + x). split; [lra|]. intros i j Hi Hj.
    destruct (Nat.eq_dec i m) as [->|]; [specialize (H j Hj); lra|]. specialize (IH i j ltac:(lia) Hj). lra. }
  apply G.
Qed.
(** A family of functions indexed below [n]: a common bound. *)
Lemma common_bound (n : nat) (P : nat -> R -> Prop) : (forall i x y, P i x -> x <= y -> P i y) ->
  (forall i, (i < n)%nat -> exists x, 0 <= x /\ P i x) -> exists x, 0 <= x /\ forall i, (i < n)%nat -> P i x.
Proof.
  intros Hm. induction n as [|n IH]; intros H; [exists 0; split; [lra|]; intros; lia|].
  destruct IH as (x & Hx & G); [intros; apply H; lia|]. destruct (H n ltac:(lia)) as (y & Hy & Hn).
  exists (x + y). split; [lra|]. intros i Hi. destruct (Nat.eq_dec i n) as [->|].
  - apply (Hm _ y); [exact Hn|lra].
  - apply (Hm _ x); [apply G; lia|lra].
Qed.

Section Flow.
  Variable n : nat.
  Variable L : nat -> nat -> C.
  Variable Ex : R -> nat -> nat -> C.
  Hypothesis HF : matflow n L Ex.
  Notation E := (mflow n Ex).

  Lemma mf_flow : flow (below n) E.
  Proof. apply mflow_flow; [apply (mf_0 _ _ _ HF)|apply (mf_comp _ _ _ HF)]. Qed.
  Lemma mprod_ext_l a b c i j : (forall k, (k < n)%nat -> a i k = b i k) -> mprod n a c i j = mprod n b c i j.
  Proof. intros H. unfold mprod. apply csum_ext. intros k Hk. rewrite H by exact Hk. reflexivity. Qed.
  (** The exponential commutes with the operator. *)
  Lemma mf_comm t : meq n (mprod n L (Ex t)) (mprod n (Ex t) L).
  Proof.
    intros i j Hi Hj.
    (* derivative at 0 of Ex (s + t) = Ex (t + s) = Ex t . Ex s *)
    assert (D1 : is_Cder (fun s => Ex (t + s) i j) 0 (mprod n L (Ex t) i j)).
    { apply (is_Cder_eq (fun s => Ex (t + s) i j) _ 0 (RtoC 1 * mprod n L (Ex t) i j)%C); [reflexivity|ring|].
      apply (is_Cder_comp (fun s => Ex s i j) (fun s => t + s)); [|apply der_shift].
      rewrite Rplus_0_r. apply (mf_der _ _ _ HF); assumption. }
    assert (D2 : is_Cder (fun s => Ex (t + s) i j) 0 (mprod n (Ex t) L i j)).
    { apply (is_Cder_eq (fun s => csum n (fun k => Ex t i k * Ex s k j)%C) _ 0 (csum n (fun k => Ex t i k * mprod n L (Ex 0) k j)%C)).
      - intros s. apply (mf_comp _ _ _ HF t s i j Hi Hj).
      - unfold mprod at 2. apply csum_ext. intros k Hk. f_equal.
        unfold mprod. transitivity (csum n (fun l => L k l * mident l j)%C).
        + apply csum_ext. intros l Hl. rewrite (mf_0 _ _ _ HF l j Hl Hj). reflexivity.
        + transitivity (csum n (fun l => mident j l * L k l)%C).
          * apply csum_ext. intros l Hl. unfold mident. rewrite Nat.eqb_sym. destruct (Nat.eqb j l); ring.
          * apply (mdot_ident n (L k) j Hj).
      - apply (is_Cder_csum n (fun k s => Ex t i k * Ex s k j)%C). intros k Hk. apply is_Cder_scal. apply (mf_der _ _ _ HF); assumption. }
    exact (is_Cder_unique _ _ _ _ D1 D2).
  Qed.
  (** [ (exp(-sL) w(s))' = exp(-sL) (w'(s) - L w(s)) ]. *)
  Lemma lawson_der (w dw : R -> cvec) s i : (i < n)%nat ->
    (forall j, (j < n)%nat -> is_Cder (fun s => w s j) s (dw s j)) ->
    is_Cder (fun s => E (- s) (w s) i) s (E (- s) (csub (dw s) (mdot n L (w s))) i).
  Proof.
    intros Hi Hw. unfold mflow.
    assert (G := is_Cder_mdot n (fun s => Ex (- s)) (fun s => fun i j => (RtoC (-1) * mprod n L (Ex (- s)) i j)%C) w dw s i).
    match type of G with ?A -> ?B -> _ => assert (HA : A); [|assert (HB : B)] end.
    - intros j Hj. apply (is_Cder_comp (fun s => Ex s i j) Ropp); [apply (mf_der _ _ _ HF); assumption|].
      auto_derive; [auto|ring].
    - exact Hw.
    - eapply is_Cder_eq; [reflexivity| |apply (G HA HB)].
      rewrite (rl_sub n (mdot n (Ex (- s))) _ _ (linear_rlinear n _ (mdot_linear n _)) i Hi). unfold csub.
      rewrite (mdot_prod n (Ex (- s)) L (w s) i Hi). 
      assert (X : mdot n (fun i j => RtoC (-1) * mprod n L (Ex (- s)) i j)%C (w s) i = (- mdot n (mprod n (Ex (- s)) L) (w s) i)%C).
      { unfold mdot. transitivity (csum n (fun j => RtoC (-1) * (mprod n (Ex (- s)) L i j * w s j))%C).
        - apply csum_ext. intros j Hj. rewrite (mf_comm (- s) i j Hi Hj). ring.
        - rewrite csum_scal, RtoC_m1. ring. }
      rewrite X. ring.
  Qed.
  (** Bounds on [-T, T]. *)
  Lemma flow_bound T : exists M, 0 <= M /\ forall s, Rabs s <= Rabs T -> opn n (E s) M.
  Proof.
    destruct (common_bound n (fun i x => forall j, (j < n)%nat -> forall s, Rabs s <= Rabs T -> Cmod (Ex s i j) <= x)) as (B & HB & H).
    - intros i x y H Hxy j Hj s Hs. specialize (H j Hj s Hs). lra.
    - intros i Hi. apply (common_bound n (fun j x => forall s, Rabs s <= Rabs T -> Cmod (Ex s i j) <= x)).
      + intros j x y H Hxy s Hs. specialize (H s Hs). lra.
      + intros j Hj. destruct (Cder_bounded _ _ T (fun t => mf_der _ _ _ HF t i j Hi Hj)) as (V & HV & G). exists V. auto.
    - exists (INR n * B). split; [apply Rmult_le_pos; [apply pos_INR|exact HB]|]. intros s Hs. apply opn_mdot; [exact HB|].
      intros i j Hi Hj. apply H; assumption.
  Qed.
End Flow.

Section Near.
  Variable n : nat.
  Variable L : nat -> nat -> C.
  Variable Ex : R -> nat -> nat -> C.
  Hypothesis HF : matflow n L Ex.
  Notation E := (mflow n Ex).

  Lemma E_rlinear s : rlinear n (E s).
  Proof. apply linear_rlinear. apply (flow_lin _ _ (mf_flow n L Ex HF)). Qed.
  Lemma L_bound : exists B, 0 <= B /\ opn n (mdot n L) B.
  Proof.
    destruct (matrix_bound n L) as (B & HB & H). exists (INR n * B). split; [apply Rmult_le_pos; [apply pos_INR|exact HB]|].
    apply opn_mdot; assumption.
  Qed.
  Lemma flow_der v s i : (i < n)%nat -> is_Cder (fun s => E s v i) s (mdot n L (E s v) i).
  Proof.
    intros Hi. unfold mflow. rewrite (mdot_prod n L (Ex s) v i Hi).
    apply (is_Cder_csum n (fun j s => Ex s i j * v j)%C (fun j => mprod n L (Ex s) i j * v j)%C).
    intros j Hj. eapply is_Cder_eq; [reflexivity| |apply is_Cder_mult; [apply (mf_der _ _ _ HF); assumption|apply is_Cder_const]].
    cbn beta. ring.
  Qed.
  (** [exp(sL) - 1 = O(s)]. *)
  Lemma flow_near T : exists M, 0 <= M /\ forall s, Rabs s <= Rabs T -> opn n (fun v => csub (E s v) v) (M * Rabs s).
  Proof.
    destruct (flow_bound n L Ex HF T) as (M & HM & HE). destruct L_bound as (B & HB & HL).
    assert (Pos : forall s, 0 <= s -> Rabs s <= Rabs T -> opn n (fun v => csub (E s v) v) (2 * (B * M) * s)).
    { intros s Hs HT v x Hx Hv i Hi.
      assert (G := taylor_cplx (B * (M * x)) s 1 (fun k r => match k with O => E r v i | _ => mdot n L (E r v) i end)).
      assert (A : Cmod (E s v i - ctay (fun k r => match k with O => E r v i | _ => mdot n L (E r v) i end) 1 s)%C <= 2 * (B * (M * x)) * s ^ 1).
      { apply G; [| |lra].
        - intros k r Hk Hr. assert (k = 0)%nat by lia. subst k. apply flow_der. exact Hi.
        - intros r Hr. apply HL; [apply Rmult_le_pos; assumption| |exact Hi]. apply HE; [|exact Hx|exact Hv].
          rewrite (Rabs_pos_eq r) by lra. rewrite (Rabs_pos_eq s) in HT by lra. lra. }
      unfold ctay in A. cbn [csum fact INR pow] in A. rewrite (flow_0 _ _ (mf_flow n L Ex HF) v i Hi) in A.
      unfold csub. replace (2 * (B * M) * s * x) with (2 * (B * (M * x)) * (s * 1)) by ring.
      replace (E s v i - v i)%C with (E s v i - (0 + RtoC (1 / 1) * v i))%C; [exact A|].
      replace (1 / 1) with 1 by field. ring. }
    exists (2 * (B * M) + M * (2 * (B * M))). split; [assert (0 <= B * M) by (apply Rmult_le_pos; assumption); assert (0 <= M * (2 * (B * M))) by (apply Rmult_le_pos; lra); lra|].
    intros s HT. assert (PB : 0 <= B * M) by (apply Rmult_le_pos; assumption).
    assert (PB2 : 0 <= M * (2 * (B * M))) by (apply Rmult_le_pos; lra). assert (PS := Rabs_pos s).
    destruct (Rle_or_lt 0 s) as [Hs|Hs].
    - rewrite (Rabs_pos_eq s Hs) in *. apply (opn_mono n _ (2 * (B * M) * s)); [apply Pos; [exact Hs|]|nra].
      rewrite (Rabs_pos_eq s Hs). exact HT.
    - assert (A := Rabs_left s Hs). intros v x Hx Hv.
      apply (vle_ext n (E s (csub v (E (- s) v)))).
      + etransitivity; [apply rl_sub, E_rlinear|]. intros i Hi. unfold csub.
        rewrite (flow_comp _ _ (mf_flow n L Ex HF) s (- s) v i Hi), Rplus_opp_r, (flow_0 _ _ (mf_flow n L Ex HF) v i Hi). reflexivity.
      + apply (vle_mono n _ (M * (2 * (B * M) * (- s) * x))).
        * apply HE; [exact HT| |].
          -- apply Rmult_le_pos; [nra|exact Hx].
          -- apply vle_sym. apply Pos; [lra| |exact Hx|exact Hv]. rewrite Rabs_Ropp. exact HT.
        * rewrite A. assert (0 <= B * M * (- s) * x) by (apply Rmult_le_pos; [nra|exact Hx]). nra.
  Qed.
End Near.

(** ** Smooth solutions *)
(** [u] solves [u' = L u + N(u)] on [[t0, tf]]; [f k] is the [k]-th derivative of [N(u(t))], for
    [k <= p]; within distance [rho] of the solution [N] is Lipschitz and has derivative [J] up to a
    quadratic remainder; [J] is Lipschitz in time. All constants are at most [K]. *)
Record smooth (n p : nat) (L : nat -> nat -> C) (N : cvec -> cvec) (t0 tf rho K : R)
              (u : R -> cvec) (f : nat -> R -> cvec) (J : R -> cvec -> cvec) : Prop := {
  so_time : t0 < tf;
  so_rho : 0 < rho;
  so_K : 0 <= K;
  so_N : respects (below n) N;
  so_eq : forall t i, t0 <= t <= tf -> (i < n)%nat -> is_Cder (fun s => u s i) t (mdot n L (u t) i + N (u t) i)%C;
  so_u : forall t, t0 <= t <= tf -> vle n (u t) K;
  so_f0 : forall t, t0 <= t <= tf -> veq (below n) (f 0%nat t) (N (u t));
  so_der : forall k t i, (k < p)%nat -> t0 <= t <= tf -> (i < n)%nat -> is_Cder (fun s => f k s i) t (f (S k) t i);
  so_bnd : forall k t, (k <= p)%nat -> t0 <= t <= tf -> vle n (f k t) K;
  so_lip : forall t v w x, t0 <= t <= tf -> 0 <= x -> vle n (csub v (u t)) rho -> vle n (csub w (u t)) rho ->
           vle n (csub v w) x -> vle n (csub (N v) (N w)) (K * x);
  so_Jlin : forall t, t0 <= t <= tf -> rlinear n (J t);
  so_Jbnd : forall t, t0 <= t <= tf -> opn n (J t) K;
  so_Jquad : forall t v x, t0 <= t <= tf -> 0 <= x <= rho -> vle n (csub v (u t)) x ->
             vle n (csub (csub (N v) (N (u t))) (J t (csub v (u t)))) (K * x ^ 2);
  so_Jtime : forall s t, t0 <= s <= tf -> t0 <= t <= tf -> opn n (fun v => csub (J s v) (J t v)) (K * Rabs (s - t)) }.

Lemma smooth_weak n p q L N t0 tf rho K u f J : (q <= p)%nat -> smooth n p L N t0 tf rho K u f J -> smooth n q L N t0 tf rho K u f J.
Proof.
  intros H [A1 A2 A3 A4 A5 A6 A7 A8 A9 A10 A11 A12 A13 A14]. split; auto.
  - intros. apply A8; try assumption. lia.
  - intros. apply A9; try assumption. lia.
Qed.

Section Smooth.
  Variables n p : nat.
  Variable L : nat -> nat -> C.
  Variable Ex : R -> nat -> nat -> C.
  Variable N : cvec -> cvec.
  Variables t0 tf rho K : R.
  Variable u : R -> cvec.
  Variable f : nat -> R -> cvec.
  Variable J : R -> cvec -> cvec.
  Hypothesis HF : matflow n L Ex.
  Hypothesis HS : smooth n p L N t0 tf rho K u f J.
  Notation E := (mflow n Ex).
  Notation T := (tf - t0).

  (** Situations: a time on the solution, and a step that stays in the interval. *)
  Definition adm (t h : R) : Prop := t0 <= t /\ 0 < h /\ t + h <= tf.
  Lemma adm_pos t h : adm t h -> 0 < h.
  Proof. intros (_ & H & _). exact H. Qed.
  Notation O := (bigO n R adm).
  Notation OO := (opO n R adm).

  (** Derivatives of [exp(-sL) f(t+s)]: [F_0 = f], [F_(j+1) = F_j' - L F_j]. *)
  Fixpoint Fd (j m : nat) (t : R) : cvec :=
    match j with
    | Datatypes.O => f m t
    | S j => csub (Fd j (S m) t) (mdot n L (Fd j m t))
    end.
  Definition kd (j : nat) (t s : R) : cvec := E (- s) (Fd j 0 (t + s)).
  Definition yd (t s : R) : cvec := E (- s) (u (t + s)).

  Lemma Fd_der j : forall m t i, (j + m < p)%nat -> t0 <= t <= tf -> (i < n)%nat ->
    is_Cder (fun s => Fd j m s i) t (Fd j (S m) t i).
  Proof.
    induction j as [|j IH]; intros m t i Hm Ht Hi; cbn [Fd].
    - apply (so_der _ _ _ _ _ _ _ _ _ _ _ HS); [lia|exact Ht|exact Hi].
    - unfold csub. apply is_Cder_minus; [apply IH; [lia|exact Ht|exact Hi]|].
      apply (is_Cder_csum n (fun j0 s => L i j0 * Fd j m s j0)%C (fun j0 => L i j0 * Fd j (S m) t j0)%C).
      intros k Hk. apply is_Cder_scal. apply IH; [lia|exact Ht|exact Hk].
  Qed.
  Lemma Fd_bound j : exists B, 0 <= B /\ forall m t, (j + m <= p)%nat -> t0 <= t <= tf -> vle n (Fd j m t) B.
  Proof.
    induction j as [|j (B & HB & IH)]; cbn [Fd].
    - exists K. split; [apply (so_K _ _ _ _ _ _ _ _ _ _ _ HS)|]. intros m t Hm Ht. apply (so_bnd _ _ _ _ _ _ _ _ _ _ _ HS); [lia|exact Ht].
    - destruct (L_bound n L) as (BL & HBL & HL). exists (B + BL * B).
      split; [assert (0 <= BL * B) by (apply Rmult_le_pos; assumption); lra|]. intros m t Hm Ht.
      apply vle_sub; [apply IH; [lia|exact Ht]|]. apply HL; [exact HB|]. apply IH; [lia|exact Ht].
  Qed.
  Lemma kd_der j t s i : (j < p)%nat -> t0 <= t + s <= tf -> (i < n)%nat ->
    is_Cder (fun s => kd j t s i) s (kd (S j) t s i).
  Proof.
    intros Hj Ht Hi. unfold kd. cbn [Fd].
    apply (lawson_der n L Ex HF (fun s => Fd j 0 (t + s)) (fun s => Fd j 1 (t + s)) s i Hi).
    intros k Hk. apply (is_Cder_shift (fun s => Fd j 0 s k)). apply Fd_der; [lia|exact Ht|exact Hk].
  Qed.
  Lemma yd_der t s i : t0 <= t + s <= tf -> (i < n)%nat -> is_Cder (fun s => yd t s i) s (kd 0 t s i).
  Proof.
    intros Ht Hi. unfold yd, kd. cbn [Fd].
    eapply is_Cder_eq; [reflexivity| |
      apply (lawson_der n L Ex HF (fun s => u (t + s)) (fun s => cadd (mdot n L (u (t + s))) (N (u (t + s)))) s i Hi)].
    - apply (lin_ext _ _ (flow_lin _ _ (mf_flow n L Ex HF) (- s))); [|exact Hi]. intros j Hj. unfold csub, cadd.
      rewrite (so_f0 _ _ _ _ _ _ _ _ _ _ _ HS (t + s) Ht j Hj). ring.
    - intros k Hk. apply (is_Cder_shift (fun s => u s k)). apply (so_eq _ _ _ _ _ _ _ _ _ _ _ HS); assumption.
  Qed.
  Lemma yd_0 t : veq (below n) (yd t 0) (u t).
  Proof.
    intros i Hi. unfold yd. rewrite Ropp_0, Rplus_0_r. apply (flow_0 _ _ (mf_flow n L Ex HF)). exact Hi.
  Qed.
  Lemma yd_back t s : veq (below n) (E s (yd t s)) (u (t + s)).
  Proof.
    intros i Hi. unfold yd. rewrite (flow_comp _ _ (mf_flow n L Ex HF) s (- s) _ i Hi), Rplus_opp_r.
    apply (flow_0 _ _ (mf_flow n L Ex HF)). exact Hi.
  Qed.

  Lemma E_bound : exists M, 0 <= M /\ forall t h th, adm t h -> 0 <= th <= 1 -> opn n (E (th * h)) M /\ opn n (E (- (th * h))) M.
  Proof.
    destruct (flow_bound n L Ex HF T) as (M & HM & H). exists M. split; [exact HM|]. intros t h th (H1 & H2 & H3) Hth.
    assert (A : 0 <= th * h <= T) by (split; [apply Rmult_le_pos; lra|nra]).
    split; apply H; rewrite ?Rabs_Ropp, (Rabs_pos_eq (th * h)), (Rabs_pos_eq T) by lra; lra.
  Qed.
  Lemma E_opO th : 0 <= th <= 1 -> OO 0 (fun t h => E (th * h)) /\ OO 0 (fun t h => E (- (th * h))).
  Proof.
    intros Hth. destruct E_bound as (M & HM & H).
    split; exists M, 1; (split; [exact HM|]; split; [lra|]); intros t h Ha _; cbn [pow]; rewrite Rmult_1_r; apply (H t h th Ha Hth).
  Qed.
  Lemma E_near_opO th : 0 <= th <= 1 -> OO 1 (fun t h v => csub (E (th * h) v) v) /\ OO 1 (fun t h v => csub (E (- (th * h)) v) v).
  Proof.
    intros Hth. destruct (flow_near n L Ex HF T) as (M & HM & H).
    split; exists M, 1; (split; [exact HM|]; split; [lra|]); intros t h (H1 & H2 & H3) _;
      (assert (A : 0 <= th * h <= T) by (split; [apply Rmult_le_pos; lra|nra]));
      (match goal with |- opn n (fun v => csub (E ?s v) v) _ => apply (opn_mono n _ (M * Rabs s)) end;
       [apply H; rewrite ?Rabs_Ropp, (Rabs_pos_eq (th * h)), (Rabs_pos_eq T) by lra; lra|];
       rewrite ?Rabs_Ropp, (Rabs_pos_eq (th * h)) by lra; cbn [pow]; apply Rmult_le_compat_l; [exact HM|nra]).
  Qed.

  (** ** Taylor expansions *)
  Definition vtay (g : nat -> cvec) (m : nat) (s : R) : cvec := fun i => csum m (fun k => RtoC (s ^ k / INR (fact k)) * g k i)%C.
  Lemma bigO_taylor (g : nat -> R -> R -> cvec) (m : nat) (th B : R) : 0 <= th <= 1 -> 0 <= B ->
    (forall k t s i, (k < m)%nat -> t0 <= t -> 0 <= s -> t + s <= tf -> (i < n)%nat -> is_Cder (fun s => g k t s i) s (g (S k) t s i)) ->
    (forall t s, t0 <= t -> 0 <= s -> t + s <= tf -> vle n (g m t s) B) ->
    O m (fun t h => csub (g 0%nat t (th * h)) (vtay (fun k => g k t 0) m (th * h))).
  Proof.
    intros Hth HB Hd Hb. exists (2 * B), 1. split; [lra|]. split; [lra|]. intros t h (H1 & H2 & H3) _ i Hi. unfold csub.
    assert (A : 0 <= th * h <= h) by (split; [apply Rmult_le_pos; lra|nra]).
    apply Rle_trans with (2 * B * (th * h) ^ m).
    - apply (taylor_cplx B h m (fun k s => g k t s i)); [| |exact A].
      + intros k s Hk Hs. apply Hd; (assumption || lra).
      + intros s Hs. apply Hb; (assumption || lra).
    - apply Rmult_le_compat_l; [lra|]. apply pow_incr. exact A.
  Qed.
  Lemma kd_bound j : (j <= p)%nat -> exists B, 0 <= B /\ forall t s, t0 <= t -> 0 <= s -> t + s <= tf -> vle n (kd j t s) B.
  Proof.
    intros Hj. destruct (flow_bound n L Ex HF T) as (M & HM & H). destruct (Fd_bound j) as (B & HB & HBd).
    exists (M * B). split; [apply Rmult_le_pos; assumption|]. intros t s H1 H2 H3. unfold kd. apply H; [|exact HB|].
    - rewrite Rabs_Ropp, (Rabs_pos_eq s), (Rabs_pos_eq T) by lra. lra.
    - apply HBd; [lia|lra].
  Qed.
  Lemma kd_taylor j m th : (j + m <= p)%nat -> 0 <= th <= 1 ->
    O m (fun t h => csub (kd j t (th * h)) (vtay (fun k => kd (j + k) t 0) m (th * h))).
  Proof.
    intros Hm Hth. destruct (kd_bound (j + m) Hm) as (B & HB & Hb).
    assert (G := bigO_taylor (fun k t s => kd (j + k) t s) m th B Hth HB). cbn beta in G.
    replace (j + 0)%nat with j in G by lia. apply G; [|exact Hb].
    intros k t s i Hk H1 H2 H3 Hi. replace (j + S k)%nat with (S (j + k)) by lia. apply kd_der; [lia|lra|exact Hi].
  Qed.
  Definition ychain (t : R) (k : nat) : cvec := match k with Datatypes.O => u t | S k => kd k t 0 end.
  Lemma yd_taylor m th : (m <= S p)%nat -> (0 < m)%nat -> 0 <= th <= 1 ->
    O m (fun t h => csub (yd t (th * h)) (vtay (ychain t) m (th * h))).
  Proof.
    intros Hm Hm0 Hth. destruct (kd_bound (m - 1) ltac:(lia)) as (B & HB & Hb).
    assert (G := bigO_taylor (fun k t s => match k with Datatypes.O => yd t s | S k => kd k t s end) m th B Hth HB).
    cbn beta iota in G. eapply O_ext; [|apply G].
    - intros t h _ i Hi. unfold csub, vtay. apply (f_equal (fun z => _ - z)%C). apply csum_ext. intros k Hk. f_equal.
      destruct k; cbn [ychain]; [|reflexivity]. apply yd_0. exact Hi.
    - intros [|k] t s i Hk H1 H2 H3 Hi; [apply yd_der; [lra|exact Hi]|apply kd_der; [lia|lra|exact Hi]].
    - intros t s H1 H2 H3. destruct m as [|m]; [lia|]. replace (S m - 1)%nat with m in Hb by lia. apply Hb; assumption.
  Qed.

  (** ** The nonlinear function near the solution, in the transformed variable *)
  Definition gfun (N : cvec -> cvec) (s : R) (w : cvec) : cvec := E (- s) (N (E s w)).
  Definition Gop (th t h : R) (v : cvec) : cvec := E (- (th * h)) (J (t + th * h) (E (th * h) v)).
  Definition Srem (th t h : R) (v : cvec) : cvec :=
    E (- (th * h)) (csub (csub (N (cadd (u (t + th * h)) (E (th * h) v))) (N (u (t + th * h)))) (J (t + th * h) (E (th * h) v))).
  Lemma stage_expand th t h (Y : cvec) : 0 <= th <= 1 -> adm t h ->
    veq (below n) (gfun N (th * h) Y)
      (cadd (kd 0 t (th * h)) (cadd (Gop th t h (csub Y (yd t (th * h)))) (Srem th t h (csub Y (yd t (th * h)))))).
  Proof.
    intros Hth (H1 & H2 & H3).
    assert (Ht : t0 <= t + th * h <= tf).
    { assert (0 <= th * h) by (apply Rmult_le_pos; lra). assert (th * h <= h) by nra. lra. }
    unfold gfun, Gop, Srem, kd. cbn [Fd]. set (e := csub Y (yd t (th * h))).
    set (Je := J (t + th * h) (E (th * h) e)).
    assert (RL := E_rlinear n L Ex HF (- (th * h))).
    assert (EY : veq (below n) (E (th * h) Y) (cadd (u (t + th * h)) (E (th * h) e))).
    { transitivity (E (th * h) (cadd (yd t (th * h)) e)).
      - apply (lin_ext _ _ (flow_lin _ _ (mf_flow n L Ex HF) (th * h))). intros i _. unfold e, cadd, csub. ring.
      - etransitivity; [apply (rl_add _ _ (E_rlinear n L Ex HF (th * h)))|].
        intros i Hi. unfold cadd. rewrite (yd_back t (th * h) i Hi). reflexivity. }
    transitivity (E (- (th * h)) (cadd (N (u (t + th * h))) (cadd Je (csub (csub (N (cadd (u (t + th * h)) (E (th * h) e))) (N (u (t + th * h)))) Je)))).
    - apply (lin_ext _ _ (flow_lin _ _ (mf_flow n L Ex HF) (- (th * h)))). intros i Hi.
      rewrite (so_N _ _ _ _ _ _ _ _ _ _ _ HS _ _ EY i Hi). unfold cadd, csub. ring.
    - etransitivity; [apply (rl_add _ _ RL)|]. apply cadd_proper; [|apply (rl_add _ _ RL)].
      apply (lin_ext _ _ (flow_lin _ _ (mf_flow n L Ex HF) (- (th * h)))).
      intros j Hj. symmetry. apply (so_f0 _ _ _ _ _ _ _ _ _ _ _ HS); [exact Ht|exact Hj].
  Qed.
  Lemma th_time th t h : 0 <= th <= 1 -> adm t h -> t0 <= t + th * h <= tf.
  Proof. intros Hth (H1 & H2 & H3). assert (0 <= th * h) by (apply Rmult_le_pos; lra). assert (th * h <= h) by nra. lra. Qed.
  Lemma Gop_opO th : 0 <= th <= 1 -> OO 0 (Gop th).
  Proof.
    intros Hth. destruct (E_opO th Hth) as [H1 H2]. unfold Gop.
    apply (opO_comp n R adm adm_pos 0 0 (fun t h => E (- (th * h))) (fun t h v => J (t + th * h) (E (th * h) v)) H2).
    apply (opO_comp n R adm adm_pos 0 0 (fun t h => J (t + th * h)) (fun t h => E (th * h))); [|exact H1].
    exists K, 1. split; [apply (so_K _ _ _ _ _ _ _ _ _ _ _ HS)|]. split; [lra|]. intros t h Ha _. cbn [pow]. rewrite Rmult_1_r.
    apply (so_Jbnd _ _ _ _ _ _ _ _ _ _ _ HS). apply th_time; assumption.
  Qed.
  Lemma Gop_rlinear th t h : 0 <= th <= 1 -> adm t h -> rlinear n (Gop th t h).
  Proof.
    intros Hth Ha. unfold Gop. destruct E_bound as (M & HM & H). destruct (H t h th Ha Hth) as [Hb1 Hb2].
    apply (rlinear_comp n (E (- (th * h))) _ M Hb2 (E_rlinear n L Ex HF _)).
    apply (rlinear_comp n (J (t + th * h)) _ K).
    - apply (so_Jbnd _ _ _ _ _ _ _ _ _ _ _ HS). apply th_time; assumption.
    - apply (so_Jlin _ _ _ _ _ _ _ _ _ _ _ HS). apply th_time; assumption.
    - apply E_rlinear with (L := L). exact HF.
  Qed.
  Lemma Srem_quad th : 0 <= th <= 1 -> quadratic n R adm (Srem th).
  Proof.
    intros Hth. destruct E_bound as (M & HM & H). assert (Hr := so_rho _ _ _ _ _ _ _ _ _ _ _ HS).
    assert (HK := so_K _ _ _ _ _ _ _ _ _ _ _ HS).
    exists (M * (K * M ^ 2)), (rho / (M + 1)), 1.
    split; [apply Rmult_le_pos; [exact HM|apply Rmult_le_pos; [exact HK|apply pow2_ge_0]]|].
    split; [apply Rdiv_lt_0_compat; lra|]. split; [lra|]. intros t h Ha _ v x Hx Hv.
    destruct (H t h th Ha Hth) as [Hb1 Hb2]. assert (Ht := th_time th t h Hth Ha).
    replace (M * (K * M ^ 2) * x ^ 2) with (M * (K * (M * x) ^ 2)) by ring. unfold Srem.
    assert (HMx : 0 <= M * x) by (apply Rmult_le_pos; lra).
    apply Hb2; [apply Rmult_le_pos; [exact HK|apply pow2_ge_0]|].
    assert (EV := Hb1 v x (proj1 Hx) Hv).
    assert (D : veq (below n) (csub (cadd (u (t + th * h)) (E (th * h) v)) (u (t + th * h))) (E (th * h) v)).
    { intros i _. unfold csub, cadd. ring. }
    assert (Q := so_Jquad _ _ _ _ _ _ _ _ _ _ _ HS (t + th * h) (cadd (u (t + th * h)) (E (th * h) v)) (M * x) Ht).
    eapply vle_ext; [|apply Q].
    - apply csub_proper; [reflexivity|]. intros i Hi.
      apply (rl_ext n (J (t + th * h)) K _ _ (so_Jlin _ _ _ _ _ _ _ _ _ _ _ HS _ Ht) (so_Jbnd _ _ _ _ _ _ _ _ _ _ _ HS _ Ht) D i Hi).
    - split; [exact HMx|]. apply Rle_trans with ((M + 1) * (rho / (M + 1))); [|right; field; lra].
      apply Rmult_le_compat; lra.
    - eapply vle_ext; [|exact EV]. symmetry. exact D.
  Qed.
  (** The linearisation changes by [O(h)] within a step. *)
  Lemma Gop_near th : 0 <= th <= 1 -> OO 1 (fun t h v => csub (Gop th t h v) (J t v)).
  Proof.
    intros Hth. destruct (E_opO th Hth) as [E1 E2]. destruct (E_near_opO th Hth) as [N1 N2].
    assert (HK := so_K _ _ _ _ _ _ _ _ _ _ _ HS).
    assert (J1 : OO 0 (fun t h => J (t + th * h))).
    { exists K, 1. split; [exact HK|]. split; [lra|]. intros t h Ha _. cbn [pow]. rewrite Rmult_1_r.
      apply (so_Jbnd _ _ _ _ _ _ _ _ _ _ _ HS). apply th_time; assumption. }
    assert (J2 : OO 0 (fun t h => J t)).
    { exists K, 1. split; [exact HK|]. split; [lra|]. intros t h (A1 & A2 & A3) _. cbn [pow]. rewrite Rmult_1_r.
      apply (so_Jbnd _ _ _ _ _ _ _ _ _ _ _ HS). lra. }
    assert (J3 : OO 1 (fun t h v => csub (J (t + th * h) v) (J t v))).
    { exists K, 1. split; [exact HK|]. split; [lra|]. intros t h Ha _. assert (Ht := th_time th t h Hth Ha). destruct Ha as (A1 & A2 & A3).
      apply (opn_mono n _ (K * Rabs (t + th * h - t))); [apply (so_Jtime _ _ _ _ _ _ _ _ _ _ _ HS); lra|].
      apply Rmult_le_compat_l; [exact HK|]. replace (t + th * h - t) with (th * h) by ring.
      rewrite Rabs_pos_eq by (apply Rmult_le_pos; lra). cbn [pow]. nra. }
    assert (X1 := opO_comp n R adm adm_pos 1 0 _ _ N2 (opO_comp n R adm adm_pos 0 0 _ _ J1 E1)).
    assert (X2 := opO_comp n R adm adm_pos 1 0 _ _ J3 E1).
    assert (X3 := opO_comp n R adm adm_pos 0 1 _ _ J2 N1).
    assert (X := opO_add n R adm 1 _ _ X1 (opO_add n R adm 1 _ _ X2 X3)).
    eapply opO_ext; [|exact X]. intros t h v Ha i Hi. unfold Gop. cbn beta. unfold cadd.
    rewrite (rl_sub n (J t) (E (th * h) v) v ltac:(apply (so_Jlin _ _ _ _ _ _ _ _ _ _ _ HS); destruct Ha as (? & ? & ?); lra) i Hi).
    unfold csub. ring.
  Qed.
  Lemma Gop_diff th th' : 0 <= th <= 1 -> 0 <= th' <= 1 -> OO 1 (fun t h v => csub (Gop th t h v) (Gop th' t h v)).
  Proof.
    intros H1 H2. eapply opO_ext; [|apply (opO_sub n R adm 1 _ _ (Gop_near th H1) (Gop_near th' H2))].
    intros t h v Ha i Hi. unfold csub. ring.
  Qed.
End Smooth.
