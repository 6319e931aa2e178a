(** * C93: the diagonalized ETD solvers converge with order three, with constants that depend on the eigenbasis but not on the
      eigenvalues *)

From Coq Require Import ZArith List Bool Reals Lra Lia FunctionalExtensionality QArith Qreals Setoid Morphisms.
From Coquelicot Require Import Hierarchy Derive RInt Complex.
From Verif Require Import Scalars Control ControlCS ControlCSReal ControlAS ControlASReal ControlSim ControlSound PropsControl Arrays SchemeBase
     SchemeIF SchemeETD4 SchemeETD5 Solvers SchemeFacts SchemeSound SchemeFamily SchemePartial SchemeForm CInst SpecRK
     SchemeIFReal PropsCache PropsIF SpecPhi SpecPoly ContourReal SpecERK SchemeETDReal SchemeETDCoefs PropsPsi PropsETD
     PropsLinear ContourMatrix MatrixFlow PropsMatrix Asym Solution LocalRK4 Stable Converge Voc LocalKro MatExp ConvRuns ConvMethods
     PropsConverge Stiff StiffOrder PropsStiff StiffMethods PropsStiffOrder.
Import ListNotations.
Local Open Scope R_scope.

(** ** Spec: solutions of [u' = L u + N(u)] with a matrix [L], bounds only for the nonlinear part *)
Record stiff_matrix_solution (n : nat) (L : cmat) (N : cvec -> cvec) (t0 t1 rho K : R)
       (u f f1 f2 : R -> cvec) (J : R -> cvec -> cvec) : Prop := {
  sm_time : t0 < t1;
  sm_rho : 0 < rho;
  sm_K : 0 <= K;
  sm_N : respects (below n) N;
  sm_eq : forall t i, t0 <= t <= t1 -> (i < n)%nat -> is_Cder (fun s => u s i) t (mdot n L (u t) i + f t i)%C;
  sm_f : forall t, t0 <= t <= t1 -> veq (below n) (f t) (N (u t));
  sm_d1 : forall t i, t0 <= t <= t1 -> (i < n)%nat -> is_Cder (fun s => f s i) t (f1 t i);
  sm_d2 : forall t i, t0 <= t <= t1 -> (i < n)%nat -> is_Cder (fun s => f1 s i) t (f2 t i);
  sm_b0 : forall t, t0 <= t <= t1 -> vle n (f t) K;
  sm_b1 : forall t, t0 <= t <= t1 -> vle n (f1 t) K;
  sm_b2 : forall t, t0 <= t <= t1 -> vle n (f2 t) K;
  sm_d3 : forall s t, t0 <= s <= t1 -> t0 <= t <= t1 -> vle n (csub (f2 s) (f2 t)) (K * Rabs (s - t));
  sm_lip : forall t v w x, t0 <= t <= t1 -> 0 <= x -> vle n (csub v (u t)) rho -> vle n (csub w (u t)) rho ->
           vle n (csub v w) x -> vle n (csub (N v) (N w)) (K * x);
  sm_Jlin : forall t, t0 <= t <= t1 -> rlinear n (J t);
  sm_Jbnd : forall t, t0 <= t <= t1 -> opn n (J t) K;
  sm_Jquad : forall t v x, t0 <= t <= t1 -> 0 <= x <= rho -> vle n (csub v (u t)) x ->
             vle n (csub (csub (N v) (N (u t))) (J t (csub v (u t)))) (K * x ^ 2);
  sm_Jtime : forall s t, t0 <= s <= t1 -> t0 <= t <= t1 -> opn n (fun v => csub (J s v) (J t v)) (K * Rabs (s - t)) }.

(** ** The equation in the eigenbasis *)
Section Basis.
  Variables (n : nat) (L S T : cmat) (lam : cvec) (s b : R).
  Hypothesis HST : meq n (mprod n S T) mident.
  Hypothesis HTS : meq n (mprod n T S) mident.
  Hypothesis HL : meq n L (mprod n S (mprod n (diagm lam) T)).
  Hypothesis Hs : 1 <= s.
  Hypothesis Hb : 1 <= b.
  Hypothesis HSn : forall i, (i < n)%nat -> rown n S i <= s.
  Hypothesis HTn : forall i, (i < n)%nat -> rown n T i <= b.
  Notation up := (mdot n S).
  Notation dn := (mdot n T).
  Lemma up_dn v : veq (below n) (up (dn v)) v.
  Proof. apply mdot_inv. exact HST. Qed.
  Lemma dn_up v : veq (below n) (dn (up v)) v.
  Proof. apply mdot_inv. exact HTS. Qed.
  Lemma up_bnd : opn n up s.
  Proof. intros v x Hx Hv i Hi. apply mdot_bound; auto. Qed.
  Lemma dn_bnd : opn n dn b.
  Proof. intros v x Hx Hv i Hi. apply mdot_bound; auto. Qed.
  Lemma up_lin : rlinear n up.
  Proof. apply linear_rlinear, mdot_linear. Qed.
  Lemma dn_lin : rlinear n dn.
  Proof. apply linear_rlinear, mdot_linear. Qed.
  Lemma dn_sub v w x : 0 <= x -> vle n (csub v w) x -> vle n (csub (dn v) (dn w)) (b * x).
  Proof. intros Hx H. eapply vle_ext; [apply (rl_sub n dn v w dn_lin)|]. apply dn_bnd; assumption. Qed.
  Lemma up_sub v w x : 0 <= x -> vle n (csub v w) x -> vle n (csub (up v) (up w)) (s * x).
  Proof. intros Hx H. eapply vle_ext; [apply (rl_sub n up v w up_lin)|]. apply up_bnd; assumption. Qed.
  Lemma up_near v (w : cvec) x : 0 <= x -> vle n (csub v (dn w)) x -> vle n (csub (up v) w) (s * x).
  Proof.
    intros Hx H. assert (G := up_sub v (dn w) x Hx H). intros i Hi. specialize (G i Hi). unfold csub in *. rewrite (up_dn w i Hi) in G. exact G.
  Qed.
  Lemma dn_L v i : (i < n)%nat -> dn (mdot n L v) i = (lam i * dn v i)%C.
  Proof.
    intros Hi. rewrite (mdot_ext_eq n T _ _ (mdot_meq n _ _ v HL)).
    rewrite (mdot_ext_eq n T _ (up (mdot n (mprod n (diagm lam) T) v))) by (symmetry; apply mdot_prod).
    rewrite (dn_up _ i Hi). rewrite <- (mdot_prod n (diagm lam) T v i Hi). apply mdot_diag. exact Hi.
  Qed.
  Lemma dn_der (w : R -> cvec) (d : cvec) t i : (forall j, (j < n)%nat -> is_Cder (fun r => w r j) t (d j)) -> is_Cder (fun r => dn (w r) i) t (dn d i).
  Proof. intros H. unfold mdot. apply (is_Cder_csum n (fun j r => T i j * w r j)%C). intros j Hj. apply is_Cder_scal. apply H. exact Hj. Qed.

  Lemma to_eigenbasis N t0 t1 rho K u f f1 f2 J : (forall i, (i < n)%nat -> fst (lam i) <= 0) ->
    stiff_matrix_solution n L N t0 t1 rho K u f f1 f2 J ->
    stiff_solution n lam (fun v => dn (N (up v))) t0 t1 (rho / s) (b * (s * s) * K) (fun t => dn (u t)) (fun t => dn (f t)) (fun t => dn (f1 t)) (fun t => dn (f2 t))
      (fun t v => dn (J t (up v))).
  Proof.
    intros HR HS. destruct HS as [h1 h2 h3 h4 h5 h6 h7 h8 h9 h10 h11 h12 h13 h14 h15 h16 h17].
    assert (S1 : s * 1 <= s * s) by (apply Rmult_le_compat_l; lra).
    assert (BK : 0 <= b * K) by (apply Rmult_le_pos; lra).
    assert (K1 : b * K <= b * (s * s) * K) by (replace (b * (s * s) * K) with (b * K * (s * s)) by ring; rewrite <- (Rmult_1_r (b * K)) at 1; apply Rmult_le_compat_l; lra).
    assert (K2 : b * K * s <= b * (s * s) * K) by (replace (b * (s * s) * K) with (b * K * (s * s)) by ring; apply Rmult_le_compat_l; lra).
    assert (R0 : 0 < rho / s) by (apply Rdiv_lt_0_compat; lra). assert (R1 : s * (rho / s) = rho) by (field; lra).
    split; try assumption.
    - lra.
    - intros v w E i Hi. rewrite (mdot_ext_eq n T (N (up v)) (N (up w))); [reflexivity|]. apply h4. rewrite (mdot_ext_eq n S v w E). reflexivity.
    - intros t i Ht Hi. eapply is_Cder_eq; [reflexivity| |apply (dn_der u (cadd (mdot n L (u t)) (f t)) t i); intros j Hj; apply h5; assumption].
      rewrite (rl_add n dn dn_lin (mdot n L (u t)) (f t) i Hi). unfold cadd. rewrite dn_L by exact Hi. reflexivity.
    - intros t Ht i Hi. rewrite (mdot_ext_eq n T (f t) (N (up (dn (u t))))); [reflexivity|]. etransitivity; [apply h6; exact Ht|]. apply h4. symmetry. apply up_dn.
    - intros t i Ht Hi. apply dn_der. intros j Hj. apply h7; assumption.
    - intros t i Ht Hi. apply dn_der. intros j Hj. apply h8; assumption.
    - intros t Ht. eapply vle_mono; [apply dn_bnd; [exact h3|apply h9; exact Ht]|exact K1].
    - intros t Ht. eapply vle_mono; [apply dn_bnd; [exact h3|apply h10; exact Ht]|exact K1].
    - intros t Ht. eapply vle_mono; [apply dn_bnd; [exact h3|apply h11; exact Ht]|exact K1].
    - intros r t Hr Ht. assert (A := Rabs_pos (r - t)). eapply vle_mono; [apply dn_sub; [|apply h12; assumption]; apply Rmult_le_pos; assumption|].
      rewrite <- Rmult_assoc. apply Rmult_le_compat_r; assumption.
    - intros t v w x Ht Hx Hv Hw Hvw.
      assert (Hv' := up_near v (u t) _ (Rlt_le _ _ R0) Hv). assert (Hw' := up_near w (u t) _ (Rlt_le _ _ R0) Hw). rewrite R1 in Hv', Hw'.
      assert (Hx' : 0 <= s * x) by (apply Rmult_le_pos; lra).
      eapply vle_mono; [apply dn_sub; [|apply (h13 t _ _ (s * x) Ht Hx' Hv' Hw' (up_sub v w x Hx Hvw))]; apply Rmult_le_pos; lra|].
      replace (b * (K * (s * x))) with (b * K * s * x) by ring. apply Rmult_le_compat_r; assumption.
    - intros t Ht. apply (rlinear_comp n dn (fun v => J t (up v)) b dn_bnd dn_lin). apply (rlinear_comp n (J t) up K (h15 t Ht) (h14 t Ht) up_lin).
    - intros t Ht v x Hx Hv. assert (Hx' : 0 <= s * x) by (apply Rmult_le_pos; lra).
      eapply vle_mono; [apply dn_bnd; [|apply (h15 t Ht _ (s * x) Hx'); apply up_bnd; assumption]; apply Rmult_le_pos; lra|].
      replace (b * (K * (s * x))) with (b * K * s * x) by ring. apply Rmult_le_compat_r; assumption.
    - intros t v x Ht Hx Hv. assert (Hx' : 0 <= s * x) by (apply Rmult_le_pos; lra).
      assert (Hv' := up_near v (u t) x ltac:(lra) Hv).
      assert (Hxr : s * x <= rho) by (rewrite <- R1; apply Rmult_le_compat_l; lra).
      assert (P2 : 0 <= (s * x) ^ 2) by (apply pow_le; exact Hx').
      eapply vle_mono; [eapply vle_ext; [|apply dn_bnd; [|apply (h16 t (up v) (s * x) Ht (conj Hx' Hxr) Hv')]; apply Rmult_le_pos; assumption]|].
      + intros i Hi. assert (E0 : forall A B D, dn (csub (csub A B) D) i = (dn A i - dn B i - dn D i)%C).
        { intros A B D. rewrite (rl_sub n dn _ _ dn_lin i Hi). change (dn (csub A B) i - dn D i = dn A i - dn B i - dn D i)%C. rewrite (rl_sub n dn _ _ dn_lin i Hi). reflexivity. }
        rewrite E0.
        assert (E1 : dn (N (u t)) = dn (N (up (dn (u t))))) by (apply mdot_ext_eq; apply h4; symmetry; apply up_dn). rewrite E1.
        assert (E2 : dn (J t (csub (up v) (u t))) = dn (J t (up (csub v (dn (u t)))))).
        { apply mdot_ext_eq. apply (rl_ext n (J t) K _ _ (h14 t Ht) (h15 t Ht)). intros j Hj. rewrite (rl_sub n up _ _ up_lin j Hj). unfold csub. rewrite (up_dn (u t) j Hj). reflexivity. }
        rewrite E2. reflexivity.
      + apply Req_le. ring.
    - intros r t Hr Ht v x Hx Hv. assert (A := Rabs_pos (r - t)). assert (Hx' : 0 <= s * x) by (apply Rmult_le_pos; lra).
      assert (KA : 0 <= K * Rabs (r - t)) by (apply Rmult_le_pos; assumption).
      eapply vle_mono; [apply dn_sub; [|apply (h17 r t Hr Ht (up v) (s * x) Hx'); apply up_bnd; assumption]; apply Rmult_le_pos; assumption|].
      replace (b * (K * Rabs (r - t) * (s * x))) with (b * K * s * (Rabs (r - t) * x)) by ring. rewrite (Rmult_assoc (b * (s * s) * K)). apply Rmult_le_compat_r; [apply Rmult_le_pos; assumption|assumption].
  Qed.
End Basis.

(** ** Runs *)
Lemma as_from_runs n t0 t1 u ord C h0 r0 W (p : problem Cops W) N k e : computes p N ->
  (forall H hs v d, 0 <= d -> 0 <= H <= h0 -> d + e <= r0 -> vle n (csub v (u t0)) d -> Forall (fun h => 0 < h <= H) hs -> t0 + total hs <= t1 ->
     vle n (csub (run (fun h v => fst (as_Phi p N k h v)) hs v) (u (t0 + total hs))) (C * (d + e + H ^ ord))) ->
  as_claim n t0 t1 u ord C h0 r0 p k e.
Proof.
  intros Hp HR ks cfg compute_s fuel v s0 sf hi o w r o' w' d H Hks Hcfg E0 Hsf Hend Hhi Hd Hde Hv E HG HH.
  destruct (as_model_sound1 (F := Rops) (fun a b X => proj1 (Reqb_true a b) X) p N Hp k) as [Inv HM].
  destruct (as_evolve_steps ks compute_s HM Hks Hcfg fuel v s0 sf hi o w Hsf Hhi E) as (hs & Hpos & Hg & Htot & Hst & Hr).
  rewrite E0 in *. set (Phi := fun (h : R) (v : cvec) => fst (as_Phi p N k h v)) in *. assert (Hmax := steps_gaps _ _ _ _ _ _ _ _ Hst HG).
  assert (G : forall j, vle n (csub (grun Phi (firstn j hs) v) (u (t0 + total (firstn j hs)))) (C * (d + e + H ^ ord))).
  { intros j. rewrite grun_run. apply HR; try assumption.
    - apply Forall_forall. intros h Hin. assert (In h hs) by (rewrite <- (firstn_skipn j hs); apply in_or_app; left; exact Hin).
      rewrite Forall_forall in Hpos, Hmax. split; auto.
    - assert (X := total_firstn hs j Hpos). lra. }
  split.
  - unfold accurate. destruct Hst as [Ets Evs]. rewrite Ets, Evs. clear - G. induction (seq 0 (Datatypes.S (length hs))) as [|j l IH]; cbn [map]; constructor; [apply G|exact IH].
  - intros v' Ev. destruct (Hr v' Ev) as [-> <-]. assert (X := G (length hs)). rewrite firstn_all in X. exact X.
Qed.
Section Runs.
  Variables (K rho T0 s b C h0 r0 : R).
  Hypothesis Hs : 1 <= s.
  Hypothesis Hb : 1 <= b.
  Hypothesis HC : 0 <= C.
  Hypothesis HR : forall n L N t0 t1 u f f1 f2 J, stiff_solution n L N t0 t1 (rho / s) (b * (s * s) * K) u f f1 f2 J -> t1 - t0 <= T0 ->
    forall (Phi : R -> cvec -> cvec) cs H e hs v d, 0 <= e -> 0 <= d -> 0 <= H <= h0 -> d + e <= r0 -> vle n (csub v (u t0)) d ->
    Forall (fun h => 0 < h <= H /\ exists m, stiff_three n h L 20 e cs m /\ forall v, veq (below n) (Phi h v) (erk_step m N h v)) hs ->
    t0 + total hs <= t1 ->
    vle n (csub (run Phi hs v) (u (t0 + total hs))) (C * (d + e + H ^ 3)).
  Variables (n : nat) (L : cmat) (N : cvec -> cvec) (t0 t1 : R) (u f f1 f2 : R -> cvec) (J : R -> cvec -> cvec).
  Hypothesis HS : stiff_matrix_solution n L N t0 t1 rho K u f f1 f2 J.
  Hypothesis HT : t1 - t0 <= T0.
  Variables (W : Type) (p : problem Cops W).
  Hypothesis Hp : computes p N.
  Hypothesis En : p_size p = n.
  Hypothesis EL : p_mat p = L.
  Hypothesis HD : diagonalizes p.
  Hypothesis Hlam : forall i, (i < n)%nat -> fst (p_eigs p i) <= 0.
  Hypothesis HSn : forall i, (i < n)%nat -> rown n (p_S p) i <= s.
  Hypothesis HTn : forall i, (i < n)%nat -> rown n (p_Sinv p) i <= b.
  Variables (k : as_kind) (e : R) (cs : list R) (m : R -> erk).
  Hypothesis He : 0 <= e.
  Hypothesis Hm : forall h, 0 < h -> stiff_three n h (p_eigs p) 20 e cs (m h).
  Hypothesis HP : forall h v, fst (as_Phi p N k h v) = mdot n (p_S p) (erk_step (m h) (fun v => mdot n (p_Sinv p) (N (mdot n (p_S p) v))) h (mdot n (p_Sinv p) v)).
  Lemma eig_claim : as_claim n t0 t1 u 3 (s * C * b) h0 (r0 / b) p k e.
  Proof.
    apply (as_from_runs n t0 t1 u 3 (s * C * b) h0 (r0 / b) W p N k e Hp). intros H hs v d Hd HH Hde Hv Hhs Htot.
    destruct HD as [[H1 H2] H3]. rewrite En in H1, H2, H3. rewrite EL in H3.
    assert (HT' := to_eigenbasis n L (p_S p) (p_Sinv p) (p_eigs p) s b H1 H2 H3 Hs Hb HSn HTn N t0 t1 rho K u f f1 f2 J Hlam HS).
    set (dn := mdot n (p_Sinv p)) in *. set (up := mdot n (p_S p)) in *. set (N' := fun v => dn (N (up v))) in *.
    set (Phi2 := fun h w => dn (up (erk_step (m h) N' h w))).
    assert (Hdb : 0 <= b * d) by (apply Rmult_le_pos; lra).
    assert (Hr : b * d + e <= r0).
    { assert (b * (d + e) <= b * (r0 / b)) by (apply Rmult_le_compat_l; lra). replace (b * (r0 / b)) with r0 in H0 by (field; lra).
      assert (1 * e <= b * e) by (apply Rmult_le_compat_r; lra). lra. }
    assert (G := HR n (p_eigs p) N' t0 t1 _ _ _ _ _ HT' HT Phi2 cs H e hs (dn v) (b * d) He Hdb HH Hr (dn_sub n (p_Sinv p) b HTn v (u t0) d Hd Hv)).
    assert (F : Forall (fun h => 0 < h <= H /\ exists m0, stiff_three n h (p_eigs p) 20 e cs m0 /\ forall v0, veq (below n) (Phi2 h v0) (erk_step m0 N' h v0)) hs).
    { rewrite Forall_forall in Hhs |- *. intros h Hin. specialize (Hhs h Hin). split; [exact Hhs|]. exists (m h). split; [apply Hm; lra|].
      intros w. unfold Phi2. apply (dn_up n (p_S p) (p_Sinv p) H2). }
    specialize (G F Htot). clear F.
    assert (E : forall hs v, dn (run (fun h v => fst (as_Phi p N k h v)) hs v) = run Phi2 hs (dn v)).
    { clear - HP. induction hs as [|h hs IH]; intros v; [reflexivity|]. cbn [run]. rewrite IH, HP. reflexivity. }
    rewrite <- E in G.
    assert (H3p : 0 <= H ^ 3) by (apply pow_le; lra).
    assert (X := up_near n (p_S p) (p_Sinv p) s H1 HSn _ _ (C * (b * d + e + H ^ 3)) ltac:(apply Rmult_le_pos; [exact HC|lra]) G).
    eapply vle_mono; [eapply vle_ext; [|exact X]|].
    - intros i Hi. unfold csub. f_equal. exact (up_dn n (p_S p) (p_Sinv p) H1 _ i Hi).
    - replace (s * C * b * (d + e + H ^ 3)) with (s * (C * (b * (d + e + H ^ 3)))) by ring. apply Rmult_le_compat_l; [lra|]. apply Rmult_le_compat_l; [exact HC|].
      assert (1 * (e + H ^ 3) <= b * (e + H ^ 3)) by (apply Rmult_le_compat_r; lra). lra.
  Qed.
End Runs.

(** C93. *)
Theorem C93_uniform_eigenbasis :
  forall K rho T0 s b, 0 <= K -> 0 < rho -> 0 < T0 -> 1 <= s -> 1 <= b ->
  exists C h0 r0, 0 <= C /\ 0 < h0 /\ 0 < r0 /\
  forall n (L : cmat) N t0 t1 u f f1 f2 J, stiff_matrix_solution n L N t0 t1 rho K u f f1 f2 J -> t1 - t0 <= T0 ->
  forall W (p : problem Cops W), computes p N -> p_size p = n -> p_mat p = L -> diagonalizes p ->
    (forall i, (i < n)%nat -> fst (p_eigs p i) <= 0) ->
    (forall i, (i < n)%nat -> rown n (p_S p) i <= s) -> (forall i, (i < n)%nat -> rown n (p_Sinv p) i <= b) -> good_contour (p_cfg p) ->
    as_claim n t0 t1 u 3 C h0 r0 p ETD34z (quad_error (p_cfg p)) /\ as_claim n t0 t1 u 3 C h0 r0 p ETD35z (quad_error (p_cfg p)).
Proof.
  intros K rho T0 s b HK Hrho HT0 Hs Hb.
  assert (HK' : 0 <= b * (s * s) * K) by (apply Rmult_le_pos; [apply Rmult_le_pos; [lra|apply Rmult_le_pos; lra]|exact HK]).
  assert (Hrho' : 0 < rho / s) by (apply Rdiv_lt_0_compat; lra).
  destruct (stiff_runs 20 (b * (s * s) * K) (rho / s) T0 ltac:(lra) HK' Hrho' HT0) as (C & h0 & r0 & H1 & H2 & H3 & H4).
  exists (s * C * b), h0, (r0 / b). split; [apply Rmult_le_pos; [apply Rmult_le_pos|]; lra|]. split; [exact H2|]. split; [apply Rdiv_lt_0_compat; lra|].
  intros n L N t0 t1 u f f1 f2 J HS HT W p Hp En EL HD Hlam HSn HTn Hc. assert (He := e_pos _ Hc). assert (HN := sm_N _ _ _ _ _ _ _ _ _ _ _ _ HS).
  assert (M1 : forall h, 0 < h -> stiff_three n h (p_eigs p) 20 (quad_error (p_cfg p)) [0; 1/2; 1/2; 1] (d_krogstad (p_cfg p) h (p_eigs p)))
    by (intros h Hh; apply kro_three; [exact Hlam|lra|exact Hc]).
  assert (M2 : forall h, 0 < h -> stiff_three n h (p_eigs p) 20 (quad_error (p_cfg p)) [0; 1/4; 1/4; 1/2; 3/4; 1] (d_etd5 (p_cfg p) h (p_eigs p)))
    by (intros h Hh; apply etd5_three; [exact Hlam|lra|exact Hc]).
  subst n. split.
  - apply (eig_claim K rho T0 s b C h0 r0 Hs Hb H1 H4 (p_size p) L N t0 t1 u f f1 f2 J HS HT W p Hp eq_refl EL HD Hlam HSn HTn ETD34z _ _ _ He M1).
    intros h v. exact (proj1 (etd34z_eig W p N (proj1 HD) HN h v)).
  - apply (eig_claim K rho T0 s b C h0 r0 Hs Hb H1 H4 (p_size p) L N t0 t1 u f f1 f2 J HS HT W p Hp eq_refl EL HD Hlam HSn HTn ETD35z _ _ _ He M2).
    intros h v. exact (proj1 (etd35z_eig W p N (proj1 HD) HN h v)).
Qed.

(** The hypotheses with the same bounds for all operators [[0, lam], [0, lam]] with [Re lam <= 0], whose eigenvectors are (1, 0)
    and (1, 1): the solution of [u_0' = lam u_1 + 2, u_1' = lam u_1 + 1] from 0. *)
Definition shear (a : R) : cmat := fun i j => match i, j with O, O => RtoC 1 | O, S O => RtoC a | S O, S O => RtoC 1 | _, _ => RtoC 0 end.
Definition shL (lam : C) : cmat := fun i j => match j with S O => lam | _ => RtoC 0 end.
Definition she (lam : C) : cvec := fun i => match i with O => RtoC 0 | _ => lam end.
Definition shf : cvec := fun i => match i with O => RtoC 2 | _ => RtoC 1 end.
Definition shw (lam : C) (t : R) : C := (RtoC (t ^ 1) * phi 1 (RtoC t * lam))%C.
Definition shu (lam : C) (t : R) : cvec := fun i => match i with O => (RtoC t + shw lam t)%C | _ => shw lam t end.
Definition sh_problem (lam : C) : problem Cops unit :=
  mk_problem (A := Cops) (pure_nl (fun _ : vec Cops => shf : vec Cops)) 2 (she lam) (shL lam) default_etdcfg
    (fun m => inr m) (fun m => inr m) (shear 1) (shear (-1)) (she lam).
Lemma shw_der lam t : is_Cder (shw lam) t (lam * shw lam t + RtoC 1)%C.
Proof.
  eapply is_Cder_eq; [reflexivity| |apply (qk_der lam 0 t)]. unfold shw. cbn [fact INR pow]. f_equal. replace (1 / 1) with 1 by field. reflexivity.
Qed.
Example C93_not_vacuous : forall lam, fst lam <= 0 ->
  stiff_matrix_solution 2 (shL lam) (fun _ => shf) 0 1 1 2 (shu lam) (fun _ => shf) (fun _ _ => RtoC 0) (fun _ _ => RtoC 0) (fun _ _ _ => RtoC 0) /\
  computes (sh_problem lam) (fun _ => shf) /\ p_size (sh_problem lam) = 2%nat /\ p_mat (sh_problem lam) = shL lam /\ diagonalizes (sh_problem lam) /\
  (forall i, (i < 2)%nat -> fst (p_eigs (sh_problem lam) i) <= 0) /\
  (forall i, (i < 2)%nat -> rown 2 (p_S (sh_problem lam)) i <= 2) /\ (forall i, (i < 2)%nat -> rown 2 (p_Sinv (sh_problem lam)) i <= 2) /\ good_contour (p_cfg (sh_problem lam)).
Proof.
  intros lam Hl.
  assert (Z : forall (a : C) x, 0 <= x -> Cmod (a - a)%C <= x) by (intros a x Hx; replace (a - a)%C with (RtoC 0) by ring; rewrite Cmod_0; exact Hx).
  assert (Z0 : forall x, 0 <= x -> Cmod (RtoC 0) <= x) by (intros x Hx; rewrite Cmod_0; exact Hx).
  split; [|split; [intros v w y w' E; injection E as <- _; reflexivity|split; [reflexivity|split; [reflexivity|split; [|split; [|split; [|split; [|exact default_contour]]]]]]]].
  - split; try lra.
    + intros a b E i Hi. reflexivity.
    + intros t i Ht Hi. destruct i as [|i].
      * eapply is_Cder_eq; [reflexivity| |apply is_Cder_plus; [apply (is_Cder_R (fun t => t) t 1); exact (is_derive_id (K := R_AbsRing) t)|apply (shw_der lam t)]].
        unfold mdot. cbn [csum shL shu shf]. apply C_eq; cbn; ring.
      * eapply is_Cder_eq; [reflexivity| |exact (shw_der lam t)].
        unfold mdot. cbn [csum shL shu shf]. apply C_eq; cbn; ring.
    + intros t Ht i Hi. reflexivity.
    + intros t i Ht Hi. exact (is_Cder_const (shf i) t).
    + intros t i Ht Hi. exact (is_Cder_const (RtoC 0) t).
    + intros t Ht i Hi. destruct i; cbn [shf]; rewrite Cmod_R, Rabs_pos_eq; lra.
    + intros t Ht i Hi. apply Z0. lra.
    + intros t Ht i Hi. apply Z0. lra.
    + intros r t Hr Ht i Hi. apply Z. assert (A := Rabs_pos (r - t)). lra.
    + intros t v w x Ht Hx Hv Hw Hvw i Hi. apply Z. lra.
    + intros t Ht. split; intros; intros i Hi; unfold cadd, rscal, cscal; ring.
    + intros t Ht v x Hx Hv i Hi. apply Z0. lra.
    + intros t v x Ht Hx Hv i Hi. unfold csub. replace (shf i - shf i - 0)%C with (RtoC 0) by ring. apply Z0. assert (0 <= x ^ 2) by (apply pow_le; lra). lra.
    + intros r t Hr Ht v x Hx Hv i Hi. apply Z. apply Rmult_le_pos; [|exact Hx]. assert (A := Rabs_pos (r - t)). lra.
  - split; [split|]; intros i j Hi Hj; cbn [p_size sh_problem p_mat p_S p_Sinv p_eigs] in *; destruct i as [|[|i]]; try lia; destruct j as [|[|j]]; try lia; unfold mprod, mident, diagm; cbn [csum shear shL she Nat.eqb];
      destruct lam as [la lb]; apply C_eq; cbn; ring.
  - intros i Hi. cbn [p_eigs sh_problem]. destruct i; cbn [she]; [cbn; lra|exact Hl].
  - intros i Hi. cbn [p_S sh_problem]. destruct i as [|[|i]]; try lia; unfold rown; cbn [sumf shear]; rewrite !Cmod_R, ?Rabs_R1, ?Rabs_R0; lra.
  - intros i Hi. cbn [p_Sinv sh_problem]. destruct i as [|[|i]]; try lia; unfold rown; cbn [sumf shear]; rewrite !Cmod_R, ?Rabs_R1, ?Rabs_R0, ?(Rabs_left (-1)); lra.
Qed.

Print Assumptions C93_uniform_eigenbasis.
