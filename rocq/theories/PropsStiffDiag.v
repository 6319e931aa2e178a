(** * C94: the runs with [diagonalize=True] are stable whatever the size of the eigenvalues

    The condition of the basis of eigenvectors enters, the eigenvalues do not (no real part is positive). *)

From Coq Require Import ZArith List Bool Reals Lra Lia FunctionalExtensionality QArith Qreals Setoid Morphisms.
From Coquelicot Require Import Hierarchy Derive RInt Complex.
From Verif Require Import Scalars Control ControlCS ControlCSReal ControlAS ControlASReal ControlSim ControlSound PropsControl Arrays SchemeBase
     SchemeIF SchemeETD4 SchemeETD5 Solvers SchemeFacts SchemeSound SchemeFamily SchemePartial SchemeForm CInst SpecRK
     SchemeIFReal PropsCache PropsIF SpecPhi SpecPoly ContourReal SpecERK SchemeETDReal SchemeETDCoefs PropsPsi PropsETD
     PropsLinear ContourMatrix MatrixFlow PropsMatrix Asym Solution LocalRK4 Stable Converge Voc LocalKro MatExp ConvRuns ConvMethods
     PropsConverge Stiff StiffOrder PropsStiff StiffMethods PropsStiffOrder PropsStiffEig.
Import ListNotations.
Local Open Scope R_scope.

(** The constants of the three strategies. *)
Definition eig_rate (k : as_kind) : option R :=
  match k with IF34z => Some 1 | ETD34z => Some 12 | ETD35z => Some 15 | _ => None end.
Lemma eig_rate_pos k c : eig_rate k = Some c -> 0 <= c.
Proof. destruct k; intros E; try discriminate; injection E as <-; lra. Qed.

(** ** The method in the eigenbasis *)
(** The 1-D problem of the eigenvalues. *)
Definition eig_problem {W} (p : problem Cops W) : problem Cops W :=
  mk_problem (A := Cops) (p_nl p) (p_size p) (p_eigs p) (p_mat p) (p_cfg p) (p_expm p) (p_inv p) (p_S p) (p_Sinv p) (p_eigs p).
Definition eig_kind (k : as_kind) : as_kind := match k with IF34z => IF34d | ETD34z => ETD34d | ETD35z => ETD35d | _ => k end.
Lemma eig_method {W} (p : problem Cops W) N k c h u : eig_rate k = Some c -> eig_ok p -> respects (below (p_size p)) N ->
  fst (as_Phi p N k h u) =
  mdot (p_size p) (p_S p) (fst (as_Phi (eig_problem p) (fun v => mdot (p_size p) (p_Sinv p) (N (mdot (p_size p) (p_S p) v))) (eig_kind k) h (mdot (p_size p) (p_Sinv p) u))).
Proof.
  intros Hk HE HN. destruct k; try discriminate; cbn [eig_kind].
  - erewrite !as_Phi_form by reflexivity. cbn [as_form eig_back fst snd]. rewrite (first_stage W p N HE HN). reflexivity.
  - rewrite (proj1 (etd34z_eig W p N HE HN h u)), etd34d_erk. reflexivity.
  - rewrite (proj1 (etd35z_eig W p N HE HN h u)), etd35d_erk. reflexivity.
Qed.

Section Eig.
  Variables (W : Type) (p : problem Cops W) (k : as_kind) (c s b : R).
  Hypothesis Hk : eig_rate k = Some c.
  Hypothesis HE : eig_ok p.
  Hypothesis HD : dissipative (p_size p) (p_eigs p).
  Hypothesis HG : good_contour (p_cfg p).
  Hypothesis Hs : 1 <= s.
  Hypothesis Hb : 0 <= b.
  Hypothesis HSn : forall i, (i < p_size p)%nat -> rown (p_size p) (p_S p) i <= s.
  Hypothesis HTn : forall i, (i < p_size p)%nat -> rown (p_size p) (p_Sinv p) i <= b.
  Notation n := (p_size p).
  Notation up := (mdot n (p_S p)).
  Notation dn := (mdot n (p_Sinv p)).
  (** One step in the eigenbasis, with the rounding-free change of basis back and forth. *)
  Definition eig_step (N : cvec -> cvec) (h : R) (w : cvec) : cvec := dn (up (fst (as_Phi (eig_problem p) N (eig_kind k) h w))).
  Lemma eig_step_tame : tame n c eig_step.
  Proof.
    assert (T0 : tame n c (fun N h v => fst (as_Phi (eig_problem p) N (eig_kind k) h v))).
    { apply as_tame; [|exact HD|exact HG]. destruct k; try discriminate; exact Hk. }
    intros h Hh. destruct (T0 h Hh) as (rows & bs & m & H1 & H2 & H3). exists rows, bs, m. split; [exact H1|]. split; [exact H2|].
    intros N v HN. unfold eig_step. etransitivity; [apply (dn_up n (p_S p) (p_Sinv p) (proj2 HE))|]. apply H3. exact HN.
  Qed.
  Lemma eig_runs N : respects (below n) N -> forall hs v,
    dn (grun (fun h v => fst (as_Phi p N k h v)) hs v) = grun (eig_step (fun v => dn (N (up v)))) hs (dn v).
  Proof.
    intros HN. induction hs as [|h hs IH]; intros v; [reflexivity|]. cbn [grun]. rewrite IH. f_equal. unfold eig_step.
    rewrite (eig_method p N k c h v Hk HE HN). reflexivity.
  Qed.
  Lemma eig_respects N : respects (below n) N -> respects (below n) (fun v => dn (N (up v))).
  Proof. intros HN v w E i Hi. rewrite (mdot_ext_eq n (p_Sinv p) (N (up v)) (N (up w))); [reflexivity|]. apply HN. rewrite (mdot_ext_eq n (p_S p) v w E). reflexivity. Qed.
  Lemma eig_const Lam mu x : 0 <= Lam -> 0 <= mu -> 0 <= x -> b * (Lam * (s * x + mu)) <= b * s * Lam * (x + mu).
  Proof.
    intros H1 H2 H3. replace (b * s * Lam * (x + mu)) with (b * Lam * (s * x + s * mu)) by ring. rewrite <- Rmult_assoc.
    apply Rmult_le_compat_l; [apply Rmult_le_pos; assumption|]. assert (1 * mu <= s * mu) by (apply Rmult_le_compat_r; lra). lra.
  Qed.
  Lemma eig_growth N Lam mu : 0 <= Lam -> 0 <= mu -> linear_growth n N Lam mu -> linear_growth n (fun v => dn (N (up v))) (b * s * Lam) mu.
  Proof.
    intros H1 H2 H v x Hx Hv. assert (Hx' : 0 <= s * x) by (apply Rmult_le_pos; lra).
    eapply vle_mono; [|apply (eig_const Lam mu x); assumption].
    apply (dn_bnd n (p_Sinv p) b HTn); [apply Rmult_le_pos; lra|]. apply H; [exact Hx'|]. apply (up_bnd n (p_S p) s HSn); assumption.
  Qed.
  Lemma eig_close N N' Lam mu : 0 <= Lam -> 0 <= mu -> close_lip n N N' Lam mu ->
    close_lip n (fun v => dn (N (up v))) (fun v => dn (N' (up v))) (b * s * Lam) mu.
  Proof.
    intros H1 H2 H v w x Hx Hv. assert (Hx' : 0 <= s * x) by (apply Rmult_le_pos; lra).
    eapply vle_mono; [|apply (eig_const Lam mu x); assumption].
    apply (dn_sub n (p_Sinv p) b HTn); [apply Rmult_le_pos; lra|]. apply H; [exact Hx'|]. apply (up_sub n (p_S p) s HSn); assumption.
  Qed.
  Lemma up_back v x : 0 <= x -> vle n (dn v) x -> vle n v (s * x).
  Proof. intros Hx H. eapply vle_ext; [apply (up_dn n (p_S p) (p_Sinv p) (proj1 HE))|]. apply (up_bnd n (p_S p) s HSn); assumption. Qed.
  Lemma up_back_sub v w x : 0 <= x -> vle n (csub (dn v) (dn w)) x -> vle n (csub v w) (s * x).
  Proof.
    intros Hx H. apply up_back; [exact Hx|]. eapply vle_ext; [|exact H]. symmetry. apply (rl_sub n dn v w). apply dn_lin.
  Qed.
  Variables (Lam mu d : R).
  Hypothesis HLam : 0 <= Lam.
  Hypothesis Hmu : 0 <= mu.
  Hypothesis Hd : 0 <= d.
  Lemma eig_pos l : Forall (fun h => 0 < h) l -> 0 <= exp (c * (b * s * Lam) * total l) * (b * d + mu) - mu.
  Proof.
    intros Hl. apply exp_pos_ge; try assumption; [apply (eig_rate_pos k c Hk)|apply Rmult_le_pos; [apply Rmult_le_pos; lra|exact HLam]| |apply Rmult_le_pos; assumption].
    clear - Hl. induction Hl; cbn [total fold_right]; [lra|]. fold (total l). lra.
  Qed.
  Lemma eig_run_growth N : respects (below n) N -> linear_growth n N Lam mu -> forall l v, Forall (fun h => 0 < h) l -> vle n v d ->
    vle n (grun (fun h v => fst (as_Phi p N k h v)) l v) (s * (exp (c * (b * s * Lam) * total l) * (b * d + mu) - mu)).
  Proof.
    intros HN H l v Hl Hv. apply up_back; [apply eig_pos; exact Hl|]. rewrite (eig_runs N HN l v).
    apply (runs_growth n c eig_step _ (b * s * Lam) mu eig_step_tame (eig_rate_pos k c Hk)); try assumption.
    - apply Rmult_le_pos; [apply Rmult_le_pos; lra|exact HLam].
    - apply eig_respects. exact HN.
    - apply eig_growth; assumption.
    - apply Rmult_le_pos; assumption.
    - apply (dn_bnd n (p_Sinv p) b HTn); assumption.
  Qed.
  Lemma eig_run_apart N N' : respects (below n) N -> respects (below n) N' -> close_lip n N N' Lam mu -> forall l v w, Forall (fun h => 0 < h) l -> vle n (csub v w) d ->
    vle n (csub (grun (fun h v => fst (as_Phi p N k h v)) l v) (grun (fun h v => fst (as_Phi p N' k h v)) l w)) (s * (exp (c * (b * s * Lam) * total l) * (b * d + mu) - mu)).
  Proof.
    intros HN HN' H l v w Hl Hv. apply up_back_sub; [apply eig_pos; exact Hl|]. rewrite (eig_runs N HN l v), (eig_runs N' HN' l w).
    apply (runs_apart n c eig_step _ _ (b * s * Lam) mu eig_step_tame (eig_rate_pos k c Hk)); try assumption.
    - apply Rmult_le_pos; [apply Rmult_le_pos; lra|exact HLam].
    - apply eig_respects. exact HN.
    - apply eig_respects. exact HN'.
    - apply eig_close; assumption.
    - apply Rmult_le_pos; assumption.
    - apply (dn_sub n (p_Sinv p) b HTn); assumption.
  Qed.
End Eig.

Lemma eig_Phi_same {W W'} (p : problem Cops W) (p' : problem Cops W') k c N h v : eig_rate k = Some c ->
  p_size p' = p_size p -> p_S p' = p_S p -> p_Sinv p' = p_Sinv p -> p_eigs p' = p_eigs p -> p_cfg p' = p_cfg p -> as_Phi p' N k h v = as_Phi p N k h v.
Proof. intros Hk. destruct k; try discriminate; destruct p, p'; simpl; intros -> -> -> -> ->; reflexivity. Qed.

(** Adaptive runs (IF34, ETD34, ETD35 with [diagonalize=True]) stay bounded, whatever steps the controller chooses. *)
Theorem C94_growth :
  forall W (p : problem Cops W) k c s b N Lam mu d,
    eig_rate k = Some c -> eig_ok p -> dissipative (p_size p) (p_eigs p) -> good_contour (p_cfg p) -> 1 <= s -> 0 <= b ->
    (forall i, (i < p_size p)%nat -> rown (p_size p) (p_S p) i <= s) -> (forall i, (i < p_size p)%nat -> rown (p_size p) (p_Sinv p) i <= b) ->
    0 <= Lam -> 0 <= mu -> 0 <= d ->
    respects (below (p_size p)) N -> linear_growth (p_size p) N Lam mu -> computes p N ->
    forall (ks : consts (T Rops)) cf compute_s fuel v (s0 sf : pynum (T Rops)) hi (o : asobj Rops (vec Cops) W (as_model p k)) w r o1 w1,
    (0 < MIN_S ks < 1 /\ 1 <= MAX_S ks) -> valid_config cf ->
    val s0 < val sf -> match hi with Some h => 0 < val h | None => True end -> vle (p_size p) v d ->
    as_evolve ks cf compute_s fuel v s0 sf hi true 1 o w = (r, o1, w1) ->
    (forall j t a, nth_error (map val (a_t o1)) j = Some t -> nth_error (a_u o1) j = Some a ->
       vle (p_size p) a (s * (exp (c * (b * s * Lam) * (t - val s0)) * (b * d + mu) - mu))) /\
    (forall a, r = Ret a -> vle (p_size p) a (s * (exp (c * (b * s * Lam) * (val sf - val s0)) * (b * d + mu) - mu))).
Proof.
  intros W p k c s b N Lam mu d Hk HE HD HG Hs Hb HSn HTn HL Hmu Hd HR HN Hp ks cf compute_s fuel v s0 sf hi o w r o1 w1 Hks Hcf Hs0 Hhi Hv E1.
  destruct (as_model_sound1 (F := Rops) (fun a b X => proj1 (Reqb_true a b) X) p N Hp k) as [I1 M1].
  destruct (as_evolve_steps ks compute_s M1 Hks Hcf fuel v s0 sf hi o w Hs0 Hhi E1) as (hs & Hpos & _ & Htot & S1 & R1).
  assert (G := fun l Hl => eig_run_growth W p k c s b Hk HE HD HG Hs Hb HSn HTn Lam mu d HL Hmu Hd N HR HN l v Hl Hv).
  split.
  - intros j t a Ht Ha. destruct (nth_steps _ _ _ _ _ _ _ _ _ S1 Ha) as [_ ->]. destruct (nth_times _ _ _ _ _ _ _ _ _ S1 Ht) as [_ ->].
    replace (val s0 + total (firstn j hs) - val s0) with (total (firstn j hs)) by (cbn; lra). apply G. apply firstn_pos. exact Hpos.
  - intros a Ha. destruct (R1 a Ha) as [-> T1]. rewrite <- T1. replace (val s0 + total hs - val s0) with (total hs) by (cbn; lra). apply G. exact Hpos.
Qed.

(** Two runs that took the same steps, with nonlinear functions [N] and [N'] that are close. *)
Theorem C94_stability :
  forall W W' (p : problem Cops W) (p' : problem Cops W') k c s b N N' Lam mu d,
    eig_rate k = Some c -> p_size p' = p_size p -> p_S p' = p_S p -> p_Sinv p' = p_Sinv p -> p_eigs p' = p_eigs p -> p_cfg p' = p_cfg p ->
    eig_ok p -> dissipative (p_size p) (p_eigs p) -> good_contour (p_cfg p) -> 1 <= s -> 0 <= b ->
    (forall i, (i < p_size p)%nat -> rown (p_size p) (p_S p) i <= s) -> (forall i, (i < p_size p)%nat -> rown (p_size p) (p_Sinv p) i <= b) ->
    0 <= Lam -> 0 <= mu -> 0 <= d ->
    respects (below (p_size p)) N -> respects (below (p_size p)) N' -> close_lip (p_size p) N N' Lam mu -> computes p N -> computes p' N' ->
    forall (ks ks' : consts (T Rops)) cf cf' compute_s compute_s' fuel fuel' v v' (s0 sf sf' : pynum (T Rops)) hi hi'
      (o : asobj Rops (vec Cops) W (as_model p k)) (o' : asobj Rops (vec Cops) W' (as_model p' k)) w w' r r' o1 o1' w1 w1',
    (0 < MIN_S ks < 1 /\ 1 <= MAX_S ks) -> (0 < MIN_S ks' < 1 /\ 1 <= MAX_S ks') -> valid_config cf -> valid_config cf' ->
    val s0 < val sf -> val s0 < val sf' ->
    match hi with Some h => 0 < val h | None => True end -> match hi' with Some h => 0 < val h | None => True end ->
    vle (p_size p) (csub v v') d ->
    as_evolve ks cf compute_s fuel v s0 sf hi true 1 o w = (r, o1, w1) ->
    as_evolve ks' cf' compute_s' fuel' v' s0 sf' hi' true 1 o' w' = (r', o1', w1') ->
    map val (a_t o1) = map val (a_t o1') ->
    forall j t x y, nth_error (map val (a_t o1)) j = Some t -> nth_error (a_u o1) j = Some x -> nth_error (a_u o1') j = Some y ->
       vle (p_size p) (csub x y) (s * (exp (c * (b * s * Lam) * (t - val s0)) * (b * d + mu) - mu)).
Proof.
  intros W W' p p' k c s b N N' Lam mu d Hk X1 X2 X3 X4 X5 HE HD HG Hs Hb HSn HTn HL Hmu Hd HR HR' HN Hp Hp' ks ks' cf cf' compute_s compute_s' fuel fuel' v v' s0 sf sf' hi hi' o o' w w'
    r r' o1 o1' w1 w1' Hks Hks' Hcf Hcf' Hs0 Hs0' Hhi Hhi' Hv E1 E2 ET j t x y Ht Ha Hy.
  destruct (as_model_sound1 (F := Rops) (fun a b X => proj1 (Reqb_true a b) X) p N Hp k) as [I1 M1].
  destruct (as_model_sound1 (F := Rops) (fun a b X => proj1 (Reqb_true a b) X) p' N' Hp' k) as [I2 M2].
  destruct (as_evolve_steps ks compute_s M1 Hks Hcf fuel v s0 sf hi o w Hs0 Hhi E1) as (hs & Hpos & _ & _ & S1 & _).
  destruct (as_evolve_steps ks' compute_s' M2 Hks' Hcf' fuel' v' s0 sf' hi' o' w' Hs0' Hhi' E2) as (hs' & _ & _ & _ & S2 & _).
  assert (EH : hs = hs') by (apply (steps_same hs hs' (val s0)); rewrite <- (proj1 S1), <- (proj1 S2); exact ET). subst hs'.
  destruct (nth_steps _ _ _ _ _ _ _ _ _ S1 Ha) as [_ ->]. destruct (nth_steps _ _ _ _ _ _ _ _ _ S2 Hy) as [_ ->].
  destruct (nth_times _ _ _ _ _ _ _ _ _ S1 Ht) as [_ ->].
  assert (Q : forall l z, grun (fun h v => fst (as_Phi p' N' k h v)) l z = grun (fun h v => fst (as_Phi p N' k h v)) l z).
  { induction l as [|q l IH]; intros z; [reflexivity|]. cbn. rewrite (eig_Phi_same p p' k c N' q z Hk X1 X2 X3 X4 X5). apply IH. }
  rewrite Q. replace (val s0 + total (firstn j hs) - val s0) with (total (firstn j hs)) by (cbn; lra).
  apply (eig_run_apart W p k c s b Hk HE HD HG Hs Hb HSn HTn Lam mu d HL Hmu Hd N N' HR HR' HN); [|exact Hv]. apply firstn_pos. exact Hpos.
Qed.

(** The operators [[0, lam], [0, lam]] with any [lam], [Re lam <= 0], satisfy the hypotheses with [s = b = 2]. *)
Example C94_not_vacuous : forall lam, fst lam <= 0 ->
  eig_ok (sh_problem lam) /\ dissipative 2 (p_eigs (sh_problem lam)) /\ good_contour (p_cfg (sh_problem lam)) /\
  (forall i, (i < 2)%nat -> rown 2 (p_S (sh_problem lam)) i <= 2) /\ (forall i, (i < 2)%nat -> rown 2 (p_Sinv (sh_problem lam)) i <= 2) /\
  respects (below 2) (fun _ => shf) /\ linear_growth 2 (fun _ => shf) 1 2 /\ close_lip 2 (fun _ => shf) (fun _ => shf) 1 2 /\
  computes (sh_problem lam) (fun _ => shf).
Proof.
  intros lam Hl. destruct (C93_not_vacuous lam Hl) as (_ & H1 & _ & _ & H2 & H3 & H4 & H5 & H6).
  split; [exact (proj1 H2)|]. split; [exact H3|]. split; [exact H6|]. split; [exact H4|]. split; [exact H5|].
  split; [intros x y E i Hi; reflexivity|]. split; [|split; [|exact H1]].
  - intros v x Hx Hv i Hi. destruct i; cbn [shf]; rewrite Cmod_R, Rabs_pos_eq; lra.
  - intros v w x Hx Hv i Hi. unfold csub. replace (shf i - shf i)%C with (RtoC 0) by ring. rewrite Cmod_0. lra.
Qed.

Print Assumptions C94_growth.
Print Assumptions C94_stability.
