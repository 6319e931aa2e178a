(** * C91 and C92 for the adaptive solvers: IF34 and IF45DP do not converge uniformly in the linear operator; order three
      is the best uniform order of ETD34 and ETD35 *)

From Coq Require Import ZArith List Bool Reals Lra Lia FunctionalExtensionality QArith Qreals Setoid Morphisms.
From Coquelicot Require Import Hierarchy Derive RInt Complex.
From Verif Require Import Scalars Control ControlCS ControlCSReal ControlAS ControlASReal ControlSim ControlSound PropsControl Arrays SchemeBase
     SchemeIF SchemeETD4 SchemeETD5 Solvers SchemeFacts SchemeSound SchemeFamily SchemePartial SchemeForm CInst SpecRK
     SchemeIFReal PropsCache PropsIF SpecPhi SpecPoly ContourReal SpecERK SchemeETDReal SchemeETDCoefs PropsPsi PropsETD PropsTolerance
     PropsLinear ContourMatrix MatrixFlow PropsMatrix Asym Solution LocalRK4 Stable Converge Voc LocalKro MatExp ConvRuns ConvMethods
     PropsConverge Stiff StiffOrder PropsStiff StiffMethods PropsStiffOrder PropsStiffSharp PropsOrder5.
Import ListNotations.
Local Open Scope R_scope.

(** ** Adaptive runs in which every step is accepted and keeps its size *)
Lemma gaps_snoc (H a b : R) (l : list R) : gaps_at_most H (l ++ [a]) -> b - a <= H -> gaps_at_most H ((l ++ [a]) ++ [b]).
Proof.
  intros HG Hab j Hj. rewrite !app_length in Hj. cbn in Hj. destruct (Nat.eq_dec (S j) (length (l ++ [a]))) as [E|E].
  - rewrite (app_nth2 (l ++ [a]) [b]) by lia. rewrite E, Nat.sub_diag. rewrite app_nth1 by lia. rewrite app_length in E. cbn in E.
    rewrite app_nth2 by lia. replace (j - length l)%nat with 0%nat by lia. exact Hab.
  - rewrite app_length in E. cbn in E. rewrite !(app_nth1 (l ++ [a]) [b]) by (rewrite app_length; cbn; lia). apply HG. rewrite app_length; cbn; lia.
Qed.
Lemma iter_first {X} (f : X -> X) j x : Nat.iter (S j) f x = Nat.iter j f (f x).
Proof. induction j as [|j IH]; [reflexivity|]. cbn [Nat.iter nat_rect] in *. change (f (Nat.iter (S j) f x) = f (Nat.iter j f (f x))). f_equal. exact IH. Qed.
Section Runs.
  Variables (U W : Type) (m : asm R U W) (Phi : R -> U -> U * U) (Inv : bool -> as_st m -> U -> Prop).
  Hypothesis HM : as_memoryless m Phi Inv.
  Variable cfg : config (T Rops).
  Hypothesis Hcfg : valid_config cfg.
  Definition keep : U -> U -> exn + sval (T Rops) := fun _ _ => inr (SFin (1 : T Rops)).
  Lemma keep_step (u : U) (h : R) (o : asobj Rops U W m) w : 0 <= h -> Inv (a_accept o) (a_m o) u ->
    exists s' w', as_step the_consts cfg keep u (py h) o w = (Ret (fst (Phi h u), py h, py h), set_accept (set_meth o s') true, w') /\
                  Inv true s' (fst (Phi h u)).
  Proof.
    intros Hh Hi. unfold as_step. replace (tleb Rops (tofZ Rops 0) (val (py h))) with true by (symmetry; apply Rleb_true; cbn; exact Hh).
    cbn [as_step_loop]. destruct (proj2 HM _ _ _ h w Hi) as (s' & w' & E & _ & I2). cbn [val]. exists s', w'.
    assert (E2 : @as_upd (T Rops) U W m (a_accept o) u h (a_m o) w = (inr (Phi h u), s', w')) by exact E. rewrite E2.
    cbv iota beta. destruct (Phi h u) as [x y] eqn:EP. cbn [fst] in *. unfold keep at 1. cbv iota beta.
    replace (accepts (F := Rops) (SFin (1 : T Rops))) with (Some (1 : T Rops)).
    2: { unfold accepts. destruct (tltb Rops 1 (tofZ Rops 1)) eqn:EE; [|reflexivity]. apply Rltb_true in EE. cbn in EE. lra. }
    split; [|exact I2]. unfold accept_size. rewrite npmin_R. cbn [the_consts MAX_S]. rewrite Rmin_left by lra.
    destruct (tltb Rops (incr_f cfg) 1) eqn:EE; [|reflexivity]. apply Rltb_true in EE. destruct Hcfg as (_ & X & _). lra.
  Qed.
  Lemma keep_loop (h tf : R) : 0 < h -> tf <> 0 -> forall j u (o : asobj Rops U W m) w c, Inv (a_accept o) (a_m o) u ->
    a_tf o = py tf -> (exists b, a_tc o = PyN (A := T Rops) b (tf - INR j * h)) ->
    (exists l, map val (a_t o) = l ++ [tf - INR j * h] /\ gaps_at_most h (l ++ [tf - INR j * h])) ->
    exists o' w', as_loop the_consts cfg keep j u (py h) true 1 c o w = (Ret (Nat.iter j (fun v => fst (Phi h v)) u), o', w') /\
                  gaps_at_most h (map val (a_t o')).
  Proof.
    intros Hh Htf. induction j as [|j IH]; intros u o w c Hi Ef [b Ec] (l & El & Hg).
    - cbn [as_loop]. rewrite Ec, Ef. cbn [val]. change (INR 0) with 0. destruct (tltb Rops (tf - 0 * h) tf) eqn:EE; [apply Rltb_true in EE; lra|].
      exists o, w. split; [reflexivity|]. rewrite El. exact Hg.
    - cbn [as_loop]. assert (P := pos_INR j). assert (PJ : 0 <= INR j * h) by (apply Rmult_le_pos; lra). rewrite Ec, Ef. cbn [val]. rewrite S_INR in *.
      replace (tltb Rops (tf - (INR j + 1) * h) tf) with true by (symmetry; apply Rltb_true; lra).
      destruct (keep_step u h o w ltac:(lra) Hi) as (s' & w' & E & I'). rewrite E. cbv zeta. cbn [set_accept set_meth a_t a_u a_tf a_tc a_accept a_m].
      rewrite Ec, Ef.
      set (t' := tf - INR j * h).
      assert (EP : exists b', padd Rops (PyN (A := T Rops) b (tf - (INR j + 1) * h)) (py h) = PyN (A := T Rops) b' t').
      { assert (EV : val (padd Rops (PyN (A := T Rops) b (tf - (INR j + 1) * h)) (py h)) = t') by (unfold t'; cbn; ring).
        destruct (padd Rops (PyN (A := T Rops) b (tf - (INR j + 1) * h)) (py h)) as [b' x]. exists b'. cbn in EV. rewrite EV. reflexivity. }
      destruct EP as [b' EP]. rewrite EP.
      match goal with |- context [progress_raises Rops ?a ?b ?c] => replace (progress_raises Rops a b c) with false end.
      2: { symmetry. unfold progress_raises. replace (teqb Rops (val (py tf)) (tofZ Rops 0)) with false; [rewrite andb_false_r; reflexivity|].
           symmetry. destruct (teqb Rops (val (py tf)) (tofZ Rops 0)) eqn:EE; [|reflexivity]. apply Reqb_true in EE. cbn in EE. contradiction. }
      unfold store_now. cbn [Z.eqb]. rewrite Z.mod_1_r. cbn [Z.eqb].
      set (o3 := mk_asobj (a_t o ++ [_]) _ _ _ _ _).
      rewrite iter_first.
      match goal with |- context [as_loop _ _ _ _ _ ?hh _ _ _ _ _] => set (h' := hh) end.
      assert (Eh : j = 0%nat \/ h' = py h).
      { destruct j as [|j']; [left; reflexivity|right]. unfold h'. match goal with |- (if ?x then _ else _) = _ => destruct x eqn:EE end; [|reflexivity].
        apply Rltb_true in EE. unfold t' in EE. rewrite S_INR in EE. assert (Q := pos_INR j'). assert (0 <= INR j' * h) by (apply Rmult_le_pos; lra). cbn in EE. lra. }
      assert (El3 : map val (a_t o3) = (l ++ [tf - (INR j + 1) * h]) ++ [t']) by (unfold o3; cbn [a_t]; rewrite map_app, El; reflexivity).
      assert (Hg3 : gaps_at_most h ((l ++ [tf - (INR j + 1) * h]) ++ [t'])) by (apply gaps_snoc; [exact Hg|unfold t'; lra]).
      destruct Eh as [-> | ->].
      + exists o3, w'. split.
        * cbn [as_loop]. change (val (a_tc o3)) with t'. change (val (a_tf o3)) with tf.
          destruct (tltb Rops t' tf) eqn:EE; [apply Rltb_true in EE; unfold t' in EE; change (INR 0) with 0 in EE; lra|reflexivity].
        * rewrite El3. exact Hg3.
      + apply IH; [exact I'|reflexivity|eexists; reflexivity|]. exists (l ++ [tf - (INR j + 1) * h]). split; [exact El3|exact Hg3].
  Qed.
  Lemma keep_run (h : R) k u (o : asobj Rops U W m) w : 0 < h -> (0 < k)%nat ->
    exists o' w', as_evolve the_consts cfg keep k u (py 0) (py (INR k * h)) (Some (py h)) true 1 o w
                  = (Ret (Nat.iter k (fun v => fst (Phi h v)) u), o', w') /\ gaps_at_most h (map val (a_t o')).
  Proof.
    intros Hh Hk. unfold as_evolve. cbv zeta. assert (K1 : 1 <= INR k) by (change 1 with (INR 1); apply le_INR; lia).
    assert (KH : h <= INR k * h) by (rewrite <- (Rmult_1_l h) at 1; apply Rmult_le_compat_r; lra).
    destruct (tltb Rops (val (py (INR k * h))) (val (padd Rops (py 0) (py h)))) eqn:EE.
    { apply Rltb_true in EE. cbn in EE. lra. }
    apply (keep_loop h (INR k * h)); [exact Hh|lra| | | |].
    - exact (proj1 HM _ u).
    - reflexivity.
    - exists false. cbn. f_equal. ring.
    - exists []. cbn. replace (INR k * h - INR k * h) with 0 by ring. split; [reflexivity|]. intros j Hj. cbn in Hj. lia.
  Qed.
End Runs.

(** ** The runs of IF34 and IF45DP on [u' = lam u + 1] *)
Lemma if34_one_step (lam : C) (h : R) v :
  fst (as_Phi (one_problem lam) (fun _ => const_vec 1) IF34d h v) O =
  (Cexp (RtoC h * lam) * v O + RtoC h * (RtoC (/ 6) * Cexp (RtoC h * lam) + RtoC (2 / 3) * Cexp (RtoC (h / 2) * lam) + RtoC (/ 6)))%C.
Proof.
  rewrite if34d_ref. cbn [fst]. unfold vk, dflow, const_vec. cbn [p_vec one_problem]. replace (2 / 3) with (/ 3 + / 3) by field. rewrite RtoC_plus. ceq. ring.
Qed.
Lemma dp_one_step (lam : C) (h : R) v :
  fst (as_Phi (one_problem lam) (fun _ => const_vec 1) IF45DPd h v) O =
  (Cexp (RtoC h * lam) * v O + RtoC h * (RtoC (35/384) * Cexp (RtoC h * lam) + RtoC (500/1113) * Cexp (RtoC (7/10 * h) * lam)
     + RtoC (125/192) * Cexp (RtoC (h / 5) * lam) - RtoC (2187/6784) * Cexp (RtoC (h / 9) * lam) + RtoC (11/84)))%C.
Proof.
  rewrite dp_ref. cbn [fst]. rewrite <- dp_step. cbn [p_vec one_problem].
  unfold if_step, DP5. cbn [tb_a tb_b tb_c if_stages app]. qtimes. unfold dflow, const_vec.
  replace (Q2R (7#10) * h) with (7/10 * h) by (unfold Q2R; cbn; field).
  replace (Q2R (1#5) * h) with (h / 5) by (unfold Q2R; cbn; field).
  replace (Q2R (1#9) * h) with (h / 9) by (unfold Q2R; cbn; field).
  replace (RtoC 0 * lam)%C with (RtoC 0) by ring. rewrite Cexp_0.
  replace (Q2R (-2187 # 6784)) with (- (2187 / 6784)) by (unfold Q2R; cbn; field). rewrite RtoC_opp.
  change (Q2R (35 # 384)) with (35 / 384). change (Q2R (500 # 1113)) with (500 / 1113). change (Q2R (125 # 192)) with (125 / 192). change (Q2R (11 # 84)) with (11 / 84).
  generalize (RtoC (35 / 384)) (RtoC (500 / 1113)) (RtoC (125 / 192)) (RtoC (2187 / 6784)) (RtoC (11 / 84)). intros c1 c2 c3 c4 c5. ceq. ring.
Qed.

(** What a uniform order would say. *)
Definition as_uniform_order (k : as_kind) (only : cvec -> Prop) (ord : nat) : Prop :=
  exists C h0 r0, 0 <= C /\ 0 < h0 /\ 0 < r0 /\
  forall n (L : cvec) N t0 t1 u f f1 f2 J, only L -> stiff_solution n L N t0 t1 1 1 u f f1 f2 J -> t1 - t0 <= 2 ->
  forall W (p : problem Cops W), computes p N -> p_vec p = L -> good_contour (p_cfg p) ->
    as_claim n t0 t1 u ord C h0 r0 p k 0.
Lemma as_one_claim k (only : cvec -> Prop) ord : as_uniform_order k only ord -> exists B h0, 0 <= B /\ 0 < h0 /\
  forall j (lam : C), (0 < j)%nat -> / INR j <= h0 -> lam <> 0%C -> fst lam <= 0 -> only (fun _ => lam) ->
    Cmod (Nat.iter j (fun v : vec Cops => fst (as_Phi (one_problem lam) (fun _ => const_vec 1) k (/ INR j) v)) (fun _ => RtoC 0) O) <= 2 / Cmod lam + B * (/ INR j) ^ ord.
Proof.
  intros (C & h0 & r0 & HC & Hh0 & Hr0 & H). exists C, h0. split; [exact HC|]. split; [exact Hh0|].
  intros j lam Hj Hjh Hn Hl Ho. set (p := one_problem lam) in *. set (N := fun _ : cvec => const_vec 1) in *.
  assert (K0 : 1 <= INR j) by (change 1 with (INR 1); apply le_INR; lia).
  assert (I0 : 0 < / INR j) by (apply Rinv_0_lt_compat; lra).
  assert (E1 : INR j * / INR j = 1) by (field; lra).
  assert (HN : computes p N) by (intros v w y w1 E2; injection E2 as <- _; reflexivity).
  assert (HM : as_memoryless (as_model p k) (as_Phi p N k) (as_inv p N k)).
  { apply as_sound_memoryless; [apply as_model_sound; [exact HN|split; discriminate|]|].
    - intros a b E. apply Reqb_true in E. subst. reflexivity.
    - intros. apply as_model_never_raises; [intros; discriminate|split; discriminate]. }
  destruct (keep_run _ unit (as_model p k) _ _ HM default_config default_config_valid (/ INR j) j (fun _ => RtoC 0) (as_new_obj p k) tt I0 Hj) as (o' & w' & E & Hg).
  rewrite E1 in E.
  destruct (H 1%nat _ _ 0 2 _ _ _ _ _ Ho (one_stiff lam Hl) ltac:(lra) unit p HN eq_refl default_contour the_consts default_config (keep _) j (fun _ => RtoC 0) (py 0) (py 1) (Some (py (/ INR j)))
              (as_new_obj p k) tt _ o' w' 0 (/ INR j) ltac:(cbn; lra) default_config_valid eq_refl ltac:(cbn; lra) ltac:(cbn; lra) ltac:(cbn; lra) (Rle_refl 0) ltac:(lra)
              ltac:(apply vle_eq_0; intros i Hi; unfold oneu; cbn [pow]; apply C_eq; cbn; ring) E Hg ltac:(lra)) as [_ G].
  specialize (G _ eq_refl O ltac:(lia)). cbn [val] in *. unfold csub in G.
  match type of G with Cmod (?a - _)%C <= _ => set (y := a) in G end. match goal with |- Cmod ?a <= _ => change a with y end. assert (U := oneu_small lam 1 O Hn Hl ltac:(lra)).
  replace y with ((y - oneu lam 1 O) + oneu lam 1 O)%C by ring. eapply Rle_trans; [apply Cmod_triangle|].
  rewrite !Rplus_0_l in G. lra.
Qed.

(** 90 turns per step. *)
Definition osc (h : R) : C := (0, 2 * PI * 90 / h).
Section Refute.
  Variable k : as_kind.
  Notation step lam h := (fun v : vec Cops => fst (as_Phi (one_problem lam) (fun _ => const_vec 1) k h v)).
  (** For oscillations with 90 turns per step the scheme sees no operator. *)
  Hypothesis Hosc : forall (h : R) v, 0 < h -> step (osc h) h v O = (v O + RtoC h)%C.
  (** For fast decay the value after a step is at least [h / 10]. *)
  Hypothesis Hpar : forall (h : R) v y, 0 < h -> 0 <= y -> v O = RtoC y -> exists y', h / 10 <= y' /\ step (RtoC (- (900 / h))) h v O = RtoC y'.
  Lemma as_uniform_refuted ord : (0 < ord)%nat -> ~ as_uniform_order k (fun _ => True) ord.
  Proof.
    intros Hord HU. destruct (as_one_claim k _ ord HU) as (C & h0 & HC & Hh0 & H).
    destruct (big_nat (1 + C + / h0)) as (j & Hj & Hbig).
    assert (K0 : 1 <= INR j) by (change 1 with (INR 1); apply le_INR; lia). assert (J0 := Rinv_0_lt_compat h0 Hh0).
    set (h := / INR j) in *. assert (I0 : 0 < h) by (apply Rinv_0_lt_compat; lra).
    assert (I1 : h <= 1) by (unfold h; rewrite <- Rinv_1; apply Rinv_le_contravar; lra).
    assert (E1 : INR j * h = 1) by (unfold h; field; lra).
    assert (P2 := PI2_3_2). set (om := 2 * PI * 90 / h).
    assert (Ho : 4 * INR j <= om). { unfold om, h. replace (2 * PI * 90 / / INR j) with (2 * PI * 90 * INR j) by (field; lra). apply Rmult_le_compat_r; lra. }
    assert (V : forall i, Nat.iter i (step (osc h) h) (fun _ => RtoC 0) O = RtoC (INR i * h)).
    { induction i as [|i IH]; [cbn; f_equal; ring|]. cbn [Nat.iter nat_rect].
      change (step (osc h) h (Nat.iter i (step (osc h) h) (fun _ => RtoC 0)) O = RtoC (INR (S i) * h)).
      etransitivity; [exact (Hosc h _ I0)|]. rewrite IH, S_INR. apply C_eq; cbn; ring. }
    set (lam := osc h) in *.
    assert (ML : Cmod lam = om).
    { unfold lam, osc, Cmod. cbn [fst snd]. fold om. replace (0 ^ 2 + om ^ 2) with (om ^ 2) by ring. apply sqrt_pow2. lra. }
    assert (B := H j lam Hj). fold h in B. rewrite V in B. rewrite E1, Cmod_R, Rabs_R1, ML in B.
    assert (Hh : h <= h0). { unfold h. rewrite <- (Rinv_inv h0). apply Rinv_le_contravar; lra. }
    specialize (B Hh ltac:(intros X; apply (f_equal snd) in X; change (om = 0) in X; lra) ltac:(cbn; lra) I).
    assert (S1 : 2 / om <= h).
    { apply Rmult_le_reg_r with om; [lra|]. replace (2 / om * om) with 2 by (field; lra). apply Rle_trans with (h * (4 * INR j)); [|apply Rmult_le_compat_l; lra].
      replace (h * (4 * INR j)) with (4 * (INR j * h)) by ring. lra. }
    assert (S2 : h ^ ord <= h).
    { destruct ord as [|o]; [lia|]. cbn [pow]. rewrite <- (Rmult_1_r h) at 3. apply Rmult_le_compat_l; [lra|]. rewrite <- (pow1 o). apply pow_incr. lra. }
    assert (S3 : C * h ^ ord <= C * h) by (apply Rmult_le_compat_l; assumption).
    assert (S4 : INR j * 1 <= INR j * (h + C * h)) by (apply Rmult_le_compat_l; lra).
    replace (INR j * (h + C * h)) with ((1 + C) * (INR j * h)) in S4 by ring. rewrite E1 in S4. lra.
  Qed.
  Lemma as_parabolic_refuted : ~ as_uniform_order k (fun L => forall i, snd (L i) = 0) 2.
  Proof.
    intros HU. destruct (as_one_claim k _ 2 HU) as (C & h0 & HC & Hh0 & H).
    destruct (big_nat (1 + 20 * C + / h0)) as (j & Hj & Hbig).
    assert (K0 : 1 <= INR j) by (change 1 with (INR 1); apply le_INR; lia). assert (J0 := Rinv_0_lt_compat h0 Hh0).
    set (h := / INR j) in *. assert (I0 : 0 < h) by (apply Rinv_0_lt_compat; lra).
    assert (E1 : INR j * h = 1) by (unfold h; field; lra).
    set (x := 900 / h). assert (X0 : 0 < x) by (unfold x; apply Rdiv_lt_0_compat; lra). set (lam := RtoC (- x)).
    assert (V : forall i, exists y, 0 <= y /\ ((0 < i)%nat -> h / 10 <= y) /\ Nat.iter i (step lam h) (fun _ => RtoC 0) O = RtoC y).
    { induction i as [|i (y & Y1 & _ & IH)]; [exists 0; split; [lra|split; [lia|reflexivity]]|].
      destruct (Hpar h (Nat.iter i (step lam h) (fun _ => RtoC 0)) y I0 Y1 IH) as (y' & Y2 & Y3). exists y'. split; [lra|]. split; [intros _; exact Y2|exact Y3]. }
    destruct (V j) as (y & Y1 & Y2 & Y3). specialize (Y2 Hj).
    assert (ML : Cmod lam = x) by (unfold lam; rewrite Cmod_R, Rabs_left; lra).
    assert (B := H j lam Hj). fold h in B. rewrite Y3, Cmod_R, Rabs_pos_eq, ML in B by exact Y1.
    assert (Hh : h <= h0). { unfold h. rewrite <- (Rinv_inv h0). apply Rinv_le_contravar; lra. }
    specialize (B Hh ltac:(intros X; apply (f_equal fst) in X; unfold lam in X; cbn in X; lra) ltac:(unfold lam; cbn; lra) ltac:(intros i; reflexivity)).
    assert (S1 : 2 / x = h / 450) by (unfold x; field; lra).
    assert (S2 : INR j * (h / 20) <= INR j * (C * h ^ 2)) by (apply Rmult_le_compat_l; lra).
    replace (INR j * (h / 20)) with ((INR j * h) / 20) in S2 by field. replace (INR j * (C * h ^ 2)) with (C * (INR j * h) * h) in S2 by ring. rewrite E1 in S2.
    assert (S3 : INR j * (1 / 20) <= INR j * (C * 1 * h)) by (apply Rmult_le_compat_l; lra).
    replace (INR j * (C * 1 * h)) with (C * (INR j * h)) in S3 by ring. rewrite E1 in S3. lra.
  Qed.
End Refute.

Lemma turns (h s : R) (m : nat) : 0 < h -> s * 90 = INR m -> Cexp (RtoC (s * h) * (osc h))%C = RtoC 1.
Proof.
  intros Hh Hs. rewrite <- (Cexp_turns m). f_equal. unfold osc. apply C_eq; cbn; [ring|]. rewrite <- Hs. field. lra.
Qed.
Lemma decays (h s : R) : 0 < h -> Cexp (RtoC (s * h) * RtoC (- (900 / h)))%C = RtoC (exp (- (900 * s))).
Proof. intros Hh. rewrite <- RtoC_mult, Cexp_R. do 2 f_equal. field. lra. Qed.

(** C91 for IF34 and IF45DP, refuted: no positive order is uniform in the operator, and order two is not uniform for real operators. *)
Theorem C91_if34_uniform_refuted : (forall ord, (0 < ord)%nat -> ~ as_uniform_order IF34d (fun _ => True) ord) /\
  ~ as_uniform_order IF34d (fun L => forall i, snd (L i) = 0) 2.
Proof.
  split; [apply as_uniform_refuted|apply as_parabolic_refuted].
  - intros h v Hh. rewrite if34_one_step. replace (RtoC h * (osc h))%C with (RtoC (1 * h) * (osc h))%C by (rewrite Rmult_1_l; reflexivity).
    replace (h / 2) with (/ 2 * h) by field. rewrite (turns h 1 90) by (try exact Hh; cbn; ring). rewrite (turns h (/ 2) 45) by (try exact Hh; cbn; field).
    apply C_eq; cbn; field.
  - intros h v y Hh Hy Ev. rewrite if34_one_step, Ev. replace (RtoC h * RtoC (- (900 / h)))%C with (RtoC (1 * h) * RtoC (- (900 / h)))%C by (rewrite Rmult_1_l; reflexivity).
    replace (h / 2) with (/ 2 * h) by field. rewrite !decays by exact Hh. set (a := exp (- (900 * 1))). set (b := exp (- (900 * / 2))).
    assert (A := exp_pos (- (900 * 1))). assert (B := exp_pos (- (900 * / 2))). fold a in A. fold b in B.
    exists (a * y + h * (/ 6 * a + 2 / 3 * b + / 6)). split.
    + assert (0 <= a * y) by (apply Rmult_le_pos; lra). assert (0 <= h * (/ 6 * a + 2 / 3 * b)) by (apply Rmult_le_pos; lra). lra.
    + rewrite <- !RtoC_mult, <- !RtoC_plus, <- !RtoC_mult, <- !RtoC_plus. reflexivity.
Qed.
Theorem C91_if45dp_uniform_refuted : (forall ord, (0 < ord)%nat -> ~ as_uniform_order IF45DPd (fun _ => True) ord) /\
  ~ as_uniform_order IF45DPd (fun L => forall i, snd (L i) = 0) 2.
Proof.
  split; [apply as_uniform_refuted|apply as_parabolic_refuted].
  - intros h v Hh. rewrite dp_one_step. replace (RtoC h * (osc h))%C with (RtoC (1 * h) * (osc h))%C by (rewrite Rmult_1_l; reflexivity).
    replace (h / 5) with (/ 5 * h) by field. replace (h / 9) with (/ 9 * h) by field. rewrite (turns h 1 90) by (try exact Hh; cbn; ring). rewrite (turns h (7/10) 63) by (try exact Hh; cbn; field).
    rewrite (turns h (/ 5) 18) by (try exact Hh; cbn; field). rewrite (turns h (/ 9) 10) by (try exact Hh; cbn; field).
    apply C_eq; cbn; field.
  - intros h v y Hh Hy Ev. rewrite dp_one_step, Ev. replace (RtoC h * RtoC (- (900 / h)))%C with (RtoC (1 * h) * RtoC (- (900 / h)))%C by (rewrite Rmult_1_l; reflexivity).
    replace (h / 5) with (/ 5 * h) by field. replace (h / 9) with (/ 9 * h) by field. rewrite !decays by exact Hh.
    set (a := exp (- (900 * 1))). set (b := exp (- (900 * (7 / 10)))). set (c := exp (- (900 * / 5))). set (d := exp (- (900 * / 9))).
    assert (A := exp_pos (- (900 * 1))). assert (B := exp_pos (- (900 * (7 / 10)))). assert (D := exp_pos (- (900 * / 5))). fold a in A. fold b in B. fold c in D.
    assert (G : d <= / 101). { unfold d. rewrite exp_Ropp. apply Rinv_le_contravar; [lra|]. assert (X := exp_ineq1_le (900 * / 9)). lra. }
    exists (a * y + h * (35/384 * a + 500/1113 * b + 125/192 * c - 2187/6784 * d + 11/84)). split.
    + assert (0 <= a * y) by (apply Rmult_le_pos; lra).
      assert (h * (1 / 10) <= h * (35/384 * a + 500/1113 * b + 125/192 * c - 2187/6784 * d + 11/84)) by (apply Rmult_le_compat_l; lra). lra.
    + rewrite <- !RtoC_mult, <- !RtoC_plus, <- !RtoC_minus, <- !RtoC_plus, <- !RtoC_mult, <- !RtoC_plus. reflexivity.
Qed.

(** ** C92 for ETD34 and ETD35 *)
Definition as_etd_uniform (k : as_kind) (ord : nat) : Prop :=
  forall K rho T0, 0 <= K -> 0 < rho -> 0 < T0 ->
  exists C h0 r0, 0 <= C /\ 0 < h0 /\ 0 < r0 /\
  forall n (L : cvec) N t0 t1 u f f1 f2 J, stiff_solution n L N t0 t1 rho K u f f1 f2 J -> t1 - t0 <= T0 ->
  forall W (p : problem Cops W), computes p N -> p_vec p = L -> good_contour (p_cfg p) ->
    as_claim n t0 t1 u ord C h0 r0 p k (quad_error (p_cfg p)).
Lemma as_os_refutes k (m : R -> erk) (P Q : R -> R) :
  (forall h, 0 < h -> os_form (m h) h (P h) (Q h)) -> (forall h, 0 < h <= 1 -> os_kap * h ^ 3 <= Cmod (os_D h (P h) (Q h))) ->
  (forall h v, 0 < h <= 1 -> fst (as_Phi (os_problem h) osN k h v) = erk_step (m h) osN h v) ->
  ~ as_etd_uniform k 4.
Proof.
  intros HF HD HP HU. destruct (HU 1 1 2 ltac:(lra) ltac:(lra) ltac:(lra)) as (C & h0 & r0 & HC & Hh0 & Hr0 & H). clear HU.
  assert (KP := os_kap_pos).
  destruct (big_nat (1 + 6 * C / os_kap + / h0 + / r0)) as (j & Hj & Hbig).
  assert (J0 := Rinv_0_lt_compat h0 Hh0). assert (J1 := Rinv_0_lt_compat r0 Hr0).
  assert (CK : 0 <= 6 * C / os_kap) by (apply Rmult_le_pos; [lra|left; apply Rinv_0_lt_compat; exact KP]).
  set (h := / INR j) in *. assert (I0 : 0 < h) by (apply Rinv_0_lt_compat; lra).
  assert (I1 : h <= 1) by (unfold h; rewrite <- Rinv_1; apply Rinv_le_contravar; lra).
  assert (E1 : INR j * h = 1) by (unfold h; field; lra).
  assert (Hh : h <= h0). { unfold h. rewrite <- (Rinv_inv h0). apply Rinv_le_contravar; lra. }
  assert (Hr : h <= r0). { unfold h. rewrite <- (Rinv_inv r0). apply Rinv_le_contravar; lra. }
  destruct (os_quad h (conj I0 I1)) as [QE GC]. set (p := os_problem h) in *.
  assert (P4 : h ^ 4 <= h). { cbn [pow]. apply Rle_trans with (h * 1); [|lra]. apply Rmult_le_compat_l; [lra|]. change (h * (h * (h * 1))) with (h ^ 3). rewrite <- (pow1 3). apply pow_incr. lra. }
  assert (HN : computes p osN) by (intros v w y w' E; injection E as <- _; reflexivity).
  assert (HM : as_memoryless (as_model p k) (as_Phi p osN k) (as_inv p osN k)).
  { apply as_sound_memoryless; [apply as_model_sound; [exact HN|split; discriminate|]|].
    - intros a b E. apply Reqb_true in E. subst. reflexivity.
    - intros. apply as_model_never_raises; [intros; discriminate|split; discriminate]. }
  destruct (keep_run _ unit (as_model p k) _ _ HM default_config default_config_valid h j (osu h 0) (as_new_obj p k) tt I0 Hj) as (o' & w' & E & Hg).
  rewrite E1 in E.
  destruct (H 2%nat _ _ 0 2 _ _ _ _ _ (os_stiff h) ltac:(lra) unit p HN eq_refl GC the_consts default_config (keep _) j (osu h 0) (py 0) (py 1) (Some (py h)) (as_new_obj p k) tt _ o' w' 0 h
              ltac:(cbn; lra) default_config_valid eq_refl ltac:(cbn; lra) ltac:(cbn; lra) ltac:(cbn; lra) (Rle_refl 0) ltac:(lra) ltac:(apply vle_eq_0; reflexivity) E Hg ltac:(lra)) as [_ G].
  assert (G2 := G _ eq_refl 1%nat ltac:(lia)). clear G. cbn [val] in G2. unfold csub in G2.
  destruct (os_iter (fun v => fst (as_Phi p osN k h v)) (m h) h (P h) (Q h) I0 (HF h I0) (fun v => HP h v (conj I0 I1)) j) as (s & S1 & _ & S3).
  rewrite E1 in S1, S3.
  assert (G3 := eq_ind _ (fun y => Cmod y <= C * (0 + quad_error (p_cfg p) + h ^ 4)) G2 _ S3). clear G2 S3. rename G3 into G2. cbn beta in G2.
  rewrite !Cmod_mult, !Cmod_R in G2.
  assert (EX : / 3 <= exp (- (1))). { rewrite exp_Ropp. apply Rinv_le_contravar; [apply exp_pos|apply exp_le_3]. }
  assert (S4 : INR j * / 3 <= s). { eapply Rle_trans; [|exact S1]. apply Rmult_le_compat_l; lra. }
  rewrite (Rabs_pos_eq h) in G2 by lra. rewrite (Rabs_pos_eq s) in G2 by lra.
  assert (D := HD h (conj I0 I1)). assert (K3 : 0 <= os_kap * h ^ 3) by (apply Rmult_le_pos; [lra|apply pow_le; lra]).
  assert (G3 : (INR j * / 3) * (os_kap * h ^ 3) <= s * Cmod (os_D h (P h) (Q h))) by (apply Rmult_le_compat; lra).
  assert (G4 : h * ((INR j * / 3) * (os_kap * h ^ 3)) <= h * (s * Cmod (os_D h (P h) (Q h)))) by (apply Rmult_le_compat_l; lra).
  replace (h * ((INR j * / 3) * (os_kap * h ^ 3))) with ((INR j * h) * (os_kap * h ^ 3) / 3) in G4 by field. rewrite E1 in G4.
  assert (G5 : C * (0 + quad_error (p_cfg p) + h ^ 4) <= C * (2 * h ^ 4)) by (apply Rmult_le_compat_l; lra).
  assert (G6 : os_kap * h ^ 3 <= 6 * C * h * h ^ 3) by (cbn [pow] in *; lra).
  assert (P3 : 0 < h ^ 3) by (apply pow_lt; lra). apply Rmult_le_reg_r in G6; [|exact P3].
  assert (G7 : INR j * os_kap <= INR j * (6 * C * h)) by (apply Rmult_le_compat_l; lra).
  replace (INR j * (6 * C * h)) with (6 * C * (INR j * h)) in G7 by ring. rewrite E1 in G7.
  assert (G8 : 6 * C / os_kap * os_kap = 6 * C) by (field; lra).
  assert (G9 : (6 * C / os_kap) * os_kap < INR j * os_kap) by (apply Rmult_lt_compat_r; lra). lra.
Qed.
Theorem C92_etd34_order_four_refuted : ~ as_etd_uniform ETD34d 4.
Proof.
  apply (as_os_refutes ETD34d (fun h => kro h (osL h)) (fun h => 1 - exp (- (1/2 * h)) * exp (- (1/2 * h))) (fun h => - 4 * ((1 - exp (- (1/2 * h))) * (1 - exp (- (1/2 * h)))))).
  - intros h Hh. apply kro_form. exact Hh.
  - intros h Hh. apply kro_D. exact Hh.
  - intros h v Hh. exact (proj1 (proj2 (C36_exact_krogstad unit (os_problem h) osN h v ltac:(cbn; lra) (fun i => os_mod h i Hh)))).
Qed.
Theorem C92_etd35_order_four_refuted : ~ as_etd_uniform ETD35d 4.
Proof.
  apply (as_os_refutes ETD35d (fun h => etd5 h (osL h)) _ _ (fun h Hh => etd5_form h Hh)).
  - intros h Hh. apply etd5_D. exact Hh.
  - intros h v Hh. exact (proj1 (proj2 (C37_exact_method unit (os_problem h) osN h v ltac:(cbn; lra) (fun i => os_mod h i Hh)))).
Qed.
Theorem C92_adaptive_order_three : as_etd_uniform ETD34d 3 /\ as_etd_uniform ETD35d 3.
Proof.
  split; intros K rho T0 HK Hrho HT; destruct (C90_uniform_convergence K rho T0 HK Hrho HT) as (C & h0 & r0 & H1 & H2 & H3 & H);
    exists C, h0, r0; (split; [exact H1|]; split; [exact H2|]; split; [exact H3|]); intros n L N t0 t1 u f f1 f2 J HS Ht W p Hp EL Hc;
    destruct (H n L N t0 t1 u f f1 f2 J HS Ht W p Hp EL Hc) as (_ & _ & G1 & G2); assumption.
Qed.

Print Assumptions C91_if34_uniform_refuted.
Print Assumptions C91_if45dp_uniform_refuted.
Print Assumptions C92_etd34_order_four_refuted.
Print Assumptions C92_etd35_order_four_refuted.
Print Assumptions C92_adaptive_order_three.
