(** * C78: runs of the integrating-factor solvers in rounded arithmetic

    The models of IF4, IF34 and IF45DP are read over an arithmetic whose operations carry relative errors and underflow errors
    of size [eps] ([Rounding.v]); the user's nonlinear function is computed with errors of that size too. For a smooth solution
    the recorded vectors differ from the solution by at most [C (d + H^p + m eps)]: the discretisation error of the exact
    method plus a multiple of the number of steps times [eps]. *)

From Coq Require Import ZArith List Bool Reals Lra Lia FunctionalExtensionality QArith Qreals Setoid Morphisms.
From Coquelicot Require Import Complex.
From Verif Require Import Scalars Control ControlCS ControlCSReal ControlAS ControlASReal ControlSim ControlSound PropsControl Arrays SchemeBase
     SchemeIF SchemeETD4 SchemeETD5 Solvers SchemeFacts SchemeSound SchemeFamily SchemePartial SchemeForm CInst SpecRK
     SchemeIFReal PropsCache PropsIF SpecPhi SpecPoly ContourReal SpecERK SchemeETDReal SchemeETDCoefs PropsPsi PropsETD
     PropsLinear ContourMatrix MatrixFlow PropsMatrix Asym Solution LocalRK4 Stable Converge Voc LocalKro MatExp ConvRuns ConvMethods PropsConverge
     OrderWords OrderLocal OrderMethods PropsOrder5 Estimate Rounding RoundingB64.
Import ListNotations.
Local Open Scope R_scope.

(** ** Accumulation with an error per step *)
Lemma gronwall_add n (u : R -> cvec) (Phi : R -> cvec -> cvec) (t0 tf r C D del : R) (ok : R -> Prop) : 0 <= C -> 0 <= D -> 0 <= del ->
  (forall t h v x, ok h -> 0 < h -> t0 <= t -> t + h <= tf -> 0 <= x <= r -> vle n (csub v (u t)) x ->
     vle n (csub (Phi h v) (u (t + h))) ((1 + C * h) * x + h * D + del)) ->
  forall hs t v x, Forall (fun h => ok h /\ 0 < h) hs -> t0 <= t -> t + total hs <= tf -> 0 <= x ->
    exp (C * (tf - t)) * (x + (tf - t) * D + INR (length hs) * del) <= r -> vle n (csub v (u t)) x ->
    vle n (csub (run Phi hs v) (u (t + total hs))) (exp (C * total hs) * (x + total hs * D + INR (length hs) * del)).
Proof.
  intros HC HD Hdel Hstep. induction hs as [|h hs IH]; intros t v x Hall Ht0 Ht Hx Hr Hv.
  - cbn [run total fold_right length]. change (INR 0) with 0. rewrite Rplus_0_r, Rmult_0_r, exp_0, !Rmult_0_l, !Rplus_0_r, Rmult_1_l. exact Hv.
  - inversion Hall as [|? ? [Hok Hh] Hall']; subst. cbn [run total fold_right length] in *. fold (total hs) in *. rewrite S_INR in *.
    assert (HT : 0 <= total hs) by (apply total_nonneg; eapply Forall_impl; [|exact Hall']; intros a [_ Ha]; exact Ha).
    assert (HI := pos_INR (length hs)). set (k := INR (length hs)) in *. assert (Pk : 0 <= k * del) by (apply Rmult_le_pos; assumption).
    set (s := total hs) in *.
    assert (E1 := exp_ge_1 (C * h) ltac:(apply Rmult_le_pos; lra)).
    assert (P1 : 0 <= h * D) by (apply Rmult_le_pos; lra).
    assert (PC : 0 <= C * h) by (apply Rmult_le_pos; lra).
    set (x' := (1 + C * h) * x + h * D + del).
    assert (X0 : 0 <= x'). { unfold x'. assert (0 <= (1 + C * h) * x) by (apply Rmult_le_pos; lra). lra. }
    assert (Xs : forall w, 0 <= w -> x' + w * D + k * del <= exp (C * h) * (x + (h + w) * D + (k + 1) * del)).
    { intros w Hw. assert (0 <= w * D) by (apply Rmult_le_pos; assumption). unfold x'.
      assert (A1 : (1 + C * h) * x <= exp (C * h) * x) by (apply Rmult_le_compat_r; lra).
      assert (A2 : 1 * ((h + w) * D + (k + 1) * del) <= exp (C * h) * ((h + w) * D + (k + 1) * del)) by (apply Rmult_le_compat_r; lra). lra. }
    assert (Hxr : x <= r).
    { assert (E2 := exp_ge_1 (C * (tf - t)) ltac:(apply Rmult_le_pos; lra)).
      assert (Pt : 0 <= (tf - t) * D) by (apply Rmult_le_pos; lra). assert (PE : 0 <= C * (tf - t)) by (apply Rmult_le_pos; lra).
      assert (1 * (x + (tf - t) * D + (k + 1) * del) <= exp (C * (tf - t)) * (x + (tf - t) * D + (k + 1) * del)) by (apply Rmult_le_compat_r; lra). lra. }
    assert (G := IH (t + h) (Phi h v) x' Hall' ltac:(lra) ltac:(lra) X0).
    assert (Hr' : exp (C * (tf - (t + h))) * (x' + (tf - (t + h)) * D + k * del) <= r).
    { eapply Rle_trans; [|exact Hr]. assert (PE := exp_pos (C * (tf - (t + h)))).
      apply Rle_trans with (exp (C * (tf - (t + h))) * (exp (C * h) * (x + (h + (tf - (t + h))) * D + (k + 1) * del))).
      - apply Rmult_le_compat_l; [lra|]. apply Xs. lra.
      - rewrite <- Rmult_assoc, <- exp_plus. right. f_equal; [f_equal|]; ring. }
    specialize (G Hr' (Hstep t h v x Hok Hh Ht0 ltac:(lra) (conj Hx Hxr) Hv)).
    replace (t + (h + s)) with (t + h + s) by ring. eapply vle_mono; [exact G|].
    assert (PE := exp_pos (C * s)).
    apply Rle_trans with (exp (C * s) * (exp (C * h) * (x + (h + s) * D + (k + 1) * del))).
    + apply Rmult_le_compat_l; [lra|]. apply Xs. exact HT.
    + rewrite <- Rmult_assoc, <- exp_plus. right. f_equal. f_equal. ring.
Qed.

(** ** Runs of a method whose steps carry errors *)
Section Rounded.
  Variables n q : nat.
  Variable L : nat -> nat -> C.
  Variable N : cvec -> cvec.
  Variables t0 t1 rho K : R.
  Variable u : R -> cvec.
  Variable fd : nat -> R -> cvec.
  Variable J : R -> cvec -> cvec.
  Hypothesis HS : smooth n q L N t0 t1 rho K u fd J.
  Variable m : R -> erk.
  Variable p : nat.
  Hypothesis Hp : (0 < p)%nat.
  Hypothesis Hloc : bigO n R (adm t0 t1) (S p) (fun t h => csub (erk_step (m h) N h (u t)) (u (t + h))).

  (** [Phi h] is within [del] of the step of a method with coefficients within [e] of those of [m], from every value within
      [rho / 4] of the solution. *)
  Definition within (A : R) (S : nat) (e del : R) (Phi : R -> cvec -> cvec) (h : R) : Prop :=
    exists m', erk_close n A S h e (m h) m' /\
    forall t v, t0 <= t <= t1 -> vle n (csub v (u t)) (rho / 4) -> vle n (csub (Phi h v) (erk_step m' N h v)) del.

  Theorem rounded_accuracy A S : 0 <= A ->
    exists C h0 r0, 0 <= C /\ 0 < h0 /\ 0 < r0 /\
    forall Phi H e del M hs v d ts vs, 0 <= e -> 0 <= del -> 0 <= H <= h0 -> 0 <= d -> INR (length hs) <= M -> d + e + M * del <= r0 -> vle n (csub v (u t0)) d ->
      Forall (fun h => 0 < h) hs -> Forall (fun h => h <= H) hs -> (forall h, In h hs -> h <= t1 - t0 -> within A S e del Phi h) ->
      t0 + total hs <= t1 -> steps_of Phi t0 v hs ts vs ->
      accurate n u (C * (d + e + H ^ p + M * del)) ts vs /\ vle n (csub (grun Phi hs v) (u (t0 + total hs))) (C * (d + e + H ^ p + M * del)).
  Proof.
    intros HA. destruct (near_step n q L N t0 t1 rho K u fd J HS A S HA) as (C1 & h1 & HC1 & Hh1 & G1).
    destruct Hloc as (CL & hL & HCL & HhL & GL).
    assert (Hrho := so_rho _ _ _ _ _ _ _ _ _ _ _ HS). assert (HT := so_time _ _ _ _ _ _ _ _ _ _ _ HS).
    set (T := t1 - t0). set (X := exp (C1 * T)). assert (HX : 0 < X) by apply exp_pos.
    set (C := X * (1 + T * CL + T * C1)). assert (HTC : 0 <= T * CL) by (apply Rmult_le_pos; unfold T; lra). assert (HTC1 : 0 <= T * C1) by (apply Rmult_le_pos; unfold T; lra).
    assert (HC : 0 < C) by (apply Rmult_lt_0_compat; lra).
    assert (Hsm : exists hp, 0 < hp /\ forall H, 0 <= H <= hp -> C * H ^ p <= rho / 8).
    { exists (Rmin 1 (rho / 8 / C)). split; [apply Rmin_glb_lt; [lra|apply Rdiv_lt_0_compat; lra]|].
      intros H [Ha Hb]. assert (M1 := Rmin_l 1 (rho / 8 / C)). assert (M2 := Rmin_r 1 (rho / 8 / C)).
      destruct p as [|p']; [lia|]. cbn [pow].
      assert (P1 : H ^ p' <= 1) by (rewrite <- (pow1 p'); apply pow_incr; lra).
      assert (P0 : 0 <= H ^ p') by (apply pow_le; lra).
      apply Rle_trans with (C * (rho / 8 / C * 1)); [|right; field; lra].
      apply Rmult_le_compat_l; [lra|]. apply Rmult_le_compat; lra. }
    destruct Hsm as (hp & Hhp & Hsmall).
    assert (Pr : 0 < rho / 8 / C) by (apply Rdiv_lt_0_compat; lra).
    exists C, (Rmin (Rmin h1 hL) hp), (Rmin 1 (rho / 8 / C)). split; [lra|]. split; [repeat apply Rmin_glb_lt; assumption|]. split; [apply Rmin_glb_lt; lra|].
    intros Phi H e del M hs v d ts vs He0 Hdel HH Hd HM Hde Hv Hpos Hmax Hw Htot [Ets Evs].
    assert (M5 := Rmin_l 1 (rho / 8 / C)). assert (M6 := Rmin_r 1 (rho / 8 / C)).
    assert (M1 := Rmin_l (Rmin h1 hL) hp). assert (M2 := Rmin_r (Rmin h1 hL) hp). assert (M3 := Rmin_l h1 hL). assert (M4 := Rmin_r h1 hL).
    assert (PH : 0 <= H ^ p) by (apply pow_le; lra). set (D := CL * H ^ p + C1 * e). assert (PD1 : 0 <= CL * H ^ p) by (apply Rmult_le_pos; assumption). assert (PD2 : 0 <= C1 * e) by (apply Rmult_le_pos; assumption). assert (HD : 0 <= D) by (unfold D; lra).
    assert (HM0 : 0 <= M) by (assert (Y := pos_INR (length hs)); lra). assert (PMd : 0 <= M * del) by (apply Rmult_le_pos; assumption).
    assert (Bound : forall z k, 0 <= z <= T -> k <= M -> exp (C1 * z) * (d + z * D + k * del) <= C * (d + e + H ^ p + M * del)).
    { intros z k Hz Hk. unfold C. rewrite Rmult_assoc.
      assert (Z1 : exp (C1 * z) <= X).
      { unfold X. assert (C1 * z <= C1 * T) by (apply Rmult_le_compat_l; lra). destruct (Rle_lt_or_eq_dec _ _ H0) as [Y|Y]; [left; apply exp_increasing; exact Y|right; rewrite Y; reflexivity]. }
      assert (Zk : k * del <= M * del) by (apply Rmult_le_compat_r; assumption).
      assert (ZD : z * D <= T * D) by (apply Rmult_le_compat_r; lra).
      assert (Z2 : d + z * D + k * del <= (1 + T * CL + T * C1) * (d + e + H ^ p + M * del)).
      { replace ((1 + T * CL + T * C1) * (d + e + H ^ p + M * del)) with (d + M * del + T * D + H ^ p + e + T * CL * (d + e + M * del) + T * C1 * (d + H ^ p + M * del)) by (unfold D; ring).
        assert (0 <= T * CL * (d + e + M * del)) by (apply Rmult_le_pos; lra). assert (0 <= T * C1 * (d + H ^ p + M * del)) by (apply Rmult_le_pos; lra). lra. }
      assert (Z3 : 0 <= (1 + T * CL + T * C1) * (d + e + H ^ p + M * del)) by (apply Rmult_le_pos; lra).
      apply Rle_trans with (exp (C1 * z) * ((1 + T * CL + T * C1) * (d + e + H ^ p + M * del))).
      - apply Rmult_le_compat_l; [left; apply exp_pos|exact Z2].
      - apply Rmult_le_compat_r; assumption. }
    assert (Small : C * (d + e + H ^ p + M * del) <= rho / 4).
    { assert (S1 := Hsmall H ltac:(lra)). assert (S2 : C * (d + e + M * del) <= C * (rho / 8 / C)) by (apply Rmult_le_compat_l; lra).
      replace (C * (rho / 8 / C)) with (rho / 8) in S2 by (field; lra). lra. }
    assert (Hstep : forall t h w x, (In h hs /\ h <= H) -> 0 < h -> t0 <= t -> t + h <= t1 -> 0 <= x <= rho / 4 -> vle n (csub w (u t)) x ->
              vle n (csub (Phi h w) (u (t + h))) ((1 + C1 * h) * x + h * D + del)).
    { intros t h w x [Hin HhH] Hh Ht0 Ht Hx Hwx.
      assert (Ha : h <= t1 - t0) by lra. assert (Hb : t0 <= t <= t1) by lra. assert (Hc : 0 < h <= t1 - t0) by lra.
      assert (Hd1 : 0 < h <= h1) by lra. assert (He : 0 <= x <= rho / 2) by lra.
      destruct (Hw h Hin Ha) as (m' & Hcl & Hm'). assert (Q0 := Hm' t w Hb (vle_mono n _ _ _ Hwx (proj2 Hx))).
      assert (He1 : 0 <= e <= 1) by lra.
      assert (Q1 := G1 (m h) m' t h w x e Hcl Hb Hd1 He He1 Hwx).
      assert (Q2 := GL t h (conj Ht0 (conj Hh Ht)) ltac:(lra)). cbn beta in Q2. cbn [pow] in Q2.
      assert (PP : h ^ p <= H ^ p) by (apply pow_incr; lra).
      assert (CL * (h * h ^ p) <= h * (CL * H ^ p)) by (replace (h * (CL * H ^ p)) with (CL * (h * H ^ p)) by ring; apply Rmult_le_compat_l; [exact HCL|]; apply Rmult_le_compat_l; lra).
      eapply vle_mono; [eapply vle_ext; [|exact (vle_add n _ _ _ _ (vle_add n _ _ _ _ Q0 Q1) (vle_add n _ _ _ _ Q2 Hwx))]|].
      - intros i _. unfold cadd, csub. ring.
      - unfold D. lra. }
    assert (Le : Forall (fun h => h <= t1 - t0) hs).
    { apply Forall_forall. intros h Hin. assert (G : h <= total hs).
      { clear - Hin Hpos. induction Hpos as [|a hs Ha Hp IH]; [destruct Hin|]. unfold total. cbn [fold_right]. assert (X := total_nonneg hs Hp). unfold total in *.
        destruct Hin as [->|Hin]; [lra|]. specialize (IH Hin). lra. }
      lra. }
    assert (G : forall j, vle n (csub (grun Phi (firstn j hs) v) (u (t0 + total (firstn j hs)))) (C * (d + e + H ^ p + M * del))).
    { intros j. rewrite grun_run. assert (Tj := total_firstn hs j Hpos).
      assert (Hin : forall h, In h (firstn j hs) -> In h hs) by (intros h Hi; rewrite <- (firstn_skipn j hs); apply in_or_app; left; exact Hi).
      assert (Pj : Forall (fun h => 0 < h) (firstn j hs)) by (apply Forall_forall; intros h Hi; rewrite Forall_forall in Hpos; apply Hpos, Hin, Hi).
      assert (Tp := total_nonneg _ Pj).
      assert (Lj : INR (length (firstn j hs)) <= M) by (eapply Rle_trans; [apply le_INR|exact HM]; rewrite firstn_length; lia).
      assert (Y := gronwall_add n u Phi t0 t1 (rho / 4) C1 D del (fun h => In h hs /\ h <= H) HC1 HD Hdel Hstep (firstn j hs) t0 v d).
      eapply vle_mono; [apply Y|]; clear Y.
      - apply Forall_forall. intros h Hi. rewrite Forall_forall in Hpos, Hmax. split; [split|]; auto.
      - lra.
      - lra.
      - exact Hd.
      - eapply Rle_trans; [apply (Bound (t1 - t0)); [unfold T; lra|exact Lj]|exact Small].
      - exact Hv.
      - apply Bound; [unfold T; lra|exact Lj]. }
    split.
    - unfold accurate. rewrite Ets, Evs. clear - G. induction (seq 0 (Datatypes.S (length hs))) as [|j l IH]; cbn [map]; constructor; [apply G|exact IH].
    - assert (Y := G (length hs)). rewrite firstn_all in Y. exact Y.
  Qed.

  (** What is claimed of sequences of steps of [Phi] with sizes in [good]. *)
  Definition near_steps (C h0 r0 : R) (good : R -> Prop) (Phi : R -> cvec -> cvec) (e eps : R) : Prop :=
    forall hs v d H, Forall (fun h => 0 < h <= H) hs -> Forall good hs -> t0 + total hs <= t1 -> 0 <= H <= h0 -> 0 <= d ->
      d + e + INR (length hs) * eps <= r0 -> vle n (csub v (u t0)) d ->
      vle n (csub (grun Phi hs v) (u (t0 + total hs))) (C * (d + e + H ^ p + INR (length hs) * eps)).
  (** What is claimed of the runs of the constant-step solver of kind [k] for the problem [pr], read over the arithmetic [a]; and of
      its steps, for any sequence of step sizes (used for runs whose times are rounded). *)
  Definition cs_rclaim (C h0 r0 : R) {a W} (pr : problem (Fops a) W) (k : cs_kind) (e eps : R) : Prop :=
    (exists Nf, (forall v w y w', p_nl pr v w = (inr y, w') -> y = Nf v) /\ near_steps C h0 r0 (cs_good pr k) (cs_Phi pr Nf k) e eps) /\
    forall fuel v (s0 sf h : pynum (T Rops)) (o : csobj Rops (vec (Fops a)) W (cs_model pr k)) w r o' w' d,
      val s0 = t0 -> val s0 <= val sf -> val sf + val h <= t1 -> 0 < val h <= h0 -> 0 <= d -> d + e + eps / val h <= r0 -> vle n (csub v (u t0)) d ->
      cs_evolve (F := Rops) fuel v s0 sf h true 1 o w = (r, o', w') ->
      accurate n u (C * (d + e + val h ^ p + eps / val h)) (map val (c_t o')) (c_u o') /\
      forall v', r = Ret v' -> exists t, val sf <= t < val sf + val h /\ vle n (csub v' (u t)) (C * (d + e + val h ^ p + eps / val h)).
  (** The same for the adaptive solvers; [H] bounds the steps that were taken. *)
  Definition as_rclaim (C h0 r0 : R) {a W} (pr : problem (Fops a) W) (k : as_kind) (e eps : R) : Prop :=
    (exists Nf, (forall v w y w', p_nl pr v w = (inr y, w') -> y = Nf v) /\
      near_steps C h0 r0 (as_good pr k) (fun h v => fst (as_Phi pr Nf k h v)) e eps) /\
    forall (ks : consts (T Rops)) cfg compute_s fuel v (s0 sf : pynum (T Rops)) hi (o : asobj Rops (vec (Fops a)) W (as_model pr k)) w r o' w' d H,
      (0 < MIN_S ks < 1 /\ 1 <= MAX_S ks) -> valid_config cfg -> val s0 = t0 -> val s0 < val sf -> val sf <= t1 ->
      match hi with Some h => 0 < val h | None => True end ->
      0 <= d -> vle n (csub v (u t0)) d ->
      as_evolve ks cfg compute_s fuel v s0 sf hi true 1 o w = (r, o', w') ->
      gaps_at_most H (map val (a_t o')) -> 0 <= H <= h0 -> d + e + INR (length (a_t o')) * eps <= r0 ->
      accurate n u (C * (d + e + H ^ p + INR (length (a_t o')) * eps)) (map val (a_t o')) (a_u o') /\
      forall v', r = Ret v' -> vle n (csub v' (u (val sf))) (C * (d + e + H ^ p + INR (length (a_t o')) * eps)).

  Theorem rounded_runs A S B : 0 <= A -> 0 <= B ->
    exists C h0 r0, 0 <= C /\ 0 < h0 /\ 0 < r0 /\
    forall a W (pr : problem (Fops a) W) (Nf : cvec -> cvec) e eps hb, (forall v w y w', p_nl pr v w = (inr y, w') -> y = Nf v) -> 0 <= e -> 0 <= eps -> hb <= h0 ->
      (forall k, (forall h, 0 < h <= hb -> h <= t1 - t0 -> cs_good pr k h -> within A S e (B * eps) (cs_Phi pr Nf k) h) -> cs_rclaim C hb r0 pr k e eps) /\
      (forall k, (forall h, 0 < h <= hb -> h <= t1 - t0 -> as_good pr k h -> within A S e (B * eps) (fun h v => fst (as_Phi pr Nf k h v)) h) -> as_rclaim C hb r0 pr k e eps).
  Proof.
    intros HA HB. destruct (rounded_accuracy A S HA) as (C & h0 & r0 & H1 & H2 & H3 & H4).
    assert (HT := so_time _ _ _ _ _ _ _ _ _ _ _ HS). set (Tm := t1 - t0). assert (HTm : 0 < Tm) by (unfold Tm; lra).
    set (F := 1 + (1 + Tm) * B). assert (PF : 0 <= (1 + Tm) * B) by (apply Rmult_le_pos; lra). assert (PT : 0 <= Tm * B) by (apply Rmult_le_pos; lra).
    assert (HF : 1 <= F) by (unfold F; lra). assert (HFB : B <= F /\ Tm * B <= F) by (unfold F; lra).
    (* bounds with a multiple [z <= F] of the rounding term *)
    assert (Use : forall d x y z e, 0 <= d -> 0 <= x -> 0 <= y -> 0 <= e -> z <= F -> e <= z * y -> d + y <= r0 / F ->
                    d + e <= r0 /\ C * (d + x + e) <= C * F * (d + x + y)).
    { intros d x y z e Hd Hx Hy He Hz Hey Hr.
      assert (E1 : e <= F * y) by (eapply Rle_trans; [exact Hey|apply Rmult_le_compat_r; assumption]).
      assert (E2 : F * (d + y) <= r0). { apply Rle_trans with (F * (r0 / F)); [apply Rmult_le_compat_l; lra|right; field; lra]. }
      assert (E3 : 0 <= (F - 1) * d) by (apply Rmult_le_pos; lra). assert (E4 : 0 <= (F - 1) * x) by (apply Rmult_le_pos; lra).
      split; [lra|]. rewrite Rmult_assoc. apply Rmult_le_compat_l; [exact H1|]. lra. }
    exists (C * F), h0, (r0 / F). split; [apply Rmult_le_pos; lra|]. split; [exact H2|]. split; [apply Rdiv_lt_0_compat; lra|].
    intros a W pr Nf e eps hb HNL He0 He Hhb. assert (HBe : 0 <= B * eps) by (apply Rmult_le_pos; assumption).
    assert (Steps : forall (good : R -> Prop) Phi, (forall h, 0 < h <= hb -> h <= t1 - t0 -> good h -> within A S e (B * eps) Phi h) ->
              near_steps (C * F) hb (r0 / F) good Phi e eps).
    { intros good Phi Hf hs v d H Hpos Hg Htot HH Hd Hde Hv. set (M := INR (length hs)) in *.
      assert (HM0 : 0 <= M) by apply pos_INR. assert (PM : 0 <= M * eps) by (apply Rmult_le_pos; assumption).
      assert (Pp : 0 <= H ^ p) by (apply pow_le; lra).
      destruct (Use (d + e) (H ^ p) (M * eps) B (M * (B * eps)) ltac:(lra) Pp PM) as [U1 U2];
        [apply Rmult_le_pos; assumption|apply HFB|right; ring|exact Hde|].
      assert (P1 : Forall (fun h => 0 < h) hs) by (eapply Forall_impl; [|exact Hpos]; intros x Hx; cbn in Hx; lra).
      assert (P2 : Forall (fun h => h <= H) hs) by (eapply Forall_impl; [|exact Hpos]; intros x Hx; cbn in Hx; lra).
      assert (Gf : forall x, In x hs -> x <= t1 - t0 -> within A S e (B * eps) Phi x).
      { intros x Hx Hx2. rewrite Forall_forall in Hg, Hpos. apply Hf; [|exact Hx2|apply Hg; exact Hx]. specialize (Hpos x Hx). cbn in Hpos. lra. }
      destruct (H4 Phi H e (B * eps) M hs v d _ _ He0 HBe ltac:(lra) Hd (Rle_refl _) U1 Hv P1 P2 Gf Htot (conj eq_refl eq_refl)) as [_ G2].
      eapply vle_mono; [exact G2|exact U2]. }
    split.
    - intros k Hf. split; [exists Nf; split; [exact HNL|apply Steps; exact Hf]|]. intros fuel v s0 sf h o w r o' w' d E0 Hsf Hend Hh Hd Hde Hv E.
      destruct (cs_model_sound1 (F := Rops) (fun a b X => proj1 (Reqb_true a b) X) pr Nf HNL k) as [Inv HM].
      destruct (cs_evolve_steps HM fuel v s0 sf h o w ltac:(lra) Hsf E) as (j & Hg & Hj & Hst & Hr).
      set (vh := val h : R) in *. rewrite E0 in *.
      assert (TR : total (repeat vh j) = INR j * vh).
      { clear. unfold total. induction j as [|j IH]; [cbn; lra|]. cbn [repeat fold_right]. rewrite IH, S_INR. lra. }
      assert (TB : t0 + total (repeat vh j) < val sf + vh \/ j = 0%nat).
      { destruct j as [|j]; [right; reflexivity|left]. specialize (Hj ltac:(lia)). rewrite TR, S_INR. replace (Datatypes.S j - 1)%nat with j in Hj by lia. lra. }
      assert (P1 : Forall (fun x => 0 < x) (repeat vh j)) by (apply Forall_forall; intros x Hx; apply repeat_spec in Hx; subst x; lra).
      assert (P2 : Forall (fun x => x <= vh) (repeat vh j)) by (apply Forall_forall; intros x Hx; apply repeat_spec in Hx; subst x; lra).
      assert (P3 : t0 + total (repeat vh j) <= t1) by (destruct TB as [TB| ->]; [lra|]; unfold total; cbn; lra).
      assert (Hnum : INR (length (repeat vh j)) <= Tm / vh).
      { rewrite repeat_length. rewrite TR in P3. apply Rmult_le_reg_r with vh; [lra|]. replace (Tm / vh * vh) with Tm by (field; lra). unfold Tm. lra. }
      assert (Gf : forall x, In x (repeat vh j) -> x <= t1 - t0 -> within A S e (B * eps) (cs_Phi pr Nf k) x).
      { intros x Hx Hx2. assert (Ex : x = vh) by (apply repeat_spec in Hx; exact Hx). subst x. apply Hf; [lra|exact Hx2|]. apply Hg. destruct j; [destruct Hx|lia]. }
      assert (Pe : 0 <= eps / vh) by (apply Rmult_le_pos; [exact He|left; apply Rinv_0_lt_compat; lra]).
      assert (Pp : 0 <= vh ^ p) by (apply pow_le; lra).
      destruct (Use (d + e) (vh ^ p) (eps / vh) (Tm * B) (Tm / vh * (B * eps)) ltac:(lra) Pp Pe) as [U1 U2];
        [apply Rmult_le_pos; [apply Rmult_le_pos; [lra|left; apply Rinv_0_lt_compat; lra]|exact HBe]|apply HFB|right; field; lra|exact Hde|].
      destruct (H4 (cs_Phi pr Nf k) vh e (B * eps) (Tm / vh) (repeat vh j) v d _ _ He0 HBe ltac:(lra) Hd Hnum U1 Hv P1 P2 Gf P3 Hst) as [G1 G2].
      split; [eapply Forall2_weaken; [|exact G1]; intros t x Hx; cbn beta in Hx; eapply vle_mono; [exact Hx|exact U2]|].
      intros v' Ev. destruct (Hr v' Ev) as [-> Hge]. exists (t0 + total (repeat vh j)).
      split; [|eapply vle_mono; [exact G2|exact U2]].
      rewrite TR in *. destruct TB as [TB| ->]; [lra|]. change (INR 0) with 0 in *. rewrite Rmult_0_l in *. split; [exact Hge|]. apply Rle_lt_trans with (val sf); lra.
    - intros k Hf. split; [exists Nf; split; [exact HNL|apply Steps; exact Hf]|]. intros ks cfg compute_s fuel v s0 sf hi o w r o' w' d H Hks Hcfg E0 Hsf Hend Hhi Hd Hv E HG HH Hde.
      destruct (as_model_sound1 (F := Rops) (fun a b X => proj1 (Reqb_true a b) X) pr Nf HNL k) as [Inv HM].
      destruct (as_evolve_steps ks compute_s HM Hks Hcfg fuel v s0 sf hi o w Hsf Hhi E) as (hs & Hpos & Hg & Htot & Hst & Hr).
      rewrite E0 in *. assert (Hmax := steps_gaps _ _ _ _ _ _ _ _ Hst HG).
      assert (Hnum : INR (length hs) <= INR (length (a_t o'))).
      { destruct Hst as [Et _]. apply le_INR. assert (X := f_equal (@length R) Et). rewrite !map_length, seq_length in X.
        eapply Nat.le_trans; [|apply Nat.eq_le_incl; symmetry; exact X]. apply Nat.le_succ_diag_r. }
      assert (Gf : forall x, In x hs -> x <= t1 - t0 -> within A S e (B * eps) (fun h v => fst (as_Phi pr Nf k h v)) x).
      { intros x Hx Hx2. rewrite Forall_forall in Hg, Hpos, Hmax. apply Hf; [|exact Hx2|apply Hg; exact Hx]. specialize (Hpos x Hx). specialize (Hmax x Hx). lra. }
      set (M := INR (length (a_t o'))) in *. assert (HM0 : 0 <= M) by apply pos_INR. assert (PM : 0 <= M * eps) by (apply Rmult_le_pos; assumption).
      assert (Pp : 0 <= H ^ p) by (apply pow_le; lra).
      destruct (Use (d + e) (H ^ p) (M * eps) B (M * (B * eps)) ltac:(lra) Pp PM) as [U1 U2];
        [apply Rmult_le_pos; assumption|apply HFB|right; ring|exact Hde|].
      destruct (H4 (fun h v => fst (as_Phi pr Nf k h v)) H e (B * eps) M hs v d _ _ He0 HBe ltac:(lra) Hd Hnum U1 Hv Hpos Hmax Gf ltac:(lra) Hst) as [G1 G2].
      split; [eapply Forall2_weaken; [|exact G1]; intros t x Hx; cbn beta in Hx; eapply vle_mono; [exact Hx|exact U2]|].
      intros v' Ev. destruct (Hr v' Ev) as [-> <-]. eapply vle_mono; [exact G2|exact U2].
  Qed.
End Rounded.

(** ** One step of the strategies with a 1-D operator *)
(** Arguments of the nonlinear function and results in [if_form_d] and [dp_form] ([SchemeForm.v]). *)
Section Stages.
  Local Open Scope arr_scope.
  Local Open Scope Z_scope.
  Variable A : aops Rops.
  Variable h : T Rops.
  Notation vec := (vec A).
  Definition if_s2 (EL2 u NL1 : vec) : vec := EL2 *v u +v h *s EL2 *v NL1 /z 2.
  Definition if_s3 (EL2 u NL2 : vec) : vec := EL2 *v u +v h *s NL2 /z 2.
  Definition if_s4 (EL EL2 u NL3 : vec) : vec := EL *v u +v h *s EL2 *v NL3.
  Definition if_k (EL EL2 u NL1 NL2 NL3 NL4 : vec) : vec :=
    EL *v u +v h *s (EL *v NL1 /z 6 +v EL2 *v NL2 /z 3 +v EL2 *v NL3 /z 3 +v NL4 /z 6).
  Definition if_err (NL4 NL5 : vec) : vec := h *s (NL4 -v NL5) /z 6.
  Definition if_lam (L : vec) : if_coefs vec := mk_if_coefs (vexp (h *s L)) (vexp ((h *s L) /z 2)).

  Definition dpc (L : vec) : dp_coefs vec (T Rops) := snd (dp_coeffs Rops A L h (as_k0 A IF45DPd)).
  Section DP.
    Variable L : vec.
    Variables u NL1 NL2 NL3 NL4 NL5 NL6 NL7 : vec.
    Notation c := (dpc L).
    Definition dp_s2 : vec := dp_EL15 c *v u +v dp_a21 c *v NL1.
    Definition dp_s3 : vec := dp_EL310 c *v u +v dp_a31 c *v NL1 +v dp_a32 c *v NL2.
    Definition dp_s4 : vec := dp_EL45 c *v u +v dp_a41 c *v NL1 +v dp_a42 c *v NL2 +v dp_a43 c *v NL3.
    Definition dp_s5 : vec := dp_EL89 c *v u +v dp_a51 c *v NL1 +v dp_a52 c *v NL2 +v dp_a53 c *v NL3 +v dp_a54 c *v NL4.
    Definition dp_s6 : vec := dp_EL c *v u +v dp_a61 c *v NL1 +v dp_a62 c *v NL2 +v dp_a63 c *v NL3 +v dp_a64 c *v NL4 +v dp_a65 c *v NL5.
    Definition dp_k : vec := dp_EL c *v u +v dp_a71 c *v NL1 +v dp_a73 c *v NL3 +v dp_a74 c *v NL4 +v dp_a75 c *v NL5 +v dp_a76 c *s NL6.
    Definition dp_err : vec := dp_r1 c *v NL1 +v dp_r3 c *v NL3 +v dp_r4 c *v NL4 +v dp_r5 c *v NL5 +v dp_r6 c *s NL6 +v dp_r7 c *s NL7.
  End DP.
  Section Form.
    Variable N : vec -> vec.
    Variable L u : vec.
    Lemma if_form_stages :
      if_form_d N h (if_lam L) u (N u) =
      let EL := if_EL (if_lam L) in let EL2 := if_EL2 (if_lam L) in
      let NL1 := N u in let NL2 := N (if_s2 EL2 u NL1) in let NL3 := N (if_s3 EL2 u NL2) in let NL4 := N (if_s4 EL EL2 u NL3) in
      let k := if_k EL EL2 u NL1 NL2 NL3 NL4 in (k, if_err NL4 (N k)).
    Proof. reflexivity. Qed.
    Lemma dp_form_stages :
      dp_form N (dpc L) u (N u) =
      let NL1 := N u in let NL2 := N (dp_s2 L u NL1) in let NL3 := N (dp_s3 L u NL1 NL2) in let NL4 := N (dp_s4 L u NL1 NL2 NL3) in
      let NL5 := N (dp_s5 L u NL1 NL2 NL3 NL4) in let NL6 := N (dp_s6 L u NL1 NL2 NL3 NL4 NL5) in
      let k := dp_k L u NL1 NL3 NL4 NL5 NL6 in (k, dp_err L NL1 NL3 NL4 NL5 NL6 (N k)).
    Proof. reflexivity. Qed.
  End Form.
End Stages.

Section StepErrors.
  Variables n q : nat.
  Variable L : nat -> nat -> C.
  Variable lam : cvec.
  Variable N : cvec -> cvec.
  Variables t0 t1 rho K : R.
  Variable u : R -> cvec.
  Variable fd : nat -> R -> cvec.
  Variable J : R -> cvec -> cvec.
  Hypothesis HS : smooth n q L N t0 t1 rho K u fd J.
  Variable kap : R.
  Hypothesis Hkap : 0 <= kap.
  Notation ok := (ok n (Ldiag n lam kap) N t0 t1 rho u kap).
  Notation bnd := (bnd n (Ldiag n lam kap) N t0 t1 rho u kap).
  Notation oh := (oh n (Ldiag n lam kap) N t0 t1 rho u kap).
  Notation tube := (tube n (Ldiag n lam kap) N t0 t1 rho u kap).
  Notation soh := (soh n (Ldiag n lam kap) N t0 t1 rho u kap).
  Notation sbnd := (sbnd n (Ldiag n lam kap) N t0 t1 rho u kap).

  Ltac ok_step := first
    [ eassumption
    | lazymatch goal with
      | |- Rounding.ok _ _ _ _ _ _ _ _ (fun i => vadd (@?x i) (@?y i)) _ => apply ok_add
      | |- Rounding.ok _ _ _ _ _ _ _ _ (fun i => vsub (@?x i) (@?y i)) _ => apply ok_sub
      | |- Rounding.ok _ _ _ _ _ _ _ _ (fun i => vmul (@?x i) (@?y i)) _ => apply ok_mul
      | |- Rounding.ok _ _ _ _ _ _ _ _ (fun i => vscal (@?x i) (@?y i)) _ => apply ok_scal
      | |- Rounding.ok _ _ _ _ _ _ _ _ (fun i => vscalz (@?x i) (@?y i)) _ => apply ok_scal
      | |- Rounding.ok _ _ _ _ _ _ _ _ (fun i => vdivz (@?x i) _) _ => apply ok_divz
      | |- Rounding.ok _ _ _ _ _ _ _ _ (fun i => vexp (@?x i)) _ => apply ok_exp
      end
    | apply (ok_v n q L _ (Ldiag n lam kap) N t0 t1 rho K u fd J HS) | apply ok_L
    | apply sbnd_Z | apply (soh_bnd n q L _ (Ldiag n lam kap) N t0 t1 rho K u fd J HS) | apply soh_h | apply soh_mul | apply soh_mul' | apply soh_div ].
  Ltac ok_tac := repeat ok_step.
  Ltac bnd_tac := match goal with |- Rounding.bnd _ _ _ _ _ _ _ _ _ => eapply ok_bnd end; ok_tac.

  Lemma if_ok :
    ok (fun i => fst (if_form_d (A := Cops) N (i_h i) (if_lam Cops (i_h i) lam) (i_v i) (N (i_v i))))
       (fun i => fst (if_form_d (A := Fops (i_a i)) (i_N i) (i_h i) (if_lam (Fops (i_a i)) (i_h i) (i_L i)) (i_v i) (i_N i (i_v i)))) /\
    ok (fun i => snd (if_form_d (A := Cops) N (i_h i) (if_lam Cops (i_h i) lam) (i_v i) (N (i_v i))))
       (fun i => snd (if_form_d (A := Fops (i_a i)) (i_N i) (i_h i) (if_lam (Fops (i_a i)) (i_h i) (i_L i)) (i_v i) (i_N i (i_v i)))).
  Proof.
    set (EL := fun i : inst cvec => if_EL (if_lam Cops (i_h i) lam)). set (EL2 := fun i : inst cvec => if_EL2 (if_lam Cops (i_h i) lam)).
    set (EL' := fun i : inst cvec => if_EL (if_lam (Fops (i_a i)) (i_h i) (i_L i))). set (EL2' := fun i : inst cvec => if_EL2 (if_lam (Fops (i_a i)) (i_h i) (i_L i))).
    assert (KE : ok EL EL') by (unfold EL, EL', if_lam; cbn [if_EL]; ok_tac).
    assert (KE2 : ok EL2 EL2') by (unfold EL2, EL2', if_lam; cbn [if_EL2]; ok_tac).
    assert (T0 := tube_v n _ (Ldiag n lam kap) N t0 t1 rho u kap). assert (Kv := ok_v n q L _ (Ldiag n lam kap) N t0 t1 rho K u fd J HS kap).
    assert (Bv := ok_bnd n _ (Ldiag n lam kap) N t0 t1 rho u kap _ _ Kv).
    assert (hL := oh_hL n lam N t0 t1 rho u kap Hkap).
    assert (TE : tube (fun i => vmul (A := Cops) (EL i) (i_v i))) by (apply (tube_exp n q L _ (Ldiag n lam kap) N t0 t1 rho K u fd J HS); assumption).
    assert (TE2 : tube (fun i => vmul (A := Cops) (EL2 i) (i_v i))) by (apply (tube_exp n q L _ (Ldiag n lam kap) N t0 t1 rho K u fd J HS); [apply oh_divz; exact hL|assumption|assumption]).
    set (X1 := fun i : inst cvec => N (i_v i)). set (Y1 := fun i : inst cvec => i_N i (i_v i)).
    assert (K1 : ok X1 Y1) by (apply (ok_N n q L _ (Ldiag n lam kap) N t0 t1 rho K u fd J HS kap Hkap); assumption).
    set (X2 := fun i : inst cvec => N (if_s2 Cops (i_h i) (EL2 i) (i_v i) (X1 i))). set (Y2 := fun i : inst cvec => i_N i (if_s2 (Fops (i_a i)) (i_h i) (EL2' i) (i_v i) (Y1 i))).
    assert (K2 : ok X2 Y2).
    { apply (ok_N n q L _ (Ldiag n lam kap) N t0 t1 rho K u fd J HS kap Hkap); unfold if_s2; [ok_tac|]. apply tube_add; [exact TE2|].
      apply oh_divz. apply oh_mul_l; [apply oh_scal; [apply soh_h|bnd_tac]|bnd_tac]. }
    set (X3 := fun i : inst cvec => N (if_s3 Cops (i_h i) (EL2 i) (i_v i) (X2 i))). set (Y3 := fun i : inst cvec => i_N i (if_s3 (Fops (i_a i)) (i_h i) (EL2' i) (i_v i) (Y2 i))).
    assert (K3 : ok X3 Y3).
    { apply (ok_N n q L _ (Ldiag n lam kap) N t0 t1 rho K u fd J HS kap Hkap); unfold if_s3; [ok_tac|]. apply tube_add; [exact TE2|].
      apply oh_divz. apply oh_scal; [apply soh_h|bnd_tac]. }
    set (X4 := fun i : inst cvec => N (if_s4 Cops (i_h i) (EL i) (EL2 i) (i_v i) (X3 i))). set (Y4 := fun i : inst cvec => i_N i (if_s4 (Fops (i_a i)) (i_h i) (EL' i) (EL2' i) (i_v i) (Y3 i))).
    assert (K4 : ok X4 Y4).
    { apply (ok_N n q L _ (Ldiag n lam kap) N t0 t1 rho K u fd J HS kap Hkap); unfold if_s4; [ok_tac|]. apply tube_add; [exact TE|].
      apply oh_mul_l; [apply oh_scal; [apply soh_h|bnd_tac]|bnd_tac]. }
    set (Xk := fun i : inst cvec => if_k Cops (i_h i) (EL i) (EL2 i) (i_v i) (X1 i) (X2 i) (X3 i) (X4 i)).
    set (Yk := fun i : inst cvec => if_k (Fops (i_a i)) (i_h i) (EL' i) (EL2' i) (i_v i) (Y1 i) (Y2 i) (Y3 i) (Y4 i)).
    assert (Kk : ok Xk Yk) by (unfold Xk, Yk, if_k; ok_tac).
    set (X5 := fun i : inst cvec => N (Xk i)). set (Y5 := fun i : inst cvec => i_N i (Yk i)).
    assert (K5 : ok X5 Y5).
    { apply (ok_N n q L _ (Ldiag n lam kap) N t0 t1 rho K u fd J HS kap Hkap); [exact Kk|]. unfold Xk, if_k. apply tube_add; [exact TE|].
      apply oh_scal; [apply soh_h|]. bnd_tac. }
    split; [exact Kk|].
    assert (KF : ok (fun i => if_err Cops (i_h i) (X4 i) (X5 i)) (fun i => if_err (Fops (i_a i)) (i_h i) (Y4 i) (Y5 i))) by (unfold if_err; ok_tac).
    exact KF.
  Qed.

  Ltac dp_open := unfold dp_s2, dp_s3, dp_s4, dp_s5, dp_s6, dp_k, dp_err, dpc, dp_coeffs; cbv zeta;
    cbn [snd dp_EL15 dp_EL310 dp_EL45 dp_EL89 dp_EL dp_a21 dp_a31 dp_a32 dp_a41 dp_a42 dp_a43 dp_a51 dp_a52 dp_a53 dp_a54
      dp_a61 dp_a62 dp_a63 dp_a64 dp_a65 dp_a71 dp_a73 dp_a74 dp_a75 dp_a76 dp_r1 dp_r3 dp_r4 dp_r5 dp_r6 dp_r7].
  Ltac oh_step := lazymatch goal with
      | |- Rounding.tube _ _ _ _ _ _ _ _ (fun i => vadd (@?x i) (@?y i)) => apply tube_add
      | |- Rounding.tube _ _ _ _ _ _ _ _ (fun i => vmul (@?x i) (@?y i)) => apply (tube_exp n q L _ (Ldiag n lam kap) N t0 t1 rho K u fd J HS); [|assumption|assumption]
      | |- Rounding.oh _ _ _ _ _ _ _ _ (fun i => vmul (@?x i) (@?y i)) => apply oh_mul_l
      | |- Rounding.oh _ _ _ _ _ _ _ _ (fun i => vdivz (@?x i) _) => apply oh_divz
      | |- Rounding.oh _ _ _ _ _ _ _ _ (fun i => vscalz _ (@?x i)) => apply oh_scalz
      | |- Rounding.oh _ _ _ _ _ _ _ _ (fun i => vscal (@?x i) (@?y i)) => first [exact (oh_hL n lam N t0 t1 rho u kap Hkap) | apply oh_scal]
      | |- Rounding.soh _ _ _ _ _ _ _ _ _ => first [apply soh_h | apply soh_mul | apply soh_mul' | apply soh_div]
      | |- Rounding.bnd _ _ _ _ _ _ _ _ _ => eapply ok_bnd; ok_tac
      end.
  Ltac oh_tac := repeat oh_step.

  Lemma dp_ok :
    ok (fun i => fst (dp_form (A := Cops) N (dpc Cops (i_h i) lam) (i_v i) (N (i_v i))))
       (fun i => fst (dp_form (A := Fops (i_a i)) (i_N i) (dpc (Fops (i_a i)) (i_h i) (i_L i)) (i_v i) (i_N i (i_v i)))) /\
    ok (fun i => snd (dp_form (A := Cops) N (dpc Cops (i_h i) lam) (i_v i) (N (i_v i))))
       (fun i => snd (dp_form (A := Fops (i_a i)) (i_N i) (dpc (Fops (i_a i)) (i_h i) (i_L i)) (i_v i) (i_N i (i_v i)))).
  Proof.
    assert (T0 := tube_v n _ (Ldiag n lam kap) N t0 t1 rho u kap). assert (Kv := ok_v n q L _ (Ldiag n lam kap) N t0 t1 rho K u fd J HS kap).
    assert (Bv := ok_bnd n _ (Ldiag n lam kap) N t0 t1 rho u kap _ _ Kv).
    set (X1 := fun i : inst cvec => N (i_v i)). set (Y1 := fun i : inst cvec => i_N i (i_v i)).
    assert (K1 : ok X1 Y1) by (apply (ok_N n q L _ (Ldiag n lam kap) N t0 t1 rho K u fd J HS kap Hkap); assumption).
    set (X2 := fun i : inst cvec => N (dp_s2 Cops (i_h i) lam (i_v i) (X1 i))). set (Y2 := fun i : inst cvec => i_N i (dp_s2 (Fops (i_a i)) (i_h i) (i_L i) (i_v i) (Y1 i))).
    assert (K2 : ok X2 Y2) by (apply (ok_N n q L _ (Ldiag n lam kap) N t0 t1 rho K u fd J HS kap Hkap); dp_open; [ok_tac|oh_tac]).
    set (X3 := fun i : inst cvec => N (dp_s3 Cops (i_h i) lam (i_v i) (X1 i) (X2 i))). set (Y3 := fun i : inst cvec => i_N i (dp_s3 (Fops (i_a i)) (i_h i) (i_L i) (i_v i) (Y1 i) (Y2 i))).
    assert (K3 : ok X3 Y3) by (apply (ok_N n q L _ (Ldiag n lam kap) N t0 t1 rho K u fd J HS kap Hkap); dp_open; [ok_tac|oh_tac]).
    set (X4 := fun i : inst cvec => N (dp_s4 Cops (i_h i) lam (i_v i) (X1 i) (X2 i) (X3 i))). set (Y4 := fun i : inst cvec => i_N i (dp_s4 (Fops (i_a i)) (i_h i) (i_L i) (i_v i) (Y1 i) (Y2 i) (Y3 i))).
    assert (K4 : ok X4 Y4) by (apply (ok_N n q L _ (Ldiag n lam kap) N t0 t1 rho K u fd J HS kap Hkap); dp_open; [ok_tac|oh_tac]).
    set (X5 := fun i : inst cvec => N (dp_s5 Cops (i_h i) lam (i_v i) (X1 i) (X2 i) (X3 i) (X4 i))). set (Y5 := fun i : inst cvec => i_N i (dp_s5 (Fops (i_a i)) (i_h i) (i_L i) (i_v i) (Y1 i) (Y2 i) (Y3 i) (Y4 i))).
    assert (K5 : ok X5 Y5) by (apply (ok_N n q L _ (Ldiag n lam kap) N t0 t1 rho K u fd J HS kap Hkap); dp_open; [ok_tac|oh_tac]).
    set (X6 := fun i : inst cvec => N (dp_s6 Cops (i_h i) lam (i_v i) (X1 i) (X2 i) (X3 i) (X4 i) (X5 i))). set (Y6 := fun i : inst cvec => i_N i (dp_s6 (Fops (i_a i)) (i_h i) (i_L i) (i_v i) (Y1 i) (Y2 i) (Y3 i) (Y4 i) (Y5 i))).
    assert (K6 : ok X6 Y6) by (apply (ok_N n q L _ (Ldiag n lam kap) N t0 t1 rho K u fd J HS kap Hkap); dp_open; [ok_tac|oh_tac]).
    set (Xk := fun i : inst cvec => dp_k Cops (i_h i) lam (i_v i) (X1 i) (X3 i) (X4 i) (X5 i) (X6 i)).
    set (Yk := fun i : inst cvec => dp_k (Fops (i_a i)) (i_h i) (i_L i) (i_v i) (Y1 i) (Y3 i) (Y4 i) (Y5 i) (Y6 i)).
    assert (Kk : ok Xk Yk) by (unfold Xk, Yk; dp_open; ok_tac).
    set (X7 := fun i : inst cvec => N (Xk i)). set (Y7 := fun i : inst cvec => i_N i (Yk i)).
    assert (K7 : ok X7 Y7) by (apply (ok_N n q L _ (Ldiag n lam kap) N t0 t1 rho K u fd J HS kap Hkap); [exact Kk|unfold Xk; dp_open; oh_tac]).
    split; [exact Kk|].
    assert (KF : ok (fun i => dp_err Cops (i_h i) lam (X1 i) (X3 i) (X4 i) (X5 i) (X6 i) (X7 i))
                    (fun i => dp_err (Fops (i_a i)) (i_h i) (i_L i) (Y1 i) (Y3 i) (Y4 i) (Y5 i) (Y6 i) (Y7 i))) by (dp_open; ok_tac).
    exact KF.
  Qed.
End StepErrors.

(** ** Runs *)
(** Computed steps within a multiple of [eps] of the method. *)
Lemma ok_within n (lam : cvec) N t0 t1 rho u kap (m : R -> erk) (X Y : inst cvec -> cvec) :
  (forall i, veq (below n) (X i) (erk_step (m (i_h i)) N (i_h i) (i_v i))) -> ok n (Ldiag n lam kap) N t0 t1 rho u kap X Y ->
  exists B h1 e1 O1, 0 <= B /\ 0 < h1 /\ 0 < e1 /\
    forall a eps Om Nf Lf h t v, rounds a eps Om -> 0 <= eps <= e1 -> O1 <= Om -> computes_near n u N t0 t1 rho kap eps Nf ->
      vle n (csub Lf lam) (kap * eps) -> 0 < h <= h1 -> h <= t1 - t0 -> t0 <= t <= t1 -> vle n (csub v (u t)) (rho / 4) ->
      vle n (csub (Y (mk_inst t h v a eps Om Nf Lf)) (erk_step (m h) N h v)) (B * eps).
Proof.
  intros HX (B & A & HB & HA & h1 & e1 & O1 & Hh & He & H). exists A, h1, e1, O1. split; [exact HA|]. split; [exact Hh|]. split; [exact He|].
  intros a eps Om Nf Lf h t v Ha Heps HO HN HL Hh1 Hh2 Ht Hv.
  assert (V : valid n (Ldiag n lam kap) N t0 t1 rho u kap (mk_inst t h v a eps Om Nf Lf)).
  { split; cbn [i_t i_h i_v i_a i_eps i_Om i_N i_L]; try assumption; lra. }
  specialize (H _ V (proj2 Hh1) (proj2 Heps) HO). intros j Hj. specialize (HX (mk_inst t h v a eps Om Nf Lf) j Hj).
  cbn [i_h i_v] in HX. unfold csub. rewrite <- HX. apply (H j Hj).
Qed.

(** An exact problem with the linear part [L]. *)
Definition exact_problem (L : cvec) (cfg : etdcfg Rops) : problem Cops unit :=
  mk_problem (A := Cops) (fun v w => (inr v, w)) 0 L (fun _ _ => RtoC 0) cfg (fun M => inr M) (fun M => inr M) (fun _ _ => RtoC 0) (fun _ _ => RtoC 0) L.
(** The law of a tableau for a diagonal operator. *)
Lemma law_diag n (L : cvec) q N t0 t1 rho K u fd J : smooth n q (dmat L) N t0 t1 rho K u fd J -> forall tb h v,
  veq (below n) (lawson tb (dflow L) N h v) (erk_step (law_erk tb (mflow n (dexp L)) h) N h v).
Proof.
  intros HS tb h v. rewrite (veq_all _ _ (lawson_if_step all (dflow L) N (dflow_flow L) (respects_all N) tb h v)).
  rewrite <- law_erk_step. apply (erk_step_ext (below n) N (so_N _ _ _ _ _ _ _ _ _ _ _ HS)); [|reflexivity].
  apply law_erk_eq. intros t a b Hab i Hi. rewrite (dexp_dflow n L t b i Hi). unfold dflow. rewrite (Hab i Hi). reflexivity.
Qed.

Theorem C78_if4_if34 :
  forall n (L : cvec) N t0 t1 rho K u f J, smooth n 4 (dmat L) N t0 t1 rho K u f J -> forall kap, 0 <= kap ->
  exists C h0 r0 e0 O0, 0 <= C /\ 0 < h0 /\ 0 < r0 /\ 0 < e0 /\
    forall a eps Om, rounds a eps Om -> 0 <= eps <= e0 -> O0 <= Om ->
    forall W (p : problem (Fops a) W) Nf, (forall v w y w', p_nl p v w = (inr y, w') -> y = Nf v) ->
      computes_near n u N t0 t1 rho kap eps Nf -> vle n (csub (p_vec p) L) (kap * eps) ->
      cs_rclaim n t0 t1 u 4 C h0 r0 p IF4d 0 eps /\ as_rclaim n t0 t1 u 4 C h0 r0 p IF34d 0 eps.
Proof.
  intros n L N t0 t1 rho K u f J HS kap Hkap. assert (HF := dexp_flow n L).
  destruct (law_close n (dmat L) (dexp L) HF RK4 (t1 - t0)) as (A & S & HA & Hcl).
  { cbn [RK4 tb_c]. repeat constructor; unfold Q2R; cbn; lra. }
  assert (Hloc : bigO n R (adm t0 t1) 5 (fun t h => csub (erk_step (law_erk RK4 (mflow n (dexp L)) h) N h (u t)) (u (t + h)))).
  { eapply O_ext; [|exact (rk4_local n 4 (dmat L) (dexp L) N t0 t1 rho K u f J HF HS ltac:(lia))].
    intros t h _ i Hi. cbn beta. unfold csub. rewrite (lawson_erk n (dmat L) (dexp L) HF N t0 t1 rho K u f J HS RK4 h (u t) i Hi). reflexivity. }
  set (p0 := exact_problem L (mk_etdcfg (F := Rops) 1 1%nat 1)).
  assert (EX : forall i : inst cvec, veq (below n) (fst (if_form_d (A := Cops) N (i_h i) (if_lam Cops (i_h i) L) (i_v i) (N (i_v i))))
                   (erk_step (law_erk RK4 (mflow n (dexp L)) (i_h i)) N (i_h i) (i_v i))).
  { intros i. rewrite <- (law_diag n L 4 N t0 t1 rho K u f J HS RK4 (i_h i) (i_v i)).
    assert (X := C32_if4_diagonal unit p0 N (i_h i) (i_v i)). change (p_vec p0) with L in X. rewrite <- X.
    rewrite (cs_Phi_form p0 N IF4d (i_h i) (c := if_lam Cops (i_h i) L) (i_v i) eq_refl). reflexivity. }
  destruct (ok_within n L N t0 t1 rho u kap (law_erk RK4 (mflow n (dexp L))) _ _ EX (proj1 (if_ok n 4 (dmat L) L N t0 t1 rho K u f J HS kap Hkap)))
    as (B & h1 & e1 & O1 & HB & Hh1 & He1 & HW).
  destruct (rounded_runs n 4 (dmat L) N t0 t1 rho K u f J HS (law_erk RK4 (mflow n (dexp L))) 4 ltac:(lia) Hloc A S B HA HB) as (C & h0 & r0 & H1 & H2 & H3 & H4).
  exists C, (Rmin h0 h1), r0, e1, O1. split; [exact H1|]. split; [apply Rmin_glb_lt; assumption|]. split; [exact H3|]. split; [exact He1|].
  intros a eps Om Ha He HO W p Nf Hp HN HL.
  assert (M1 := Rmin_l h0 h1). assert (M2 := Rmin_r h0 h1).
  destruct (H4 a W p Nf 0 eps (Rmin h0 h1) Hp (Rle_refl 0) (proj1 He) M1) as [G1 G2]. split; [apply G1|apply G2]; intros h Hh Hh' _; exists (law_erk RK4 (mflow n (dexp L)) h); (split; [apply Hcl; lra|]); intros t v Ht Hv.
  - assert (X := HW a eps Om Nf (p_vec p) h t v Ha He HO HN HL ltac:(lra) Hh' Ht Hv). cbn [i_h i_v i_a i_N i_L] in X.
    rewrite (cs_Phi_form p Nf IF4d h (c := if_lam (Fops a) h (p_vec p)) v eq_refl). exact X.
  - assert (X := HW a eps Om Nf (p_vec p) h t v Ha He HO HN HL ltac:(lra) Hh' Ht Hv). cbn [i_h i_v i_a i_N i_L] in X.
    rewrite (as_Phi_form p Nf IF34d h (c := if_lam (Fops a) h (p_vec p)) v eq_refl). exact X.
Qed.

Theorem C78_if45dp :
  forall n (L : cvec) N t0 t1 rho K u f J J1, smooth n 5 (dmat L) N t0 t1 rho K u f J -> Jsmooth n t0 t1 K J J1 -> forall kap, 0 <= kap ->
  exists C h0 r0 e0 O0, 0 <= C /\ 0 < h0 /\ 0 < r0 /\ 0 < e0 /\
    forall a eps Om, rounds a eps Om -> 0 <= eps <= e0 -> O0 <= Om ->
    forall W (p : problem (Fops a) W) Nf, (forall v w y w', p_nl p v w = (inr y, w') -> y = Nf v) ->
      computes_near n u N t0 t1 rho kap eps Nf -> vle n (csub (p_vec p) L) (kap * eps) ->
      as_rclaim n t0 t1 u 5 C h0 r0 p IF45DPd 0 eps.
Proof.
  intros n L N t0 t1 rho K u f J J1 HS HJ kap Hkap. assert (HF := dexp_flow n L).
  assert (HT : 0 <= t1 - t0) by (assert (X := so_time _ _ _ _ _ _ _ _ _ _ _ HS); lra).
  destruct (law_close n (dmat L) (dexp L) HF DP5 (t1 - t0)) as (A & S & HA & Hcl).
  { cbn [DP5 tb_c]. repeat constructor; unfold Q2R; cbn; lra. }
  assert (Hloc := dp5_local n 5 (dmat L) (dexp L) N t0 t1 rho K u f J J1 (dPHI L) HF HS HJ (diag_family n L _ HT) ltac:(lia)).
  set (p0 := exact_problem L (mk_etdcfg (F := Rops) 1 1%nat 1)).
  assert (EX : forall i : inst cvec, veq (below n) (fst (dp_form (A := Cops) N (dpc Cops (i_h i) L) (i_v i) (N (i_v i))))
                   (erk_step (law_erk DP5 (mflow n (dexp L)) (i_h i)) N (i_h i) (i_v i))).
  { intros i. rewrite <- (law_diag n L 5 N t0 t1 rho K u f J HS DP5 (i_h i) (i_v i)).
    assert (X := C34_if45dp_candidate unit p0 N (i_h i) (i_v i)). change (p_vec p0) with L in X. rewrite <- X.
    rewrite (as_Phi_form p0 N IF45DPd (i_h i) (c := dpc Cops (i_h i) L) (i_v i) eq_refl). reflexivity. }
  destruct (ok_within n L N t0 t1 rho u kap (law_erk DP5 (mflow n (dexp L))) _ _ EX (proj1 (dp_ok n 5 (dmat L) L N t0 t1 rho K u f J HS kap Hkap)))
    as (B & h1 & e1 & O1 & HB & Hh1 & He1 & HW).
  destruct (rounded_runs n 5 (dmat L) N t0 t1 rho K u f J HS (law_erk DP5 (mflow n (dexp L))) 5 ltac:(lia) Hloc A S B HA HB) as (C & h0 & r0 & H1 & H2 & H3 & H4).
  exists C, (Rmin h0 h1), r0, e1, O1. split; [exact H1|]. split; [apply Rmin_glb_lt; assumption|]. split; [exact H3|]. split; [exact He1|].
  intros a eps Om Ha He HO W p Nf Hp HN HL.
  assert (M1 := Rmin_l h0 h1). assert (M2 := Rmin_r h0 h1).
  destruct (H4 a W p Nf 0 eps (Rmin h0 h1) Hp (Rle_refl 0) (proj1 He) M1) as [_ G2]. apply G2. intros h Hh Hh' _; exists (law_erk DP5 (mflow n (dexp L)) h); (split; [apply Hcl; lra|]); intros t v Ht Hv.
  assert (X := HW a eps Om Nf (p_vec p) h t v Ha He HO HN HL ltac:(lra) Hh' Ht Hv). cbn [i_h i_v i_a i_N i_L] in X.
  rewrite (as_Phi_form p Nf IF45DPd h (c := dpc (Fops a) h (p_vec p)) v eq_refl). exact X.
Qed.

(** The formulas of numpy for complex128, rounded to nearest in binary64, are such an arithmetic. *)
Theorem C78_binary64 : rounds b64c (Flocq.Core.Raux.bpow Flocq.Core.Zaux.radix2 (-46)) (Flocq.Core.Raux.bpow Flocq.Core.Zaux.radix2 500).
Proof. exact b64_rounds. Qed.

(** The logistic equation [u' = -u + u^2] in a format of [prec] bits; binary64 is [rlogistic (-1074) 53]. *)
Definition rlogistic (emin prec : Z) : problem (Fops (fmtc emin prec)) unit :=
  mk_problem (A := Fops (fmtc emin prec)) (fun (v : cvec) w => (inr (fun i => fl_mul (fmtc emin prec) (v i) (v i)), w)) 1 (fun _ => RtoC (-1)) (fun _ _ => RtoC (-1))
    (mk_etdcfg (F := Rops) 1 32%nat (1 / 100)) (fun M => inr M) (fun M => inr M) (fun _ _ => RtoC 1) (fun _ _ => RtoC 1) (fun _ => RtoC (-1)).
Lemma rlogistic_near emin prec eps Om : rounds (fmtc emin prec) eps Om -> 0 <= eps -> 4 <= Om ->
  computes_near 1 lgu lgN 0 1 1 5 eps (fun v i => fl_mul (fmtc emin prec) (v i) (v i)).
Proof.
  intros HR He HO t w Ht Hw i Hi. specialize (Hw i Hi). unfold csub in *. unfold lgN.
  assert (G := lg_range t). assert (U : Cmod (lgu t i) <= 1) by (unfold lgu; rewrite Cmod_R, Rabs_pos_eq; lra).
  assert (W : Cmod (w i) <= 2) by (eapply Rle_trans; [apply (Cmod_le_diff _ _ _ _ U Hw)|lra]).
  assert (W2 : Cmod (w i * w i)%C <= 4) by (rewrite Cmod_mult; replace 4 with (2 * 2) by ring; apply Rmult_le_compat; try apply Cmod_ge_0; assumption).
  eapply Rle_trans; [apply (ro_mul _ _ _ HR); lra|]. replace (5 * eps) with (eps * 5) by ring. apply Rmult_le_compat_l; lra.
Qed.
(** Binary64 is an instance, and so are all formats of larger precision; in fine and wide ones the runs of the model are accurate. *)
Example C78_not_vacuous :
  smooth 1 5 (dmat (fun _ => RtoC (-1))) lgN 0 1 1 5000 lgu lgf lgJ /\ Jsmooth 1 0 1 5000 lgJ lgJ1 /\
  exists C h0 r0, 0 <= C /\ 0 < h0 /\ 0 < r0 /\ forall e, 0 < e -> exists emin prec eps, 0 < eps <= e /\
    cs_rclaim 1 0 1 lgu 4 C h0 r0 (rlogistic emin prec) IF4d 0 eps /\ as_rclaim 1 0 1 lgu 4 C h0 r0 (rlogistic emin prec) IF34d 0 eps.
Proof.
  split; [exact lg_smooth|]. split; [exact lg_J|].
  destruct (C78_if4_if34 1 (fun _ => RtoC (-1)) lgN 0 1 1 5000 lgu lgf lgJ (smooth_weak 1 5 4 _ _ _ _ _ _ _ _ _ ltac:(lia) lg_smooth) 5 ltac:(lra)) as (C & h0 & r0 & e0 & O0 & H1 & H2 & H3 & H4 & H5).
  exists C, h0, r0. split; [exact H1|]. split; [exact H2|]. split; [exact H3|]. intros e He.
  destruct (fmt_any (Rmin e e0) (Rmax 4 O0) ltac:(apply Rmin_glb_lt; assumption)) as (emin & prec & eps & Om & _ & HR & Heps & HOm).
  assert (M1 := Rmin_l e e0). assert (M2 := Rmin_r e e0). assert (M3 := Rmax_l 4 O0). assert (M4 := Rmax_r 4 O0).
  exists emin, prec, eps. split; [lra|].
  apply (H5 (fmtc emin prec) eps Om HR ltac:(lra) ltac:(lra) unit (rlogistic emin prec) (fun v i => fl_mul (fmtc emin prec) (v i) (v i))).
  - intros v w y w' E. cbn [p_nl rlogistic] in E. congruence.
  - apply (rlogistic_near emin prec eps Om HR); lra.
  - intros i Hi. unfold csub. cbn [p_vec rlogistic]. replace (RtoC (-1) - RtoC (-1))%C with (RtoC 0) by ring. rewrite Cmod_0. lra.
Qed.

Print Assumptions C78_if4_if34.
Print Assumptions C78_if45dp.
Print Assumptions C78_binary64.
