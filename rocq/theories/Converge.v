(** * Accumulation of local errors

    Spec file: local errors [O(h^(p+1))] of a method near a smooth solution add up to a global
    error [O(H^p)] over any sequence of steps of size at most [H], also when the coefficients are
    slightly wrong and the starting value is slightly off. *)

From Coq Require Import ZArith List Bool Reals Lra Lia QArith Qreals FunctionalExtensionality Setoid Morphisms.
From Coquelicot Require Import Complex.
From Verif Require Import CInst SpecRK SpecERK SchemeIFReal Asym Solution Stable.
Import ListNotations.
Local Open Scope R_scope.

(** Successive steps, and the time they take. *)
Fixpoint run (Phi : R -> cvec -> cvec) (hs : list R) (v : cvec) : cvec :=
  match hs with [] => v | h :: hs => run Phi hs (Phi h v) end.
Definition total (hs : list R) : R := fold_right Rplus 0 hs.

Lemma exp_ge_1 x : 0 <= x -> 1 + x <= exp x.
Proof. intros [H| <-]; [left; apply exp_ineq1; lra|rewrite exp_0; lra]. Qed.

(** The discrete Gronwall lemma along a solution. *)
Lemma gronwall n (u : R -> cvec) (Phi : R -> cvec -> cvec) (t0 tf r C D : R) (ok : R -> Prop) : 0 <= C -> 0 <= D ->
  (forall t h v x, ok h -> 0 < h -> t0 <= t -> t + h <= tf -> 0 <= x <= r -> vle n (csub v (u t)) x ->
     vle n (csub (Phi h v) (u (t + h))) ((1 + C * h) * x + h * D)) ->
  forall hs t v x, Forall (fun h => ok h /\ 0 < h) hs -> t0 <= t -> t + total hs <= tf -> 0 <= x ->
    exp (C * (tf - t)) * (x + (tf - t) * D) <= r -> vle n (csub v (u t)) x ->
    vle n (csub (run Phi hs v) (u (t + total hs))) (exp (C * total hs) * (x + total hs * D)).
Proof.
  intros HC HD Hstep. induction hs as [|h hs IH]; intros t v x Hall Ht0 Ht Hx Hr Hv.
  - cbn [run total fold_right]. rewrite Rplus_0_r, Rmult_0_r, exp_0, Rmult_0_l, Rplus_0_r, Rmult_1_l. exact Hv.
  - inversion Hall as [|? ? [Hok Hh] Hall']; subst. cbn [run total fold_right] in *. fold (total hs) in *.
    assert (HT : 0 <= total hs).
    { clear - Hall'. induction Hall' as [|a l [_ Ha] _ IH]; cbn [total fold_right]; [lra|]. unfold total in *. lra. }
    set (s := total hs) in *.
    assert (E1 := exp_ge_1 (C * h) ltac:(apply Rmult_le_pos; lra)).
    assert (P1 : 0 <= h * D) by (apply Rmult_le_pos; lra).
    assert (PC : 0 <= C * h) by (apply Rmult_le_pos; lra).
    set (x' := (1 + C * h) * x + h * D).
    assert (X0 : 0 <= x'). { unfold x'. assert (0 <= (1 + C * h) * x) by (apply Rmult_le_pos; lra). lra. }
    assert (X1 : x' <= exp (C * h) * (x + h * D)).
    { unfold x'. assert ((1 + C * h) * x <= exp (C * h) * x) by (apply Rmult_le_compat_r; lra).
      assert (1 * (h * D) <= exp (C * h) * (h * D)) by (apply Rmult_le_compat_r; lra). lra. }
    assert (Xs : forall w, 0 <= w -> x' + w * D <= exp (C * h) * (x + (h + w) * D)).
    { intros w Hw. assert (0 <= w * D) by (apply Rmult_le_pos; assumption).
      assert (1 * (w * D) <= exp (C * h) * (w * D)) by (apply Rmult_le_compat_r; lra). lra. }
    assert (Hxr : x <= r).
    { assert (E2 := exp_ge_1 (C * (tf - t)) ltac:(apply Rmult_le_pos; lra)).
      assert (Pt : 0 <= (tf - t) * D) by (apply Rmult_le_pos; lra). assert (PE : 0 <= C * (tf - t)) by (apply Rmult_le_pos; lra).
      assert (1 * (x + (tf - t) * D) <= exp (C * (tf - t)) * (x + (tf - t) * D)) by (apply Rmult_le_compat_r; lra). lra. }
    assert (G := IH (t + h) (Phi h v) x' Hall' ltac:(lra) ltac:(lra) X0).
    assert (Hr' : exp (C * (tf - (t + h))) * (x' + (tf - (t + h)) * D) <= r).
    { eapply Rle_trans; [|exact Hr]. assert (PE := exp_pos (C * (tf - (t + h)))).
      apply Rle_trans with (exp (C * (tf - (t + h))) * (exp (C * h) * (x + (h + (tf - (t + h))) * D))).
      - apply Rmult_le_compat_l; [lra|]. apply Xs. lra.
      - rewrite <- Rmult_assoc, <- exp_plus. right. f_equal; [f_equal|]; ring. }
    specialize (G Hr' (Hstep t h v x Hok Hh Ht0 ltac:(lra) (conj Hx Hxr) Hv)).
    replace (t + (h + s)) with (t + h + s) by ring. eapply vle_mono; [exact G|].
    assert (PE := exp_pos (C * s)).
    apply Rle_trans with (exp (C * s) * (exp (C * h) * (x + (h + s) * D))).
    + apply Rmult_le_compat_l; [lra|]. apply Xs. exact HT.
    + rewrite <- Rmult_assoc, <- exp_plus. right. f_equal. f_equal. ring.
Qed.

Section Global.
  Variables n q : nat.
  Variable L : nat -> nat -> C.
  Variable N : cvec -> cvec.
  Variables t0 tf rho K : R.
  Variable u : R -> cvec.
  Variable f : nat -> R -> cvec.
  Variable J : R -> cvec -> cvec.
  Hypothesis HS : smooth n q L N t0 tf rho K u f J.
  (** A method with local error [O(h^(p+1))] on the solution; bounds on its coefficients. *)
  Variable m : R -> erk.
  Variable p : nat.
  Hypothesis Hp : (0 < p)%nat.
  Hypothesis Hloc : bigO n R (adm t0 tf) (S p) (fun t h => csub (erk_step (m h) N h (u t)) (u (t + h))).

  (** [Phi] takes steps with a method whose coefficients differ from those of [m] by at most [e]. *)
  Definition follows (A : R) (S : nat) (e : R) (Phi : R -> cvec -> cvec) (h : R) : Prop :=
    exists m', erk_close n A S h e (m h) m' /\ forall v, veq (below n) (Phi h v) (erk_step m' N h v).

  Theorem accumulate A S : 0 <= A -> exists C h0 r0, 0 <= C /\ 0 < h0 /\ 0 < r0 /\
    forall Phi hs H v d e, 0 <= d -> 0 <= e -> 0 <= H -> H <= h0 -> d + e <= r0 ->
      Forall (fun h => 0 < h <= H /\ follows A S e Phi h) hs -> t0 + total hs <= tf -> vle n (csub v (u t0)) d ->
      vle n (csub (run Phi hs v) (u (t0 + total hs))) (C * (d + e + H ^ p)).
  Proof.
    intros HA. destruct Hloc as (CL & hL & HCL & HhL & HL).
    assert (HK := so_K _ _ _ _ _ _ _ _ _ _ _ HS). assert (Hrho := so_rho _ _ _ _ _ _ _ _ _ _ _ HS).
    assert (HT := so_time _ _ _ _ _ _ _ _ _ _ _ HS).
    set (C1 := Cst A K rho S). assert (HC1 : 0 <= C1) by (apply Cst_pos; assumption).
    set (hm := hmax A K rho S). assert (Hhm : 0 < hm) by (apply hmax_pos; assumption).
    set (T := tf - t0). set (X := exp (C1 * T)). assert (HX : 0 < X) by apply exp_pos.
    (* the error is at most X (d + T (C1 e + CL H^p)) *)
    set (C := X * (1 + T * (C1 + CL))).
    assert (HTC : 0 <= T * (C1 + CL)) by (apply Rmult_le_pos; unfold T; lra).
    assert (HC : 0 < C) by (apply Rmult_lt_0_compat; lra).
    (* step size such that C H^(p) <= rho / 4 *)
    assert (Hstep : exists hp, 0 < hp /\ forall H, 0 <= H <= hp -> C * H ^ p <= rho / 4).
    { exists (Rmin 1 (rho / 4 / C)). split; [apply Rmin_glb_lt; [lra|apply Rdiv_lt_0_compat; lra]|].
      intros H [H1 H2]. assert (M1 := Rmin_l 1 (rho / 4 / C)). assert (M2 := Rmin_r 1 (rho / 4 / C)).
      destruct p as [|p']; [lia|]. cbn [pow].
      assert (P1 : H ^ p' <= 1). { rewrite <- (pow1 p'). apply pow_incr. lra. }
      assert (P0 : 0 <= H ^ p') by (apply pow_le; lra).
      apply Rle_trans with (C * (rho / 4 / C * 1)); [|right; field; lra].
      apply Rmult_le_compat_l; [lra|]. apply Rmult_le_compat; lra. }
    destruct Hstep as (hp & Hhp & Hsmall).
    exists C, (Rmin (Rmin hL hm) hp), (Rmin 1 (rho / 4 / C)).
    split; [lra|]. split; [apply Rmin_glb_lt; [apply Rmin_glb_lt|]; lra|]. split; [apply Rmin_glb_lt; [lra|apply Rdiv_lt_0_compat; lra]|].
    intros Phi hs H v d e Hd He HH HHh Hde Hall Htot Hv.
    assert (M1 := Rmin_l (Rmin hL hm) hp). assert (M2 := Rmin_r (Rmin hL hm) hp).
    assert (M3 := Rmin_l hL hm). assert (M4 := Rmin_r hL hm).
    assert (M5 := Rmin_l 1 (rho / 4 / C)). assert (M6 := Rmin_r 1 (rho / 4 / C)).
    set (D := C1 * e + CL * H ^ p).
    assert (PH : 0 <= H ^ p) by (apply pow_le; lra).
    assert (HD : 0 <= D). { unfold D. assert (0 <= C1 * e) by (apply Rmult_le_pos; lra). assert (0 <= CL * H ^ p) by (apply Rmult_le_pos; lra). lra. }
    assert (HDC : d + T * D <= (1 + T * (C1 + CL)) * (d + e + H ^ p)).
    { unfold D. assert (0 <= T) by (unfold T; lra).
      assert (0 <= T * (C1 + CL) * d) by (apply Rmult_le_pos; assumption).
      assert (0 <= T * C1 * H ^ p) by (apply Rmult_le_pos; [apply Rmult_le_pos; lra|exact PH]).
      assert (0 <= T * CL * e) by (apply Rmult_le_pos; [apply Rmult_le_pos; lra|exact He]).
      lra. }
    assert (Hstep : forall t h w x, (0 < h <= H /\ follows A S e Phi h) -> 0 < h -> t0 <= t -> t + h <= tf -> 0 <= x <= rho / 2 -> vle n (csub w (u t)) x ->
              vle n (csub (Phi h w) (u (t + h))) ((1 + C1 * h) * x + h * D)).
    { intros t h w x (Hh & m' & Hclose & Heq) _ Ht0 Ht Hx Hw.
      assert (Htt : t0 <= t <= tf) by lra.
      assert (P := erk_pert n N A K rho S HA HK Hrho (u t) (so_u _ _ _ _ _ _ _ _ _ _ _ HS t Htt)).
      assert (HN : vle n (N (u t)) K).
      { apply (vle_ext n (f 0%nat t)); [apply (so_f0 _ _ _ _ _ _ _ _ _ _ _ HS); exact Htt|].
        apply (so_bnd _ _ _ _ _ _ _ _ _ _ _ HS); [lia|exact Htt]. }
      specialize (P HN (fun v w x => fun Hx Hv Hw => so_lip _ _ _ _ _ _ _ _ _ _ _ HS t v w x Htt Hx Hv Hw) h e).
      assert (Hself : vle n (csub (u t) (u t)) (rho / 2)).
      { apply (vle_mono n _ 0); [apply vle_eq_0; reflexivity|lra]. }
      assert (Hw2 : vle n (csub w (u t)) (rho / 2)) by (apply (vle_mono n _ x); [exact Hw|lra]).
      specialize (P ltac:(lra) ltac:(unfold hm in *; lra) ltac:(lra) (u t) w x Hself Hw2 (proj1 Hx) (vle_sym n _ _ _ Hw) (m h) m' Hclose).
      assert (Q := HL t h (conj Ht0 (conj (proj1 Hh) Ht)) ltac:(lra)).
      assert (P' : vle n (csub (Phi h w) (erk_step (m h) N h (u t))) ((1 + C1 * h) * x + C1 * h * e)).
      { apply vle_sym. eapply vle_ext; [|exact P]. apply csub_proper; [reflexivity|]. symmetry. apply Heq. }
      eapply vle_mono; [apply (vle_trans n _ _ _ _ _ P' Q)|]. unfold D. cbn [pow].
      assert (PP : h ^ p <= H ^ p) by (apply pow_incr; lra).
      assert (CL * (h * h ^ p) <= CL * (h * H ^ p)) by (apply Rmult_le_compat_l; [exact HCL|]; apply Rmult_le_compat_l; lra).
      lra. }
    assert (Bound : X * (d + T * D) <= C * (d + e + H ^ p)).
    { unfold C. rewrite Rmult_assoc. apply Rmult_le_compat_l; [lra|exact HDC]. }
    assert (Small : C * (d + e + H ^ p) <= rho / 2).
    { assert (S1 := Hsmall H ltac:(lra)).
      assert (S2 : C * (d + e) <= C * (rho / 4 / C)) by (apply Rmult_le_compat_l; lra).
      replace (C * (rho / 4 / C)) with (rho / 4) in S2 by (field; lra). lra. }
    assert (Hall' : Forall (fun h => (0 < h <= H /\ follows A S e Phi h) /\ 0 < h) hs).
    { eapply Forall_impl; [|exact Hall]. intros h Hh. split; [exact Hh|apply Hh]. }
    assert (HT' : 0 <= total hs).
    { clear - Hall. induction Hall as [|a l [Ha _] _ IH]; cbn [total fold_right]; [lra|]. unfold total in *. lra. }
    assert (G := gronwall n u Phi t0 tf (rho / 2) C1 D (fun h => 0 < h <= H /\ follows A S e Phi h) HC1 HD Hstep hs t0 v d Hall' (Rle_refl _) Htot Hd).
    fold T in G. fold X in G. specialize (G ltac:(lra) Hv). eapply vle_mono; [exact G|].
    apply Rle_trans with (X * (d + T * D)); [|exact Bound].
    assert (0 <= total hs * D) by (apply Rmult_le_pos; assumption).
    apply Rmult_le_compat; [left; apply exp_pos|lra| |].
    - unfold X. destruct (Req_dec (C1 * total hs) (C1 * T)) as [E|E]; [rewrite E; lra|]. left. apply exp_increasing.
      assert (C1 * total hs <= C1 * T) by (apply Rmult_le_compat_l; unfold T; lra). lra.
    - assert (total hs * D <= T * D) by (apply Rmult_le_compat_r; unfold T; lra). lra.
  Qed.
End Global.

(** ** Integrating-factor methods as exponential Runge-Kutta methods *)
Definition law_row (Phi : R -> op) (h c : R) (qs cs : list Q) : list op :=
  map (fun qc => oscal (Q2R (fst qc)) (Phi ((c - Q2R (snd qc)) * h))) (combine qs cs).
Definition law_erk (tb : tableau) (Phi : R -> op) (h : R) : erk :=
  mk_erk (map (fun c => Phi (Q2R c * h)) (tb_c tb))
         (map (fun rc => law_row Phi h (Q2R (snd rc)) (fst rc) (tb_c tb)) (combine (tb_a tb) (tb_c tb)))
         (Phi (1 * h)) (law_row Phi h 1 (tb_b tb) (tb_c tb)).

Lemma law_comb Phi h c : forall qs cs rest vs, length vs = length cs ->
  ocomb (law_row Phi h c qs (cs ++ rest)) vs = if_comb Phi h c qs (combine cs vs).
Proof.
  induction qs as [|q qs IH]; intros cs rest vs Hl; [reflexivity|].
  destruct cs as [|c0 cs], vs as [|v vs]; try discriminate.
  - cbn [combine if_comb]. destruct (law_row Phi h c (q :: qs) ([] ++ rest)); reflexivity.
  - cbn [app law_row combine map ocomb if_comb fst snd]. fold (law_row Phi h c qs (cs ++ rest)). rewrite IH by (cbn in Hl; lia). reflexivity.
Qed.
Lemma law_stages Phi N h u : forall rows cs done vs, length vs = length done ->
  exists vs', erk_stages N h u (map (fun c => Phi (Q2R c * h)) cs)
               (map (fun rc => law_row Phi h (Q2R (snd rc)) (fst rc) (done ++ cs)) (combine rows cs)) vs = vs' /\
    if_stages Phi N h u rows cs (combine done vs) = combine (firstn (length vs') (done ++ cs)) vs' /\
    (length vs' <= length (done ++ cs))%nat.
Proof.
  induction rows as [|row rows IH]; intros cs done vs Hl.
  - destruct cs as [|c cs].
    + cbn. exists vs. rewrite app_nil_r. split; [reflexivity|]. split; [rewrite Hl, firstn_all; reflexivity|lia].
    + cbn. exists vs. split; [reflexivity|]. split; [|rewrite app_length; lia].
      rewrite firstn_app, Hl, firstn_all, Nat.sub_diag, firstn_O, app_nil_r. reflexivity.
  - destruct cs as [|c cs].
    + cbn. exists vs. rewrite app_nil_r. split; [reflexivity|]. split; [rewrite Hl, firstn_all; reflexivity|lia].
    + cbn [map combine erk_stages if_stages fst snd].
      set (v := N (erk_value h u (Phi (Q2R c * h)) (law_row Phi h (Q2R c) row (done ++ c :: cs)) vs)).
      assert (Ev : N (if_value Phi h (Q2R c) row (combine done vs) u) = v).
      { unfold v, erk_value, if_value. rewrite (law_comb Phi h (Q2R c) row done (c :: cs) vs Hl). reflexivity. }
      rewrite Ev. destruct (IH cs (done ++ [c]) (vs ++ [v])) as (vs' & H1 & H2 & H3).
      { rewrite !app_length. cbn. lia. }
      exists vs'. rewrite <- app_assoc in H1, H2, H3. cbn [app] in H1, H2, H3. split; [exact H1|]. split; [|exact H3].
      rewrite <- H2. f_equal. clearbody v. clear - Hl. revert vs Hl. induction done as [|d done IH]; intros [|v0 vs] Hl; try discriminate; [reflexivity|].
      cbn in *. rewrite IH by lia. reflexivity.
Qed.
Lemma law_erk_step tb Phi N h u : erk_step (law_erk tb Phi h) N h u = if_step tb Phi N h u.
Proof.
  unfold erk_step, if_step, law_erk. cbn [er_E er_a er_E1 er_b].
  destruct (law_stages Phi N h u (tb_a tb) (tb_c tb) [] [] eq_refl) as (vs & H1 & H2 & H3).
  cbn [app combine] in H1, H2, H3. rewrite H1, H2. unfold erk_value, if_value. do 2 f_equal.
  rewrite <- (firstn_skipn (length vs) (tb_c tb)) at 1. apply law_comb. rewrite firstn_length. lia.
Qed.

Lemma Forall2_self {T} (P : T -> T -> Prop) l : Forall (fun x => P x x) l -> Forall2 P l l.
Proof. induction 1; constructor; assumption. Qed.

Section LawClose.
  Variable n : nat.
  Variable L : nat -> nat -> C.
  Variable Ex : R -> nat -> nat -> C.
  Hypothesis HF : matflow n L Ex.
  Notation E := (mflow n Ex).

  (** Coefficients of a tableau with abscissae in [0,1] are bounded. *)
  Lemma law_close tb T : Forall (fun c => 0 <= Q2R c <= 1) (tb_c tb) ->
    exists A S, 0 <= A /\ forall h, 0 < h <= T -> erk_close n A S h 0 (law_erk tb E h) (law_erk tb E h).
  Proof.
    intros Hc. destruct (flow_bound n L Ex HF T) as (M & HM & HE). destruct (flow_near n L Ex HF T) as (M' & HM' & HN).
    set (rows := tb_b tb :: tb_a tb).
    assert (Hq : exists Qm, 0 <= Qm /\ Forall (Forall (fun q => Rabs (Q2R q) <= Qm)) rows).
    { assert (G1 : forall l : list Q, exists x, 0 <= x /\ Forall (fun q => Rabs (Q2R q) <= x) l).
      { induction l as [|q l (x & Hx & H)]; [exists 0; split; [lra|constructor]|]. assert (P := Rabs_pos (Q2R q)).
        exists (x + Rabs (Q2R q)). split; [lra|]. constructor; [lra|]. eapply Forall_impl; [|exact H]. intros; cbn in *; lra. }
      induction rows as [|r rs (x & Hx & H)]; [exists 0; split; [lra|constructor]|].
      destruct (G1 r) as (y & Hy & Hr). exists (x + y). split; [lra|]. constructor.
      - eapply Forall_impl; [|exact Hr]. intros; cbn in *; lra.
      - eapply Forall_impl; [|exact H]. intros l Hl. eapply Forall_impl; [|exact Hl]. intros; cbn in *; lra. }
    destruct Hq as (Qm & HQ & Hrows).
    assert (Hlen : exists S, (length (tb_a tb) <= S)%nat /\ Forall (fun r : list Q => (length r <= S)%nat) rows).
    { assert (G : forall rs, exists S, Forall (fun r : list Q => (length r <= S)%nat) rs).
      { induction rs as [|r rs (S & H)]; [exists 0%nat; constructor|]. exists (S + length r)%nat. constructor; [lia|].
        eapply Forall_impl; [|exact H]. intros; cbn in *; lia. }
      destruct (G rows) as (S & H). exists (S + length (tb_a tb))%nat. split; [lia|]. eapply Forall_impl; [|exact H]. intros; cbn in *; lia. }
    destruct Hlen as (S & HSa & HSr).
    exists (Qm * M + M'), S. assert (P : 0 <= Qm * M) by (apply Rmult_le_pos; assumption). split; [lra|].
    intros h Hh.
    assert (near : forall c, 0 <= c <= 1 -> near_id n (Qm * M + M') h (E (c * h))).
    { intros c Hc'. split; [apply (E_rlinear n L Ex HF)|].
      assert (A : 0 <= c * h <= h) by (split; [apply Rmult_le_pos; lra|nra]).
      apply (opn_mono n _ (M' * Rabs (c * h))).
      - apply HN. rewrite (Rabs_pos_eq (c * h)), (Rabs_pos_eq T) by lra. lra.
      - rewrite Rabs_pos_eq by lra. apply Rle_trans with (M' * h); [apply Rmult_le_compat_l; lra|]. apply Rmult_le_compat_r; lra. }
    assert (row : forall c qs, 0 <= c <= 1 -> Forall (fun q => Rabs (Q2R q) <= Qm) qs ->
              Forall2 (coef n (Qm * M + M') 0) (law_row E h c qs (tb_c tb)) (law_row E h c qs (tb_c tb))).
    { intros c qs Hc' Hqs. unfold law_row. revert Hc. generalize (tb_c tb) as cs. induction Hqs as [|q qs Hq Hqs IH]; intros cs Hcs; [constructor|].
      destruct Hcs as [|cj cs Hcj Hcs]; [constructor|]. cbn [combine map fst snd]. constructor; [|apply IH; exact Hcs].
      assert (A : Rabs ((c - Q2R cj) * h) <= Rabs T).
      { rewrite Rabs_mult, (Rabs_pos_eq h), (Rabs_pos_eq T) by lra. 
        assert (Rabs (c - Q2R cj) <= 1) by (apply Rabs_le; lra). assert (Q := Rabs_pos (c - Q2R cj)).
        apply Rle_trans with (1 * h); [apply Rmult_le_compat_r; lra|lra]. }
      split; [|split].
      - split.
        + intros v w i Hi. unfold oscal, cscal, cadd. rewrite (rl_add _ _ (E_rlinear n L Ex HF _) v w i Hi). unfold cadd. ring.
        + intros x v i Hi. unfold oscal. unfold cscal at 1 3. rewrite (rl_scal _ _ (E_rlinear n L Ex HF _) x v i Hi). unfold cscal. ring.
      - unfold oscal. apply (opn_mono n _ (Rabs (Q2R q) * M)); [apply opn_rscal, HE; exact A|].
        assert (Rabs (Q2R q) * M <= Qm * M) by (apply Rmult_le_compat_r; assumption). lra.
      - intros v x Hx Hv. rewrite Rmult_0_l. apply vle_eq_0. reflexivity. }
    inversion Hrows; subst. inversion HSr; subst.
    split; unfold law_erk; cbn [er_E er_a er_E1 er_b]; try reflexivity.
    - apply Forall_map. eapply Forall_impl; [|exact Hc]. intros c Hc'. apply near. exact Hc'.
    - apply near. lra.
    - apply Forall2_self. apply Forall_map. apply Forall_forall. intros [r c] Hin. cbn [fst snd].
      rewrite Forall_forall in Hc, H2. apply row; [apply Hc; apply (in_combine_r _ _ _ _ Hin)|apply H2; apply (in_combine_l _ _ _ _ Hin)].
    - apply row; [lra|exact H1].
    - rewrite map_length, combine_length. lia.
    - apply Forall_map. apply Forall_forall. intros [r c] Hin. cbn [fst snd]. unfold law_row. rewrite map_length, combine_length.
      rewrite Forall_forall in H4. specialize (H4 r (in_combine_l _ _ _ _ Hin)). lia.
    - unfold law_row. rewrite map_length, combine_length. lia.
  Qed.
End LawClose.
