(** * Rounded coefficients and stages of the exponential time differencing schemes

    The calculus of [Rounding.v], continued: divisions, contour sums, masks, and the stages of ETD4/ETD34 and ETD5/ETD35. *)

From Coq Require Import ZArith List Bool Reals Lra Lia FunctionalExtensionality.
From Coquelicot Require Import Complex.
From Verif Require Import Scalars Arrays CInst SpecRK SchemeIFReal SpecPhi ContourReal Asym Solution Stable Converge Voc PropsETD
  SchemeETD4 SchemeETD5 SchemeForm ControlCSReal Rounding.
Import ListNotations.
Local Open Scope R_scope.

Lemma near_mono B A B' A' eps x x' : B <= B' -> A <= A' -> 0 <= eps -> near B A eps x x' -> near B' A' eps x x'.
Proof. intros HB HA He [H1 H2]. split; [lra|]. eapply Rle_trans; [exact H2|]. apply Rmult_le_compat_r; assumption. Qed.

Section Calculus.
  Variables n q : nat.
  Variable L : nat -> nat -> C.
  Variable XL : Type.
  Variable PX : inst XL -> Prop.
  Variable N : cvec -> cvec.
  Variables t0 t1 rho K : R.
  Variable u : R -> cvec.
  Variable fd : nat -> R -> cvec.
  Variable J : R -> cvec -> cvec.
  Hypothesis HS : smooth n q L N t0 t1 rho K u fd J.
  Variable kap : R.
  Notation valid := (Rounding.valid n PX N t0 t1 rho u kap).
  Notation ev := (Rounding.ev n PX N t0 t1 rho u kap).
  Notation ok := (Rounding.ok n PX N t0 t1 rho u kap).
  Notation bnd := (Rounding.bnd n PX N t0 t1 rho u kap).
  Notation oh := (Rounding.oh n PX N t0 t1 rho u kap).
  Notation around := (Rounding.around n PX N t0 t1 rho u kap).
  Notation soh := (Rounding.soh n PX N t0 t1 rho u kap).
  Notation sbnd := (Rounding.sbnd n PX N t0 t1 rho u kap).
  Local Notation va_a i Hi := (Rounding.va_a n XL PX N t0 t1 rho u kap i Hi).
  Local Notation va_e i Hi := (Rounding.va_e n XL PX N t0 t1 rho u kap i Hi).
  Local Notation ev_and := (Rounding.ev_and n XL PX N t0 t1 rho u kap).
  Local Notation ev_mono := (Rounding.ev_mono n XL PX N t0 t1 rho u kap).
  Local Notation ev_all := (Rounding.ev_all n XL PX N t0 t1 rho u kap).
  Local Notation ev_e := (Rounding.ev_e n XL PX N t0 t1 rho u kap).
  Local Notation ev_h := (Rounding.ev_h n XL PX N t0 t1 rho u kap).
  Local Notation ev_O := (Rounding.ev_O n XL PX N t0 t1 rho u kap).

  (** ** Closure *)
  (** Entries bounded away from zero. *)
  Definition lb (c : R) (f : inst XL -> cvec) : Prop := ev (fun i => forall j, (j < n)%nat -> c <= Cmod (f i j)).
  Lemma lb_mul c d f g : 0 <= c -> 0 <= d -> lb c f -> lb d g -> lb (c * d) (fun i => vmul (A := Cops) (f i) (g i)).
  Proof.
    intros Hc Hd H G. generalize (ev_and _ _ H G). apply ev_mono. intros i _ [H1 G1] j Hj.
    change (c * d <= Cmod (f i j * g i j)%C). rewrite Cmod_mult. apply Rmult_le_compat; auto.
  Qed.
  Lemma ok_cdiv f g f' g' c : 0 < c -> ok f g -> ok f' g' -> lb c f' ->
    ok (fun i j => f i j / f' i j)%C (fun i j => fl_div (i_a i) (g i j) (g' i j)).
  Proof.
    intros Hc (B & A & HB & HA & H) (B' & A' & HB' & HA' & H') Hl.
    exists (B / c), (1 + 2 * (B + A) / c + (2 * A / c + 2 * B * A' / (c * c))).
    assert (Ic := Rinv_0_lt_compat _ Hc). assert (Icc : 0 < / (c * c)) by (apply Rinv_0_lt_compat; apply Rmult_lt_0_compat; assumption).
    assert (0 <= B / c) by (apply Rmult_le_pos; lra). assert (0 <= 2 * (B + A) / c) by (apply Rmult_le_pos; lra).
    assert (0 <= 2 * A / c) by (apply Rmult_le_pos; lra).
    assert (0 <= 2 * B * A' / (c * c)) by (apply Rmult_le_pos; [apply Rmult_le_pos; lra|lra]).
    split; [lra|]. split; [lra|].
    assert (P : 0 < c / 2 / (A' + 1)) by (apply Rdiv_lt_0_compat; lra).
    generalize (ev_and _ _ (ev_and _ _ (ev_and _ _ H H') Hl) (ev_and _ _ (ev_and _ _ (ev_e 1 Rlt_0_1) (ev_e _ P)) (ev_O (2 * (B + A) / c + (B + A) + (B' + A') + 2 / c)))).
    apply ev_mono. intros i Hi [[[Q Q'] Ql] [[E E'] O]] j Hj.
    apply (near_cdiv (i_a i) (i_eps i) (i_Om i) (va_a i Hi)) with B'; auto; [split; [apply (va_e i Hi)|exact E]|].
    assert (G := va_e i Hi). apply Rle_trans with ((A' + 1) * (c / 2 / (A' + 1))); [apply Rmult_le_compat; lra|right; field; lra].
  Qed.
  Lemma ok_neg f g : ok f g -> ok (fun i => vneg (A := Cops) (f i)) (fun i => vneg (A := Fops (i_a i)) (g i)).
  Proof.
    intros (B & A & HB & HA & H). exists B, A. split; [exact HB|]. split; [exact HA|]. revert H. apply ev_mono. intros i _ H j Hj.
    destruct (H j Hj) as [H1 H2]. split.
    - change (Cmod (- f i j)%C <= B). rewrite Cmod_opp. exact H1.
    - change (Cmod (- g i j - - f i j)%C <= A * i_eps i). replace (- g i j - - f i j)%C with (- (g i j - f i j))%C by ring. rewrite Cmod_opp. exact H2.
  Qed.
  Lemma sbnd_c (c : R) : sbnd (fun _ => c).
  Proof. exists (Rabs c). split; [apply Rabs_pos|]. intros i _. apply Rle_refl. Qed.
  Lemma ok_lit (c : R) : ok (fun _ _ => RtoC c) (fun _ _ => RtoC c).
  Proof. exact (ok_const n XL PX N t0 t1 rho u kap (fun _ => c) (sbnd_c c)). Qed.
  Lemma ok_2pij : ok (fun _ _ => (0%R, (2 * PI)%R)) (fun i _ => fl_2pij (i_a i)).
  Proof.
    assert (P := PI_RGT_0). exists (2 * PI), (1 + 2 * PI). split; [lra|]. split; [lra|]. apply ev_all. intros i Hi j _. split.
    - unfold Cmod. cbn [fst snd]. replace (0 ^ 2 + (2 * PI) ^ 2) with (Rsqr (2 * PI)) by (unfold Rsqr; ring). rewrite sqrt_Rsqr; lra.
    - rewrite (Rmult_comm _ (i_eps i)). apply (ro_2pij _ _ _ (va_a i Hi)).
  Qed.
  Lemma near_uniform (m : nat) (f g : nat -> inst XL -> cvec) : (forall k, (k < m)%nat -> ok (f k) (g k)) ->
    exists B A, 0 <= B /\ 0 <= A /\ ev (fun i => forall j, (j < n)%nat -> forall k, (k < m)%nat -> near B A (i_eps i) (f k i j) (g k i j)).
  Proof.
    induction m as [|m IH]; intros H.
    - exists 0, 0. split; [lra|]. split; [lra|]. apply ev_all. intros i _ j _ k Hk. lia.
    - destruct IH as (B & A & HB & HA & HI); [intros k Hk; apply H; lia|]. destruct (H m ltac:(lia)) as (B' & A' & HB' & HA' & HI').
      exists (B + B'), (A + A'). split; [lra|]. split; [lra|]. generalize (ev_and _ _ HI HI'). apply ev_mono. intros i Hi [G G'] j Hj k Hk.
      assert (E := va_e i Hi). destruct (Nat.eq_dec k m) as [->|Nk].
      + apply (near_mono B' A'); try lra. apply G'. exact Hj.
      + apply (near_mono B A); try lra. apply G; [exact Hj|lia].
  Qed.
  Lemma ok_sum (m : nat) (f g : nat -> inst XL -> cvec) : (forall k, (k < m)%nat -> ok (f k) (g k)) ->
    ok (fun i j => csum m (fun k => f k i j)) (fun i j => fl_sum (i_a i) m (fun k => g k i j)).
  Proof.
    intros H. destruct (near_uniform m f g H) as (B & A & HB & HA & HI). assert (Pm := pos_INR m).
    exists (INR m * B), (INR m * (1 + 4 * INR m * (B + A + 1)) + INR m * A).
    assert (0 <= INR m * B) by (apply Rmult_le_pos; assumption). assert (0 <= INR m * A) by (apply Rmult_le_pos; assumption).
    assert (0 <= 4 * INR m * (B + A + 1)) by (apply Rmult_le_pos; lra).
    assert (0 <= INR m * (1 + 4 * INR m * (B + A + 1))) by (apply Rmult_le_pos; lra).
    split; [lra|]. split; [lra|].
    assert (P : 0 < / 8 / (INR m + 1)) by (apply Rdiv_lt_0_compat; lra).
    generalize (ev_and _ _ HI (ev_and _ _ (ev_and _ _ (ev_e 1 Rlt_0_1) (ev_e _ P)) (ev_O (4 * INR m * (B + A + 1))))). apply ev_mono.
    intros i Hi [G [[E1 E2] O]] j Hj. assert (E := va_e i Hi).
    apply (near_sum (i_a i) (i_eps i) (i_Om i) m _ _ B A (va_a i Hi)); [split; assumption|exact HB|exact HA|apply G; exact Hj| |exact O].
    apply Rle_trans with ((INR m + 1) * (/ 8 / (INR m + 1))); [apply Rmult_le_compat; lra|right; field; lra].
  Qed.
  Lemma oh_add f g : oh f -> oh g -> oh (fun i => vadd (A := Cops) (f i) (g i)).
  Proof.
    intros (B & HB & H) (B' & HB' & H'). exists (B + B'). split; [lra|]. generalize (ev_and _ _ H H'). apply ev_mono. intros i _ [G G'] j Hj.
    change (Cmod (f i j + g i j)%C <= (B + B') * i_h i). assert (T := Cmod_triangle (f i j) (g i j)). specialize (G j Hj). specialize (G' j Hj). lra.
  Qed.
  Lemma oh_sub f g : oh f -> oh g -> oh (fun i => vsub (A := Cops) (f i) (g i)).
  Proof.
    intros (B & HB & H) (B' & HB' & H'). exists (B + B'). split; [lra|]. generalize (ev_and _ _ H H'). apply ev_mono. intros i _ [G G'] j Hj.
    change (Cmod (f i j - g i j)%C <= (B + B') * i_h i). assert (T := Cmod_triangle (f i j) (- g i j)%C). rewrite Cmod_opp in T. specialize (G j Hj). specialize (G' j Hj).
    unfold Cminus. lra.
  Qed.
  Lemma oh_scal_c (c : R) f : oh f -> oh (fun i => vscal (A := Cops) c (f i)).
  Proof.
    intros (b & Hb & H). exists (Rabs c * b). split; [apply Rmult_le_pos; [apply Rabs_pos|exact Hb]|]. revert H. apply ev_mono.
    intros i _ H. rewrite Rmult_assoc. exact (vle_rscal n c _ _ H).
  Qed.
  Lemma oh_divs (c : R) f : oh f -> oh (fun i => vdivs (A := Cops) (f i) c).
  Proof.
    intros (b & Hb & H). destruct (Req_dec c 0) as [->|Hc].
    - exists 0. split; [lra|]. apply ev_all. intros i _ j _. change (Cmod (f i j / RtoC 0)%C <= 0 * i_h i).
      replace (f i j / RtoC 0)%C with (RtoC 0); [rewrite Cmod_0; lra|]. unfold Cdiv. replace (/ RtoC 0)%C with (RtoC 0); [ring|].
      apply injective_projections; cbn; unfold Rdiv; ring.
    - assert (Pc := Rabs_pos_lt c Hc). assert (Ic := Rinv_0_lt_compat _ Pc). exists (b * / Rabs c). split; [apply Rmult_le_pos; lra|]. revert H. apply ev_mono.
      intros i _ H j Hj. change (Cmod (f i j / RtoC c)%C <= b * / Rabs c * i_h i). rewrite Cmod_div by (intros E; apply RtoC_inj in E; contradiction).
      rewrite Cmod_R. replace (b * / Rabs c * i_h i) with (b * i_h i * / Rabs c) by ring. apply Rmult_le_compat_r; [lra|]. apply H. exact Hj.
  Qed.
  (** ** Masks *)
  Lemma ev_small z z' (cut : R) : 0 < cut -> ok z z' -> oh z ->
    ev (fun i => forall j, (j < n)%nat -> small_idx (A := Cops) (z i) cut j = true /\ small_idx (A := Fops (i_a i)) (z' i) cut j = true).
  Proof.
    intros Hc (B & A & HB & HA & H) (b & Hb & G).
    assert (P1 : 0 < cut / 4 / (b + 1)) by (apply Rdiv_lt_0_compat; lra).
    assert (P2 : 0 < cut / 4 / (A + 1)) by (apply Rdiv_lt_0_compat; lra).
    assert (P3 : 0 < cut / 4 / (1 + (B + A))) by (apply Rdiv_lt_0_compat; lra).
    generalize (ev_and _ _ (ev_and _ _ H G) (ev_and _ _ (ev_and _ _ (ev_h _ P1) (ev_and _ _ (ev_e _ P2) (ev_e _ P3))) (ev_and _ _ (ev_e 1 Rlt_0_1) (ev_O (B + A))))). apply ev_mono.
    intros i Hi [[Q1 Q2] [[E1 [E2 E3]] [E4 O]]] j Hj. assert (E := va_e i Hi). destruct (va_h _ _ _ _ _ _ _ _ _ _ Hi) as [Hh _].
    assert (D1 : b * i_h i <= cut / 4) by (apply Rle_trans with ((b + 1) * (cut / 4 / (b + 1))); [apply Rmult_le_compat; lra|right; field; lra]).
    assert (D2 : A * i_eps i <= cut / 4) by (apply Rle_trans with ((A + 1) * (cut / 4 / (A + 1))); [apply Rmult_le_compat; lra|right; field; lra]).
    assert (D3 : i_eps i * (1 + (B + A)) <= cut / 4) by (apply Rle_trans with (cut / 4 / (1 + (B + A)) * (1 + (B + A))); [apply Rmult_le_compat; lra|right; field; lra]).
    destruct (Q1 j Hj) as [Z1 Z2]. assert (Z3 := Q2 j Hj).
    assert (Z4 : Cmod (z' i j) <= B + A) by (apply (near_le B A (i_eps i) (z i j)); [exact HA|split; assumption|apply (Q1 j Hj)]).
    assert (Z5 := Cmod_le_diff _ _ _ _ Z3 Z2).
    assert (Z6 := ro_abs _ _ _ (va_a i Hi) (z' i j) ltac:(lra)).
    assert (Z7 : i_eps i * (1 + Cmod (z' i j)) <= i_eps i * (1 + (B + A))) by (apply Rmult_le_compat_l; lra).
    assert (Z8 := Rle_abs (fl_abs (i_a i) (z' i j) - Cmod (z' i j))). split; unfold small_idx; cbn [tltb Rops eabs Cops Fops]; apply Rltb_true; lra.
  Qed.
  Section Mask.
    Variables z z' : inst XL -> cvec.
    Variable cut : R.
    Hypothesis Hs : ev (fun i => forall j, (j < n)%nat -> small_idx (A := Cops) (z i) cut j = true /\ small_idx (A := Fops (i_a i)) (z' i) cut j = true).
    Lemma ok_mask f g b b' : ok f g ->
      ok (fun i => mask_set (A := Cops) (small_idx (A := Cops) (z i) cut) (f i) (b i)) (fun i => mask_set (A := Fops (i_a i)) (small_idx (A := Fops (i_a i)) (z' i) cut) (g i) (b' i)).
    Proof.
      intros (B & A & HB & HA & H). exists B, A. split; [exact HB|]. split; [exact HA|]. generalize (ev_and _ _ Hs H). apply ev_mono. intros i _ [S1 S2] j Hj.
      destruct (S1 j Hj) as [E1 E2]. unfold mask_set. rewrite E1, E2. apply S2. exact Hj.
    Qed.
    Lemma oh_mask f b : oh f -> oh (fun i => mask_set (A := Cops) (small_idx (A := Cops) (z i) cut) (f i) (b i)).
    Proof.
      intros (B & HB & H). exists B. split; [exact HB|]. generalize (ev_and _ _ Hs H). apply ev_mono. intros i _ [S1 S2] j Hj.
      destruct (S1 j Hj) as [E1 _]. unfold mask_set. rewrite E1. apply S2. exact Hj.
    Qed.
  End Mask.

  (** ** Psi functions on the contour *)
  Local Notation ok_add := (Rounding.ok_add n XL PX N t0 t1 rho u kap).
  Local Notation ok_sub := (Rounding.ok_sub n XL PX N t0 t1 rho u kap).
  Local Notation ok_mul := (Rounding.ok_mul n XL PX N t0 t1 rho u kap).
  Local Notation ok_exp := (Rounding.ok_exp n XL PX N t0 t1 rho u kap).
  Local Notation ok_divs := (Rounding.ok_divs n XL PX N t0 t1 rho u kap).
  Local Notation ok_scal := (Rounding.ok_scal n XL PX N t0 t1 rho u kap).
  Definition psi_ok (c : R) (F : forall A : aops Rops, E A -> E A) : Prop := forall z z', ok z z' -> lb c z ->
    ok (fun i j => F Cops (z i j)) (fun i j => F (Fops (i_a i)) (z' i j)).
  Lemma psi1_ok c : 0 < c -> psi_ok c (@psi1 Rops).
  Proof. intros Hc z z' Hz Hl. exact (ok_cdiv _ _ _ _ c Hc (ok_sub _ _ _ _ (ok_exp _ _ Hz) (ok_lit 1)) Hz Hl). Qed.
  Lemma psi2_ok c : 0 < c -> psi_ok c (@psi2 Rops).
  Proof.
    intros Hc z z' Hz Hl.
    exact (ok_cdiv _ _ _ _ (c * c) (Rmult_lt_0_compat _ _ Hc Hc) (ok_mul _ _ _ _ (ok_lit 2) (ok_sub _ _ _ _ (ok_sub _ _ _ _ (ok_exp _ _ Hz) (ok_lit 1)) Hz))
             (ok_mul _ _ _ _ Hz Hz) (lb_mul c c z z (Rlt_le _ _ Hc) (Rlt_le _ _ Hc) Hl Hl)).
  Qed.
  Lemma psi3_ok c : 0 < c -> psi_ok c (@psi3 Rops).
  Proof.
    intros Hc z z' Hz Hl. assert (Hcc := Rmult_lt_0_compat _ _ Hc Hc).
    exact (ok_cdiv _ _ _ _ (c * c * c) (Rmult_lt_0_compat _ _ Hcc Hc)
             (ok_mul _ _ _ _ (ok_lit 6) (ok_sub _ _ _ _ (ok_sub _ _ _ _ (ok_sub _ _ _ _ (ok_exp _ _ Hz) (ok_lit 1)) Hz) (ok_divs _ _ 2 ltac:(lra) (ok_mul _ _ _ _ Hz Hz))))
             (ok_mul _ _ _ _ (ok_mul _ _ _ _ Hz Hz) Hz) (lb_mul (c * c) c _ z (Rlt_le _ _ Hcc) (Rlt_le _ _ Hc) (lb_mul c c z z (Rlt_le _ _ Hc) (Rlt_le _ _ Hc) Hl Hl) Hl)).
  Qed.

  Variable cfg : etdcfg Rops.
  Hypothesis Hr : 0 < contour_radius cfg.
  Hypothesis HM : (0 < contour_points cfg)%nat.
  Lemma npts_neq : npts cfg <> 0.
  Proof. unfold npts. apply not_0_IZR. lia. Qed.
  Lemma ok_node k : ok (fun _ _ => node Cops cfg k) (fun i _ => node (Fops (i_a i)) cfg k).
  Proof.
    exact (ok_scal (fun _ => contour_radius cfg) _ _ (sbnd_c _) (ok_exp _ _ (ok_divs _ _ _ npts_neq (ok_mul _ _ _ _ ok_2pij (ok_lit (half Rops + IZR (Z.of_nat k))))))).
  Qed.
  (** The points [z + node] of a mode, scaled: [f] of etd4.py etc. *)
  Definition scale_ok (s : R) (f : forall A : aops Rops, E A -> E A) : Prop :=
    (forall x, f Cops x = RtoC s * x)%C /\ forall z z', ok z z' -> ok (fun i j => f Cops (z i j)) (fun i j => f (Fops (i_a i)) (z' i j)).
  Lemma ok_points z z' s f k : 0 < s -> scale_ok s f -> ok z z' -> oh z ->
    ok (fun i j => f Cops (eadd Cops (z i j) (node Cops cfg k))) (fun i j => f (Fops (i_a i)) (eadd (Fops (i_a i)) (z' i j) (node (Fops (i_a i)) cfg k))) /\
    lb (s * (contour_radius cfg / 2)) (fun i j => f Cops (eadd Cops (z i j) (node Cops cfg k))).
  Proof.
    intros Hs [F1 F2] Hz (b & Hb & G). split; [exact (F2 _ _ (ok_add _ _ _ _ Hz (ok_node k)))|].
    assert (P1 : 0 < contour_radius cfg / 2 / (b + 1)) by (apply Rdiv_lt_0_compat; lra).
    generalize (ev_and _ _ G (ev_h _ P1)). apply ev_mono. intros i Hi [Q E] j Hj. rewrite F1.
    change (s * (contour_radius cfg / 2) <= Cmod (RtoC s * (z i j + node Cops cfg k))%C). rewrite Cmod_mult, Cmod_R, Rabs_pos_eq by lra. apply Rmult_le_compat_l; [lra|].
    assert (Rk : Cmod (node Cops cfg k) = Rabs (contour_radius cfg)) by apply (Cmod_rho cfg HM). rewrite Rabs_pos_eq in Rk by lra.
    set (r := node Cops cfg k) in *. clearbody r. cbn in r. destruct (va_h _ _ _ _ _ _ _ _ _ _ Hi) as [Hh _].
    assert (D1 : b * i_h i <= contour_radius cfg / 2) by (apply Rle_trans with ((b + 1) * (contour_radius cfg / 2 / (b + 1))); [apply Rmult_le_compat; lra|right; field; lra]).
    assert (Z := Q j Hj). assert (T := Cmod_triangle (z i j + r)%C (- z i j)%C). rewrite Cmod_opp in T. replace (z i j + r + - z i j)%C with r in T by ring.
    rewrite Rk in T. lra.
  Qed.
  Lemma ok_avg z z' s f F : 0 < s -> scale_ok s f -> (forall c, 0 < c -> psi_ok c F) -> ok z z' -> oh z ->
    ok (fun i j => contour_avg Cops cfg (i_h i) (F Cops) (f Cops) (z i j)) (fun i j => contour_avg (Fops (i_a i)) cfg (i_h i) (F (Fops (i_a i))) (f (Fops (i_a i))) (z' i j)) /\
    oh (fun i j => contour_avg Cops cfg (i_h i) (F Cops) (f Cops) (z i j)).
  Proof.
    intros Hs Hf HF Hz Hoh.
    assert (S1 : ok (fun i j => csum (contour_points cfg) (fun k => F Cops (f Cops (eadd Cops (z i j) (node Cops cfg k)))))
                    (fun i j => fl_sum (i_a i) (contour_points cfg) (fun k => F (Fops (i_a i)) (f (Fops (i_a i)) (eadd (Fops (i_a i)) (z' i j) (node (Fops (i_a i)) cfg k)))))).
    { apply (ok_sum (contour_points cfg) (fun k i j => F Cops (f Cops (eadd Cops (z i j) (node Cops cfg k))))
               (fun k i j => F (Fops (i_a i)) (f (Fops (i_a i)) (eadd (Fops (i_a i)) (z' i j) (node (Fops (i_a i)) cfg k))))).
      intros k _. destruct (ok_points z z' s f k Hs Hf Hz Hoh) as [P1 P2]. refine (HF (s * (contour_radius cfg / 2)) _ _ _ P1 P2). apply Rmult_lt_0_compat; lra. }
    split.
    - exact (ok_divs _ _ _ npts_neq (ok_scal i_h _ _ (soh_bnd n q L XL PX N t0 t1 rho K u fd J HS kap _ (soh_h n XL PX N t0 t1 rho u kap)) S1)).
    - exact (oh_divs (npts cfg) _ (oh_scal n XL PX N t0 t1 rho u kap i_h _ (soh_h n XL PX N t0 t1 rho u kap) (ok_bnd n XL PX N t0 t1 rho u kap _ _ S1))).
  Qed.
End Calculus.

(** ** Stages *)
Section Stages.
  Variables n q : nat.
  Variable L : nat -> nat -> C.
  Variable XL : Type.
  Variable PX : inst XL -> Prop.
  Variable N : cvec -> cvec.
  Variables t0 t1 rho K : R.
  Variable u : R -> cvec.
  Variable fd : nat -> R -> cvec.
  Variable J : R -> cvec -> cvec.
  Hypothesis HS : smooth n q L N t0 t1 rho K u fd J.
  Variable kap : R.
  Notation ok := (Rounding.ok n PX N t0 t1 rho u kap).
  Notation bnd := (Rounding.bnd n PX N t0 t1 rho u kap).
  Notation oh := (Rounding.oh n PX N t0 t1 rho u kap).
  Notation around := (Rounding.around n PX N t0 t1 rho u kap).
  Local Notation ok_add := (Rounding.ok_add n XL PX N t0 t1 rho u kap).
  Local Notation ok_sub := (Rounding.ok_sub n XL PX N t0 t1 rho u kap).
  Local Notation ok_mul := (Rounding.ok_mul n XL PX N t0 t1 rho u kap).
  Local Notation ok_exp := (Rounding.ok_exp n XL PX N t0 t1 rho u kap).
  Local Notation ok_divz := (Rounding.ok_divz n XL PX N t0 t1 rho u kap).
  Local Notation ok_scal := (Rounding.ok_scal n XL PX N t0 t1 rho u kap).

  (** Coefficient arrays: exponentials of arrays of size [O(h)], and arrays of size [O(h)]. *)
  Definition exp_ok (f g : inst XL -> cvec) : Prop := ok f g /\ exists z, oh z /\ forall i, f i = vexp (A := Cops) (z i).
  Definition coef_ok (f g : inst XL -> cvec) : Prop := ok f g /\ oh f.
  Record coefs4_ok (c c' : inst XL -> etd4_coefs cvec) : Prop := {
    c4_EL : exp_ok (fun i => e4_EL (c i)) (fun i => e4_EL (c' i));    c4_EL2 : exp_ok (fun i => e4_EL2 (c i)) (fun i => e4_EL2 (c' i));
    c4_a21 : coef_ok (fun i => e4_a21 (c i)) (fun i => e4_a21 (c' i)); c4_a31 : coef_ok (fun i => e4_a31 (c i)) (fun i => e4_a31 (c' i));
    c4_a32 : coef_ok (fun i => e4_a32 (c i)) (fun i => e4_a32 (c' i)); c4_a41 : coef_ok (fun i => e4_a41 (c i)) (fun i => e4_a41 (c' i));
    c4_a43 : coef_ok (fun i => e4_a43 (c i)) (fun i => e4_a43 (c' i)); c4_b1 : coef_ok (fun i => e4_b1 (c i)) (fun i => e4_b1 (c' i));
    c4_b2 : coef_ok (fun i => e4_b2 (c i)) (fun i => e4_b2 (c' i));   c4_b4 : coef_ok (fun i => e4_b4 (c i)) (fun i => e4_b4 (c' i)) }.
  Record coefs5_ok (c c' : inst XL -> etd5_coefs cvec) : Prop := {
    c5_EL14 : exp_ok (fun i => e5_EL14 (c i)) (fun i => e5_EL14 (c' i)); c5_EL12 : exp_ok (fun i => e5_EL12 (c i)) (fun i => e5_EL12 (c' i));
    c5_EL34 : exp_ok (fun i => e5_EL34 (c i)) (fun i => e5_EL34 (c' i)); c5_EL : exp_ok (fun i => e5_EL (c i)) (fun i => e5_EL (c' i));
    c5_a21 : coef_ok (fun i => e5_a21 (c i)) (fun i => e5_a21 (c' i)); c5_a31 : coef_ok (fun i => e5_a31 (c i)) (fun i => e5_a31 (c' i));
    c5_a32 : coef_ok (fun i => e5_a32 (c i)) (fun i => e5_a32 (c' i)); c5_a41 : coef_ok (fun i => e5_a41 (c i)) (fun i => e5_a41 (c' i));
    c5_a43 : coef_ok (fun i => e5_a43 (c i)) (fun i => e5_a43 (c' i)); c5_a51 : coef_ok (fun i => e5_a51 (c i)) (fun i => e5_a51 (c' i));
    c5_a52 : coef_ok (fun i => e5_a52 (c i)) (fun i => e5_a52 (c' i)); c5_a54 : coef_ok (fun i => e5_a54 (c i)) (fun i => e5_a54 (c' i));
    c5_a61 : coef_ok (fun i => e5_a61 (c i)) (fun i => e5_a61 (c' i)); c5_a62 : coef_ok (fun i => e5_a62 (c i)) (fun i => e5_a62 (c' i));
    c5_a63 : coef_ok (fun i => e5_a63 (c i)) (fun i => e5_a63 (c' i)); c5_a65 : coef_ok (fun i => e5_a65 (c i)) (fun i => e5_a65 (c' i));
    c5_b1 : coef_ok (fun i => e5_b1 (c i)) (fun i => e5_b1 (c' i));   c5_b3 : coef_ok (fun i => e5_b3 (c i)) (fun i => e5_b3 (c' i));
    c5_b4 : coef_ok (fun i => e5_b4 (c i)) (fun i => e5_b4 (c' i));   c5_b5 : coef_ok (fun i => e5_b5 (c i)) (fun i => e5_b5 (c' i));
    c5_b6 : coef_ok (fun i => e5_b6 (c i)) (fun i => e5_b6 (c' i)) }.

  Ltac ok_step := first
    [ eassumption
    | lazymatch goal with
      | |- Rounding.ok _ _ _ _ _ _ _ _ (fun i => vadd (@?x i) (@?y i)) _ => apply ok_add
      | |- Rounding.ok _ _ _ _ _ _ _ _ (fun i => vsub (@?x i) (@?y i)) _ => apply ok_sub
      | |- Rounding.ok _ _ _ _ _ _ _ _ (fun i => vmul (@?x i) (@?y i)) _ => apply ok_mul
      | |- Rounding.ok _ _ _ _ _ _ _ _ (fun i => vscal (@?x i) (@?y i)) _ => apply (ok_scal (fun _ => _))
      | |- Rounding.ok _ _ _ _ _ _ _ _ (fun i => vscalz _ (@?y i)) _ => apply (ok_scal (fun _ => _))
      | |- Rounding.ok _ _ _ _ _ _ _ _ (fun i => vdivz (@?x i) _) _ => apply ok_divz
      | |- Rounding.ok _ _ _ _ _ _ _ _ (fun i => vexp (@?x i)) _ => apply ok_exp
      | |- Rounding.ok _ _ _ _ _ _ _ _ (fun i => vneg (@?x i)) _ => apply ok_neg
      | |- Rounding.sbnd _ _ _ _ _ _ _ _ _ => apply sbnd_c
      end ].
  Ltac ok_tac := repeat ok_step.
  Ltac oh_step := first
    [ eassumption
    | lazymatch goal with
      | |- Rounding.oh _ _ _ _ _ _ _ _ (fun i => vadd (@?x i) (@?y i)) => apply oh_add
      | |- Rounding.oh _ _ _ _ _ _ _ _ (fun i => vsub (@?x i) (@?y i)) => apply oh_sub
      | |- Rounding.oh _ _ _ _ _ _ _ _ (fun i => vmul (@?x i) (@?y i)) => apply oh_mul_l
      | |- Rounding.oh _ _ _ _ _ _ _ _ (fun i => vdivz (@?x i) _) => apply oh_divz
      | |- Rounding.oh _ _ _ _ _ _ _ _ (fun i => vscalz _ (@?x i)) => apply oh_scalz
      | |- Rounding.oh _ _ _ _ _ _ _ _ (fun i => vscal _ (@?y i)) => apply oh_scal_c
      | |- Rounding.around _ _ _ _ _ _ _ _ _ (fun i => vadd (@?x i) (@?y i)) => apply around_add
      | |- Rounding.bnd _ _ _ _ _ _ _ _ _ => eapply ok_bnd; ok_tac
      end ].
  Ltac oh_tac := repeat oh_step.

  Section Forms.
    (** The starting value and the nonlinear function of the stages (in the eigenbasis for some strategies); [X1]: the first stage. *)
    Variables base base' X1 Y1 : inst XL -> cvec.
    Variables NX NY : inst XL -> cvec -> cvec.
    Hypothesis KB : ok base base'.
    Hypothesis K1 : ok X1 Y1.
    Hypothesis KN : forall f g, ok f g -> around base f -> ok (fun i => NX i (f i)) (fun i => NY i (g i)).
    Lemma around_exp_ok f g : exp_ok f g -> around base (fun i => vmul (A := Cops) (f i) (base i)).
    Proof.
      intros [_ (z & Hz & E)]. assert (Bb := ok_bnd n XL PX N t0 t1 rho u kap _ _ KB).
      assert (B0 : around base base) by (exists 0; split; [lra|]; apply (ev_all n); intros i Hi; rewrite Rmult_0_l; apply vle_eq_0; reflexivity).
      assert (X := around_exp n q L XL PX N t0 t1 rho K u fd J HS kap base z base Hz Bb B0).
      destruct X as (b & Hb & X). exists b. split; [exact Hb|]. revert X. apply ev_mono. intros i _ X. rewrite E. exact X.
    Qed.
    Lemma etd4_ok c c' : coefs4_ok c c' ->
      ok (fun i => fst (etd4_form (A := Cops) (vmul (A := Cops)) (NX i) (c i) (base i) (X1 i)))
         (fun i => fst (etd4_form (A := Fops (i_a i)) (vmul (A := Fops (i_a i))) (NY i) (c' i) (base' i) (Y1 i))) /\
      ok (fun i => snd (etd4_form (A := Cops) (vmul (A := Cops)) (NX i) (c i) (base i) (X1 i)))
         (fun i => snd (etd4_form (A := Fops (i_a i)) (vmul (A := Fops (i_a i))) (NY i) (c' i) (base' i) (Y1 i))).
    Proof.
      intros [HEL HEL2 [A1 O1] [A2 O2] [A3 O3] [A4 O4] [A5 O5] [A6 O6] [A7 O7] [A8 O8]].
      assert (TE := around_exp_ok _ _ HEL). assert (TE2 := around_exp_ok _ _ HEL2). destruct HEL as [E1 _]. destruct HEL2 as [E2 _].
      pose (g2 := fun (A : aops Rops) (c : etd4_coefs (vec A)) (v a : vec A) => vadd (vmul (e4_EL2 c) v) (vmul (e4_a21 c) a)).
      pose (g3 := fun (A : aops Rops) (c : etd4_coefs (vec A)) (v a b : vec A) => vadd (vadd (vmul (e4_EL2 c) v) (vmul (e4_a31 c) a)) (vmul (e4_a32 c) b)).
      pose (g4 := fun (A : aops Rops) (c : etd4_coefs (vec A)) (v a b : vec A) => vadd (vadd (vmul (e4_EL c) v) (vmul (e4_a41 c) a)) (vmul (e4_a43 c) b)).
      pose (gk := fun (A : aops Rops) (c : etd4_coefs (vec A)) (v n1 n2 n3 n4 : vec A) =>
        vadd (vadd (vadd (vmul (e4_EL c) v) (vmul (e4_b1 c) n1)) (vmul (e4_b2 c) (vadd n2 n3))) (vmul (e4_b4 c) n4)).
      set (X2 := fun i => NX i (g2 Cops (c i) (base i) (X1 i))). set (Y2 := fun i => NY i (g2 (Fops (i_a i)) (c' i) (base' i) (Y1 i))).
      assert (K2 : ok X2 Y2) by (apply KN; unfold g2; [ok_tac|oh_tac]).
      set (X3 := fun i => NX i (g3 Cops (c i) (base i) (X1 i) (X2 i))). set (Y3 := fun i => NY i (g3 (Fops (i_a i)) (c' i) (base' i) (Y1 i) (Y2 i))).
      assert (K3 : ok X3 Y3) by (apply KN; unfold g3; [ok_tac|oh_tac]).
      set (X4 := fun i => NX i (g4 Cops (c i) (base i) (X1 i) (X3 i))). set (Y4 := fun i => NY i (g4 (Fops (i_a i)) (c' i) (base' i) (Y1 i) (Y3 i))).
      assert (K4 : ok X4 Y4) by (apply KN; unfold g4; [ok_tac|oh_tac]).
      set (Xk := fun i => gk Cops (c i) (base i) (X1 i) (X2 i) (X3 i) (X4 i)). set (Yk := fun i => gk (Fops (i_a i)) (c' i) (base' i) (Y1 i) (Y2 i) (Y3 i) (Y4 i)).
      assert (Kk : ok Xk Yk) by (unfold Xk, Yk, gk; ok_tac).
      set (X5 := fun i => NX i (Xk i)). set (Y5 := fun i => NY i (Yk i)).
      assert (K5 : ok X5 Y5) by (apply KN; [exact Kk|]; unfold Xk, gk; oh_tac).
      split; [exact Kk|]. exact (ok_mul _ _ _ _ A8 (ok_sub _ _ _ _ K4 K5)).
    Qed.
    Lemma etd5_ok c c' : coefs5_ok c c' ->
      ok (fun i => fst (etd5_form (A := Cops) (vmul (A := Cops)) (NX i) (c i) (base i) (X1 i)))
         (fun i => fst (etd5_form (A := Fops (i_a i)) (vmul (A := Fops (i_a i))) (NY i) (c' i) (base' i) (Y1 i))) /\
      ok (fun i => snd (etd5_form (A := Cops) (vmul (A := Cops)) (NX i) (c i) (base i) (X1 i)))
         (fun i => snd (etd5_form (A := Fops (i_a i)) (vmul (A := Fops (i_a i))) (NY i) (c' i) (base' i) (Y1 i))).
    Proof.
      intros [H14 H12 H34 HEL [A1 O1] [A2 O2] [A3 O3] [A4 O4] [A5 O5] [A6 O6] [A7 O7] [A8 O8] [A9 O9] [A10 O10] [A11 O11] [A12 O12] [A13 O13] [A14 O14] [A15 O15] [A16 O16] [A17 O17]].
      assert (TE := around_exp_ok _ _ HEL). assert (T14 := around_exp_ok _ _ H14). assert (T12 := around_exp_ok _ _ H12). assert (T34 := around_exp_ok _ _ H34).
      destruct HEL as [E1 _]. destruct H14 as [E2 _]. destruct H12 as [E3 _]. destruct H34 as [E4 _].
      pose (g2 := fun (A : aops Rops) (c : etd5_coefs (vec A)) (v a : vec A) => vadd (vmul (e5_EL14 c) v) (vmul (e5_a21 c) a)).
      pose (g3 := fun (A : aops Rops) (c : etd5_coefs (vec A)) (v a b : vec A) => vadd (vadd (vmul (e5_EL14 c) v) (vmul (e5_a31 c) a)) (vmul (e5_a32 c) b)).
      pose (g4 := fun (A : aops Rops) (c : etd5_coefs (vec A)) (v a b : vec A) => vadd (vadd (vmul (e5_EL12 c) v) (vmul (e5_a41 c) a)) (vmul (e5_a43 c) b)).
      pose (g5 := fun (A : aops Rops) (c : etd5_coefs (vec A)) (v n1 n2 n3 n4 : vec A) =>
        vadd (vadd (vadd (vmul (e5_EL34 c) v) (vmul (e5_a51 c) n1)) (vmul (e5_a52 c) (vsub n2 n3))) (vmul (e5_a54 c) n4)).
      pose (g6 := fun (A : aops Rops) (c : etd5_coefs (vec A)) (v n1 n2 n3 n4 n5 : vec A) =>
        vadd (vadd (vadd (vadd (vmul (e5_EL c) v) (vmul (e5_a61 c) n1)) (vmul (e5_a62 c) (vsub n2 (vdivz (vscalz 3 n4) 2)))) (vmul (e5_a63 c) n3)) (vmul (e5_a65 c) n5)).
      pose (gk := fun (A : aops Rops) (c : etd5_coefs (vec A)) (v n1 n3 n4 n5 n6 : vec A) =>
        vadd (vadd (vadd (vadd (vadd (vmul (e5_EL c) v) (vmul (e5_b1 c) n1)) (vmul (e5_b3 c) n3)) (vmul (e5_b4 c) n4)) (vmul (e5_b5 c) n5)) (vmul (e5_b6 c) n6)).
      pose (ge := fun (A : aops Rops) (c : etd5_coefs (vec A)) (n1 n3 n4 n5 n6 : vec A) =>
        vmul (e5_b5 c) (vsub (vadd (vsub (vadd (vneg n1) (vscalz 4 n3)) (vscalz 6 n4)) (vscalz 4 n5)) n6)).
      set (X2 := fun i => NX i (g2 Cops (c i) (base i) (X1 i))). set (Y2 := fun i => NY i (g2 (Fops (i_a i)) (c' i) (base' i) (Y1 i))).
      assert (K2 : ok X2 Y2) by (apply KN; unfold g2; [ok_tac|oh_tac]).
      set (X3 := fun i => NX i (g3 Cops (c i) (base i) (X1 i) (X2 i))). set (Y3 := fun i => NY i (g3 (Fops (i_a i)) (c' i) (base' i) (Y1 i) (Y2 i))).
      assert (K3 : ok X3 Y3) by (apply KN; unfold g3; [ok_tac|oh_tac]).
      set (X4 := fun i => NX i (g4 Cops (c i) (base i) (X1 i) (X3 i))). set (Y4 := fun i => NY i (g4 (Fops (i_a i)) (c' i) (base' i) (Y1 i) (Y3 i))).
      assert (K4 : ok X4 Y4) by (apply KN; unfold g4; [ok_tac|oh_tac]).
      set (X5 := fun i => NX i (g5 Cops (c i) (base i) (X1 i) (X2 i) (X3 i) (X4 i))). set (Y5 := fun i => NY i (g5 (Fops (i_a i)) (c' i) (base' i) (Y1 i) (Y2 i) (Y3 i) (Y4 i))).
      assert (K5 : ok X5 Y5) by (apply KN; unfold g5; [ok_tac|oh_tac]).
      set (X6 := fun i => NX i (g6 Cops (c i) (base i) (X1 i) (X2 i) (X3 i) (X4 i) (X5 i))). set (Y6 := fun i => NY i (g6 (Fops (i_a i)) (c' i) (base' i) (Y1 i) (Y2 i) (Y3 i) (Y4 i) (Y5 i))).
      assert (K6 : ok X6 Y6) by (apply KN; unfold g6; [ok_tac|oh_tac]).
      assert (Kk : ok (fun i => gk Cops (c i) (base i) (X1 i) (X3 i) (X4 i) (X5 i) (X6 i)) (fun i => gk (Fops (i_a i)) (c' i) (base' i) (Y1 i) (Y3 i) (Y4 i) (Y5 i) (Y6 i))) by (unfold gk; ok_tac).
      assert (Ke : ok (fun i => ge Cops (c i) (X1 i) (X3 i) (X4 i) (X5 i) (X6 i)) (fun i => ge (Fops (i_a i)) (c' i) (Y1 i) (Y3 i) (Y4 i) (Y5 i) (Y6 i))) by (unfold ge; ok_tac).
      split; [exact Kk|exact Ke].
    Qed.
  End Forms.

  (** ** Coefficients *)
  Section Coefs.
    Variable cfg : etdcfg Rops.
    Hypothesis Hcut : 0 < modecutoff cfg.
    Hypothesis Hr : 0 < contour_radius cfg.
    Hypothesis HM : (0 < contour_points cfg)%nat.
    Variables z z' : inst XL -> cvec.
    Hypothesis Kz : ok z z'.
    Hypothesis Oz : oh z.
    Local Notation avg s f F Hp Hf HF := (ok_avg n q L XL PX N t0 t1 rho K u fd J HS kap cfg Hr HM z z' s f F Hp Hf HF Kz Oz).
    Lemma scale_id : scale_ok n XL PX N t0 t1 rho u kap 1 (fun A (x : E A) => x).
    Proof. split; [intros x; symmetry; apply Cmult_1_l|]. intros a b H. exact H. Qed.
    Lemma scale_div (c : positive) : scale_ok n XL PX N t0 t1 rho u kap (/ IZR (Zpos c)) (fun A (x : E A) => ediv A x (lit A (Zpos c))).
    Proof.
      assert (Hc : IZR (Zpos c) <> 0) by (apply not_0_IZR; discriminate).
      split; [intros x; cbn in x; change (x / RtoC (IZR (Zpos c)) = RtoC (/ IZR (Zpos c)) * x)%C; rewrite RtoC_inv by exact Hc; field; intros E; apply RtoC_inj in E; contradiction|].
      intros a b H. exact (ok_divz _ _ c H).
    Qed.
    Lemma scale_mul (s : R) : scale_ok n XL PX N t0 t1 rho u kap s (fun A (x : E A) => emul A (eofT A s) x).
    Proof. split; [intros x; reflexivity|]. intros a b H. exact (ok_scal (fun _ => s) _ _ (sbnd_c _ _ _ _ _ _ _ _ _ _) H). Qed.
    Lemma scale_34 : scale_ok n XL PX N t0 t1 rho u kap (3 / 4) (fun A (x : E A) => ediv A (emul A (lit A 3) x) (lit A 4)).
    Proof.
      split; [intros x; cbn in x; change (RtoC 3 * x / RtoC 4 = RtoC (3 / 4) * x)%C; rewrite RtoC_div by lra; field; intros E; apply RtoC_inj in E; lra|].
      intros a b H. exact (ok_divz _ _ 4%positive (ok_scal (fun _ => 3) _ _ (sbnd_c _ _ _ _ _ _ _ _ _ _) H)).
    Qed.
    Let Hs := ev_small n XL PX N t0 t1 rho u kap z z' (modecutoff cfg) Hcut Kz Oz.
    Let P1 := psi1_ok n XL PX N t0 t1 rho u kap.
    Let P2 := psi2_ok n XL PX N t0 t1 rho u kap.
    Let P3 := psi3_ok n XL PX N t0 t1 rho u kap.
    Ltac field_tac :=
      lazymatch goal with
      | |- exp_ok _ _ => split; [ok_tac|eexists; split; [|intros i; reflexivity]; oh_tac]
      | |- coef_ok _ _ => split; [apply (ok_mask n XL PX N t0 t1 rho u kap z z' (modecutoff cfg) Hs); ok_tac|apply (oh_mask n XL PX N t0 t1 rho u kap z z' (modecutoff cfg) Hs); oh_tac]
      end.
    Theorem etd34_coefs_ok (o : etd4_coefs cvec) (o' : inst XL -> etd4_coefs cvec) :
      coefs4_ok (fun i => snd (etd34_coeffs_of Rops Cops cfg (i_h i) (z i) o)) (fun i => snd (etd34_coeffs_of Rops (Fops (i_a i)) cfg (i_h i) (z' i) (o' i))).
    Proof.
      assert (S2 := scale_div 2). assert (S1 := scale_id). assert (R2 : 0 < / 2) by lra.
      destruct (avg (/ 2) _ _ R2 S2 P1) as [B1 Q1]. destruct (avg (/ 2) _ _ R2 S2 P2) as [B2 Q2].
      destruct (avg 1 _ _ Rlt_0_1 S1 P1) as [B3 Q3]. destruct (avg 1 _ _ Rlt_0_1 S1 P2) as [B4 Q4]. destruct (avg 1 _ _ Rlt_0_1 S1 P3) as [B5 Q5].
      split; unfold etd34_coeffs_of; cbv zeta; cbn [snd e4_EL e4_EL2 e4_a21 e4_a31 e4_a32 e4_a41 e4_a43 e4_b1 e4_b2 e4_b4]; field_tac.
    Qed.
    Theorem etd35_coefs_ok (o : etd5_coefs cvec) (o' : inst XL -> etd5_coefs cvec) :
      coefs5_ok (fun i => snd (etd35_coeffs_of Rops Cops cfg (i_h i) (z i) o)) (fun i => snd (etd35_coeffs_of Rops (Fops (i_a i)) cfg (i_h i) (z' i) (o' i))).
    Proof.
      assert (S4 := scale_mul (1 / 4)). assert (S2 := scale_mul (1 / 2)). assert (S34 := scale_mul (3 / 4)). assert (S1 := scale_mul 1).
      assert (R4 : 0 < 1 / 4) by lra. assert (R2 : 0 < 1 / 2) by lra. assert (R34 : 0 < 3 / 4) by lra. assert (R1 : 0 < 1) by lra.
      destruct (avg (1 / 4) _ _ R4 S4 P1) as [B1 Q1]. destruct (avg (1 / 4) _ _ R4 S4 P2) as [B2 Q2]. destruct (avg (1 / 2) _ _ R2 S2 P1) as [B3 Q3]. destruct (avg (1 / 2) _ _ R2 S2 P2) as [B4 Q4]. destruct (avg (3 / 4) _ _ R34 S34 P1) as [B5 Q5]. destruct (avg (3 / 4) _ _ R34 S34 P2) as [B6 Q6]. destruct (avg (1) _ _ R1 S1 P1) as [B7 Q7]. destruct (avg (1) _ _ R1 S1 P2) as [B8 Q8]. destruct (avg (1) _ _ R1 S1 P3) as [B9 Q9].
      split; unfold etd35_coeffs_of; cbv zeta; cbn [snd e5_EL14 e5_EL12 e5_EL34 e5_EL e5_a21 e5_a31 e5_a32 e5_a41 e5_a43 e5_a51 e5_a52 e5_a54 e5_a61 e5_a62 e5_a63 e5_a65 e5_b1 e5_b3 e5_b4 e5_b5 e5_b6]; field_tac.
    Qed.
  End Coefs.
  (** ETD5: the same with [z = h * lin_op]. *)
  Section Coefs5.
    Variable cfg : etdcfg Rops.
    Hypothesis Hcut : 0 < modecutoff cfg.
    Hypothesis Hr : 0 < contour_radius cfg.
    Hypothesis HM : (0 < contour_points cfg)%nat.
    Variables l l' : inst XL -> cvec.
    Notation z := (fun i => vscal (A := Cops) (i_h i) (l i)).
    Notation z' := (fun i => vscal (A := Fops (i_a i)) (i_h i) (l' i)).
    Hypothesis Kz : ok z z'.
    Hypothesis Oz : oh z.
    Local Notation avg s f F Hp Hf HF := (ok_avg n q L XL PX N t0 t1 rho K u fd J HS kap cfg Hr HM z z' s f F Hp Hf HF Kz Oz).
    Let Hs := ev_small n XL PX N t0 t1 rho u kap z z' (modecutoff cfg) Hcut Kz Oz.
    Let P1 := psi1_ok n XL PX N t0 t1 rho u kap.
    Let P2 := psi2_ok n XL PX N t0 t1 rho u kap.
    Let P3 := psi3_ok n XL PX N t0 t1 rho u kap.
    Ltac field_tac :=
      lazymatch goal with
      | |- exp_ok _ _ => split; [ok_tac|eexists; split; [|intros i; reflexivity]; oh_tac]
      | |- coef_ok _ _ => split; [apply (ok_mask n XL PX N t0 t1 rho u kap z z' (modecutoff cfg) Hs); ok_tac|apply (oh_mask n XL PX N t0 t1 rho u kap z z' (modecutoff cfg) Hs); oh_tac]
      end.
    Theorem etd5_coefs_ok (o : etd5_coefs cvec) (o' : inst XL -> etd5_coefs cvec) :
      coefs5_ok (fun i => snd (etd5d_coeffs Rops Cops cfg (l i) (i_h i) o)) (fun i => snd (etd5d_coeffs Rops (Fops (i_a i)) cfg (l' i) (i_h i) (o' i))).
    Proof.
      assert (S4 := scale_div 4). assert (S2 := scale_div 2). assert (S34 := scale_34). assert (S1 := scale_id).
      assert (R4 : 0 < / 4) by lra. assert (R2 : 0 < / 2) by lra. assert (R34 : 0 < 3 / 4) by lra. assert (R1 : 0 < 1) by lra.
      destruct (avg (/ 4) _ _ R4 S4 P1) as [B1 Q1]. destruct (avg (/ 4) _ _ R4 S4 P2) as [B2 Q2]. destruct (avg (/ 2) _ _ R2 S2 P1) as [B3 Q3]. destruct (avg (/ 2) _ _ R2 S2 P2) as [B4 Q4]. destruct (avg (3 / 4) _ _ R34 S34 P1) as [B5 Q5]. destruct (avg (3 / 4) _ _ R34 S34 P2) as [B6 Q6]. destruct (avg (1) _ _ R1 S1 P1) as [B7 Q7]. destruct (avg (1) _ _ R1 S1 P2) as [B8 Q8]. destruct (avg (1) _ _ R1 S1 P3) as [B9 Q9].
      split; unfold etd5d_coeffs; cbv zeta; cbn [snd e5_EL14 e5_EL12 e5_EL34 e5_EL e5_a21 e5_a31 e5_a32 e5_a41 e5_a43 e5_a51 e5_a52 e5_a54 e5_a61 e5_a62 e5_a63 e5_a65 e5_b1 e5_b3 e5_b4 e5_b5 e5_b6]; field_tac.
    Qed.
  End Coefs5.
End Stages.
