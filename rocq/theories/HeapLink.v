(** * The value models are the value executions of the array programs

    For each of the sixteen strategies: running the array programs of [HeapSchemes.v] on values
    is the method of [Solvers.v], exceptions included. Together with [hexec_value] this carries
    the results about [cs_model] and [as_model] over to arrays on a heap. *)

From Coq Require Import ZArith List Bool String Lia Arith.
From Verif Require Import Scalars Control Arrays SchemeBase SchemeIF SchemeETD4 SchemeETD5 Solvers Heap HeapSchemes HeapModel.
Import ListNotations.
Local Open Scope string_scope.

Set Implicit Arguments.

Section Generic.
  Variable F : tops.
  Variable A : aops F.
  Variable W : Type.
  Variable nl : vec A -> W -> (exn + vec A) * W.
  Variables K X : Type.
  Variable sc : scheme A.
  (** Coefficients and surviving arrays held by the variables; the operator is where it should be. *)
  Variable absK : store A -> K.
  Variable absX : store A -> X.
  Variable const : store A -> Prop.
  Notation st := (sst (T F) K X).
  Notation abs g := (mk_sst (g_h g) (g_init g) (absK (g_vars g)) (absX (g_vars g))).

  Variable ucoef : T F -> K -> (exn + unit) * K.
  Variable init : vec A -> M st W unit.

  Definition link_u : Prop := forall s c, absK (sset s "u" c) = absK s /\ absX (sset s "u" c) = absX s /\
    (const s -> const (sset s "u" c)).
  Definition link_coef : Prop := forall h s w, const s ->
    let '(r, s', w') := vexec nl (sc_coef sc h) s w in
    w' = w /\ ucoef h (absK s) = (r, absK s') /\ absX s' = absX s /\ const s' /\ s' "u" = s "u".
  Definition link_init : Prop := forall s w u h b, const s -> s "u" = Vc u ->
    let '(r, s', w') := vexec nl (sc_init sc) s w in
    init u (mk_sst h b (absK s) (absX s)) w = (r, mk_sst h b (absK s') (absX s'), w') /\ const s' /\ s' "u" = s "u".

  Definition put_u (g : gst F (store A)) (u : vec A) : gst F (store A) :=
    mk_gst (g_h g) (g_init g) (sset (g_vars g) "u" (Vc u)).

  Variable stages : vec A -> T F -> M st W (vec A).
  Definition link_stage : Prop := forall b s w u h hc, const s -> s "u" = Vc u ->
    let '(r, s', w') := vexec nl (sc_stage sc b false h) s w in
    stages u h (mk_sst hc true (absK s) (absX s)) w =
      (match r with inl e => inl e | inr _ => inr (asv (s' (sc_ret sc))) end, mk_sst hc true (absK s') (absX s'), w') /\
    const s' /\ (r = inr tt -> exists v, s' (sc_ret sc) = Vc v).
  Variable astages : bool -> vec A -> T F -> M st W (vec A * vec A).
  Definition link_astage : Prop := forall b a s w u h hc, const s -> s "u" = Vc u ->
    let '(r, s', w') := vexec nl (sc_stage sc b a h) s w in
    astages a u h (mk_sst hc true (absK s) (absX s)) w =
      (match r with inl e => inl e | inr _ => inr (asv (s' (sc_ret sc)), asv (s' (sc_err sc))) end,
       mk_sst hc true (absK s') (absX s'), w') /\
    const s' /\ (r = inr tt -> exists v e, s' (sc_ret sc) = Vc v /\ s' (sc_err sc) = Vc e).

  Theorem cs_linked : link_u -> link_coef -> link_init -> link_stage -> forall g u h w, const (g_vars g) ->
    let '(r, g', w') := g_update (vexec nl) sc false h (put_u g u) w in
    cs_update_stages F (vec A) W K X ucoef init stages u h (abs g) w =
      (match r with inl e => inl e | inr _ => inr (asv (g_vars g' (sc_ret sc))) end, abs g', w') /\
    const (g_vars g') /\ (r = inr tt -> exists v, g_vars g' (sc_ret sc) = Vc v).
  Proof.
    intros HU HC HI HS g u h w Hc. unfold g_update, cs_update_stages, put_u, bind, s_update_coeffs, get, upd, ret, M.
    cbn [g_h g_init g_vars h_coeff coefs mem n1_init set_h set_coefs set_init].
    destruct (HU (g_vars g) (Vc u)) as (U1 & U2 & U3). specialize (U3 Hc).
    set (s0 := sset (g_vars g) "u" (Vc u)) in *. assert (Su : s0 "u" = Vc u) by reflexivity.
    rewrite <- U1, <- U2. clearbody s0. clear Hc U1 U2.
    assert (C := HC h s0 w U3).
    assert (E : exists r1 s1, (if same_h F h (g_h g) then (inr tt, s0, w) else vexec nl (sc_coef sc h) s0 w) = (r1, s1, w) /\
      (if same_h F h (g_h g) then (inr tt, mk_sst (g_h g) (g_init g) (absK s0) (absX s0), w)
       else let '(r, c) := ucoef h (absK s0) in (r, mk_sst (Some h) (g_init g) c (absX s0), w)) =
      (r1, mk_sst (if same_h F h (g_h g) then g_h g else Some h) (g_init g) (absK s1) (absX s1), w) /\
      const s1 /\ s1 "u" = Vc u).
    { destruct (same_h F h (g_h g)).
      - exists (inr tt), s0. auto.
      - destruct (vexec nl (sc_coef sc h) s0 w) as [[r1 s1] w1]. destruct C as (-> & -> & <- & C4 & C5).
        exists r1, s1. rewrite C5. auto. }
    destruct E as (r1 & s1 & -> & E2 & C1 & S1). unfold set_h, set_coefs in *. cbn [h_coeff coefs mem n1_init] in *.
    rewrite E2. clear E2 C.
    set (h1 := if same_h F h (g_h g) then g_h g else Some h).
    destruct r1 as [e|[]]; [repeat split; auto; discriminate|].
    cbn [h_coeff coefs mem n1_init].
    match goal with |- context [(if g_init g then ?a else ?b) ?c w] => set (I0 := (if g_init g then a else b) c w) end.
    assert (E : exists r2 s2 w2, (if g_init g then (inr tt, s1, w) else vexec nl (sc_init sc) s1 w) = (r2, s2, w2) /\
      I0 = (r2, mk_sst h1 (match r2 with inl _ => g_init g | inr _ => true end) (absK s2) (absX s2), w2) /\
      const s2 /\ s2 "u" = Vc u).
    { unfold I0. clear I0. assert (I := HI s1 w u h1 (g_init g) C1 S1). destruct (g_init g).
      - exists (inr tt), s1, w. auto.
      - destruct (vexec nl (sc_init sc) s1 w) as [[r2 s2] w2]. destruct I as (-> & I2 & I3).
        exists r2, s2, w2. rewrite I3. destruct r2 as [e|[]]; auto. }
    destruct E as (r2 & s2 & w2 & -> & E2 & C2 & S2). rewrite E2. clear E2.
    destruct r2 as [e|[]]; [repeat split; auto; discriminate|].
    assert (Q := HS (g_init g) s2 w2 u h h1 C2 S2).
    destruct (vexec nl (sc_stage sc (g_init g) false h) s2 w2) as [[r3 s3] w3]. cbn [g_h g_init g_vars]. exact Q.
  Qed.
  Theorem as_linked : link_u -> link_coef -> link_init -> link_astage -> forall g a u h w, const (g_vars g) ->
    let '(r, g', w') := g_update (vexec nl) sc a h (put_u g u) w in
    as_update_stages F (vec A) W K X ucoef init astages a u h (abs g) w =
      (match r with inl e => inl e | inr _ => inr (asv (g_vars g' (sc_ret sc)), asv (g_vars g' (sc_err sc))) end, abs g', w') /\
    const (g_vars g') /\ (r = inr tt -> exists v e, g_vars g' (sc_ret sc) = Vc v /\ g_vars g' (sc_err sc) = Vc e).
  Proof.
    intros HU HC HI HS g a u h w Hc. unfold g_update, as_update_stages, put_u, bind, s_update_coeffs, get, upd, ret, M.
    cbn [g_h g_init g_vars h_coeff coefs mem n1_init set_h set_coefs set_init].
    destruct (HU (g_vars g) (Vc u)) as (U1 & U2 & U3). specialize (U3 Hc).
    set (s0 := sset (g_vars g) "u" (Vc u)) in *. assert (Su : s0 "u" = Vc u) by reflexivity.
    rewrite <- U1, <- U2. clearbody s0. clear Hc U1 U2.
    assert (C := HC h s0 w U3).
    assert (E : exists r1 s1, (if same_h F h (g_h g) then (inr tt, s0, w) else vexec nl (sc_coef sc h) s0 w) = (r1, s1, w) /\
      (if same_h F h (g_h g) then (inr tt, mk_sst (g_h g) (g_init g) (absK s0) (absX s0), w)
       else let '(r, c) := ucoef h (absK s0) in (r, mk_sst (Some h) (g_init g) c (absX s0), w)) =
      (r1, mk_sst (if same_h F h (g_h g) then g_h g else Some h) (g_init g) (absK s1) (absX s1), w) /\
      const s1 /\ s1 "u" = Vc u).
    { destruct (same_h F h (g_h g)).
      - exists (inr tt), s0. auto.
      - destruct (vexec nl (sc_coef sc h) s0 w) as [[r1 s1] w1]. destruct C as (-> & -> & <- & C4 & C5).
        exists r1, s1. rewrite C5. auto. }
    destruct E as (r1 & s1 & -> & E2 & C1 & S1). unfold set_h, set_coefs in *. cbn [h_coeff coefs mem n1_init] in *.
    rewrite E2. clear E2 C.
    set (h1 := if same_h F h (g_h g) then g_h g else Some h).
    destruct r1 as [e|[]]; [repeat split; auto; discriminate|].
    cbn [h_coeff coefs mem n1_init].
    match goal with |- context [(if g_init g then ?a else ?b) ?c w] => set (I0 := (if g_init g then a else b) c w) end.
    assert (E : exists r2 s2 w2, (if g_init g then (inr tt, s1, w) else vexec nl (sc_init sc) s1 w) = (r2, s2, w2) /\
      I0 = (r2, mk_sst h1 (match r2 with inl _ => g_init g | inr _ => true end) (absK s2) (absX s2), w2) /\
      const s2 /\ s2 "u" = Vc u).
    { unfold I0. clear I0. assert (I := HI s1 w u h1 (g_init g) C1 S1). destruct (g_init g).
      - exists (inr tt), s1, w. auto.
      - destruct (vexec nl (sc_init sc) s1 w) as [[r2 s2] w2]. destruct I as (-> & I2 & I3).
        exists r2, s2, w2. rewrite I3. destruct r2 as [e|[]]; auto. }
    destruct E as (r2 & s2 & w2 & -> & E2 & C2 & S2). rewrite E2. clear E2.
    destruct r2 as [e|[]]; [repeat split; auto; discriminate|].
    assert (Q := HS (g_init g) a s2 w2 u h h1 C2 S2).
    destruct (vexec nl (sc_stage sc (g_init g) a h) s2 w2) as [[r3 s3] w3]. cbn [g_h g_init g_vars]. exact Q.
  Qed.
End Generic.

(** ** The variables of each strategy as coefficients and surviving arrays *)
Section Abstraction.
  Variable F : tops.
  Variable A : aops F.
  Notation asv := (@asv F A).  Notation asm := (@asm' F A).  Notation ass := (@ass F A).
  Definition ab_ifv (s : store A) := mk_if_coefs (asv (s "_EL")) (asv (s "_EL2")).
  Definition ab_ifm (s : store A) := mk_if_coefs (asm (s "_EL")) (asm (s "_EL2")).
  Definition ab_e4v (s : store A) := mk_etd4_coefs (asv (s "_EL")) (asv (s "_EL2")) (asv (s "_a21")) (asv (s "_a31")) (asv (s "_a32")) (asv (s "_a41")) (asv (s "_a43")) (asv (s "_b1")) (asv (s "_b2")) (asv (s "_b4")).
  Definition ab_e4m (s : store A) := mk_etd4_coefs (asm (s "_EL")) (asm (s "_EL2")) (asm (s "_a21")) (asm (s "_a31")) (asm (s "_a32")) (asm (s "_a41")) (asm (s "_a43")) (asm (s "_b1")) (asm (s "_b2")) (asm (s "_b4")).
  Definition ab_e34v (s : store A) := mk_etd4_coefs (asv (s "_EL")) (asv (s "_EL2")) (asv (s "_a21")) (asv (s "_a31")) (asv (s "_a32")) (asv (s "_a41")) (asv (s "_a43")) (asv (s "_a51")) (asv (s "_a52")) (asv (s "_a54")).
  Definition ab_e34m (s : store A) := mk_etd4_coefs (asm (s "_EL")) (asm (s "_EL2")) (asm (s "_a21")) (asm (s "_a31")) (asm (s "_a32")) (asm (s "_a41")) (asm (s "_a43")) (asm (s "_a51")) (asm (s "_a52")) (asm (s "_a54")).
  Definition ab_e5v (s : store A) := mk_etd5_coefs (asv (s "_EL14")) (asv (s "_EL12")) (asv (s "_EL34")) (asv (s "_EL")) (asv (s "_a21")) (asv (s "_a31")) (asv (s "_a32")) (asv (s "_a41")) (asv (s "_a43")) (asv (s "_a51")) (asv (s "_a52")) (asv (s "_a54")) (asv (s "_a61")) (asv (s "_a62")) (asv (s "_a63")) (asv (s "_a65")) (asv (s "_b1")) (asv (s "_b3")) (asv (s "_b4")) (asv (s "_b5")) (asv (s "_b6")).
  Definition ab_e5m (s : store A) := mk_etd5_coefs (asm (s "_EL14")) (asm (s "_EL12")) (asm (s "_EL34")) (asm (s "_EL")) (asm (s "_a21")) (asm (s "_a31")) (asm (s "_a32")) (asm (s "_a41")) (asm (s "_a43")) (asm (s "_a51")) (asm (s "_a52")) (asm (s "_a54")) (asm (s "_a61")) (asm (s "_a62")) (asm (s "_a63")) (asm (s "_a65")) (asm (s "_b1")) (asm (s "_b3")) (asm (s "_b4")) (asm (s "_b5")) (asm (s "_b6")).
  Definition ab_e35v (s : store A) := mk_etd5_coefs (asv (s "_EL14")) (asv (s "_EL12")) (asv (s "_EL34")) (asv (s "_EL")) (asv (s "_a21")) (asv (s "_a31")) (asv (s "_a32")) (asv (s "_a41")) (asv (s "_a43")) (asv (s "_a51")) (asv (s "_a52")) (asv (s "_a54")) (asv (s "_a61")) (asv (s "_a62")) (asv (s "_a63")) (asv (s "_a65")) (asv (s "_a71")) (asv (s "_a73")) (asv (s "_a74")) (asv (s "_a75")) (asv (s "_a76")).
  Definition ab_e35m (s : store A) := mk_etd5_coefs (asm (s "_EL14")) (asm (s "_EL12")) (asm (s "_EL34")) (asm (s "_EL")) (asm (s "_a21")) (asm (s "_a31")) (asm (s "_a32")) (asm (s "_a41")) (asm (s "_a43")) (asm (s "_a51")) (asm (s "_a52")) (asm (s "_a54")) (asm (s "_a61")) (asm (s "_a62")) (asm (s "_a63")) (asm (s "_a65")) (asm (s "_a71")) (asm (s "_a73")) (asm (s "_a74")) (asm (s "_a75")) (asm (s "_a76")).
  Definition ab_dp (s : store A) := mk_dp_coefs (asv (s "_EL15")) (asv (s "_EL310")) (asv (s "_EL45")) (asv (s "_EL89")) (asv (s "_EL")) (asv (s "_a21")) (asv (s "_a31")) (asv (s "_a32")) (asv (s "_a41")) (asv (s "_a42")) (asv (s "_a43")) (asv (s "_a51")) (asv (s "_a52")) (asv (s "_a53")) (asv (s "_a54")) (asv (s "_a61")) (asv (s "_a62")) (asv (s "_a63")) (asv (s "_a64")) (asv (s "_a65")) (asv (s "_a71")) (asv (s "_a73")) (asv (s "_a74")) (asv (s "_a75")) (ass (s "_a76")) (asv (s "_r1")) (asv (s "_r3")) (asv (s "_r4")) (asv (s "_r5")) (ass (s "_r6")) (ass (s "_r7")).
  Definition ab_1 (s : store A) := mk_mem1 (asv (s "_NL1")).
  Definition ab_2 (s : store A) := mk_mem2 (asv (s "_NL1")) (asv (s "_NL5")).
  Definition ab_2' (s : store A) := mk_mem2 (asv (s "_NL1")) (asv (s "_NL7")).
  Definition ab_3 (s : store A) := mk_mem3 (asv (s "_NL1")) (asv (s "_NL5")) (asv (s "_v")).
  Definition ab_4 (s : store A) := mk_mem4 (asv (s "_NL1")) (asv (s "_v")).
End Abstraction.

Section Strategies.
  Variable F : tops.
  Variable A : aops F.
  Variable W : Type.
  Variable p : problem A W.
  Notation nl := (p_nl p).
  Notation css := (cs_scheme (p_cfg p) (p_size p) (p_expm p) (p_inv p)).
  Notation ass_ := (as_scheme (p_cfg p) (p_size p) (p_expm p) (p_inv p) (p_S p) (p_Sinv p) (p_eigs p)).

  (** The operator (and its eigendecomposition) in the attributes. *)
  Definition k_v (s : store A) : Prop := s "lin_op" = Vc (p_vec p).
  Definition k_m (s : store A) : Prop := s "lin_op" = Mc (p_mat p).
  Definition k_z (s : store A) : Prop :=
    s "_eig_vals" = Vc (p_eigs p) /\ s "_S" = Mc (p_S p) /\ s "_Sinv" = Mc (p_Sinv p).

  Lemma vexec_frame x : forall q s w r s' w', vexec nl q s w = (r, s', w') ->
    existsb (fun i => match i with Set_ y _ | Try_ y _ | Alias _ y _ | Call _ y _ | Write y _ => String.eqb x y end) q = false ->
    s' x = s x.
  Proof.
    induction q as [|i q IH]; intros s w r s' w' E N; cbn [vexec existsb] in *; [congruence|].
    apply orb_false_elim in N. destruct N as [N1 N2].
    assert (SS : forall y (c : cell A), String.eqb x y = false -> sset s y c x = s x).
    { intros y c Hy. apply sset_other. intros ->. rewrite String.eqb_refl in Hy. discriminate. }
    destruct i as [y e|y e|y z|y z|y e].
    - rewrite (IH _ _ _ _ _ E N2). apply SS, N1.
    - destruct (e s); [congruence|]. rewrite (IH _ _ _ _ _ E N2). apply SS, N1.
    - rewrite (IH _ _ _ _ _ E N2). apply SS, N1.
    - destruct (p_nl p (Heap.asv (s z)) w) as [[ex|v] w1]; [congruence|]. rewrite (IH _ _ _ _ _ E N2). apply SS, N1.
    - rewrite (IH _ _ _ _ _ E N2). apply SS, N1.
  Qed.

  (** A list of assignments. *)
  Fixpoint sets (q : list (instr A)) (s : store A) : store A :=
    match q with [] => s | Set_ x e :: q => sets q (sset s x (e s)) | _ :: q => sets q s end.
  Lemma sets_run : forall q, forallb (@is_set F A) q = true -> forall s w, vexec nl q s w = (inr tt, sets q s, w).
  Proof.
    induction q as [|i q IH]; intros Hq s w; [reflexivity|]. destruct i; try discriminate. apply IH, Hq.
  Qed.

  Ltac norm := lazy beta iota zeta delta
    [vexec sets sset String.eqb Ascii.eqb Bool.eqb Heap.asv Heap.asm' Heap.ass app map lib zeros_v zeros_m andb
     cs_scheme as_scheme sc_coef sc_init sc_stage sc_ret sc_err
     hif_coef_v hif_coef_m hinit_v hinit_z hif4d_stage hif4n_stage hif34d_stage hif34n_stage hif34z_stage hdp_coef hdp_stage
     hetd4d_coef hetd34d_coef hetd4d_stage hetd4n_stage hetd34d_stage hetd34n_stage hetd34z_stage
     hetd5d_coef hetd35d_coef hetd5d_stage hetd5n_stage hetd35d_stage hetd35n_stage hetd35z_stage
     ab_ifv ab_ifm ab_e4v ab_e4m ab_e34v ab_e34m ab_e5v ab_e5m ab_e35v ab_e35m ab_dp ab_1 ab_2 ab_2' ab_3 ab_4
     bind get upd call ret set_mem set_init coefs mem h_coeff n1_init M
     if_EL if_EL2 m1_NL1 m2_NL1 m2_NLn m3_NL1 m3_NLn m3_v m4_NL1 m4_v
     e4_EL e4_EL2 e4_a21 e4_a31 e4_a32 e4_a41 e4_a43 e4_b1 e4_b2 e4_b4
     e5_EL14 e5_EL12 e5_EL34 e5_EL e5_a21 e5_a31 e5_a32 e5_a41 e5_a43 e5_a51 e5_a52 e5_a54 e5_a61 e5_a62 e5_a63 e5_a65
     e5_b1 e5_b3 e5_b4 e5_b5 e5_b6
     dp_EL15 dp_EL310 dp_EL45 dp_EL89 dp_EL dp_a21 dp_a31 dp_a32 dp_a41 dp_a42 dp_a43 dp_a51 dp_a52 dp_a53 dp_a54 dp_a61 dp_a62 dp_a63 dp_a64 dp_a65 dp_a71 dp_a73 dp_a74 dp_a75 dp_a76 dp_r1 dp_r3 dp_r4 dp_r5 dp_r6 dp_r7
     if4d_coeffs if4d_init if4d_stages if4n_coeffs if4n_init if4n_stages if34d_coeffs if34d_init if34d_stages
     if34n_coeffs if34n_init if34n_stages if34z_coeffs if34z_init if34z_stages dp_coeffs
     etd4d_coeffs etd34_coeffs_of etd4d_init etd4d_stages etd4n_init etd4n_stages etd34d_coeffs etd34d_init etd34d_stages
     etd34z_coeffs etd34z_init etd34z_stages etd34n_init etd34n_stages
     etd5d_coeffs etd35_coeffs_of etd5d_init etd5d_stages etd5n_init etd5n_stages etd35d_coeffs etd35d_init etd35d_stages
     etd35z_coeffs etd35z_init etd35z_stages etd35n_init etd35n_stages].
  Ltac calls := repeat (match goal with |- context [p_nl p ?v ?w] => destruct (p_nl p v w) as [[?|?] ?] end; lazy beta iota).
  Ltac libs := repeat (match goal with |- context [p_expm p ?v] => destruct (p_expm p v) end; lazy beta iota).
  Ltac fin := repeat split; eauto; try discriminate.
  Ltac ku := intros s c; split; [reflexivity|]; split; [reflexivity|]; intros Hc; exact Hc.

  Lemma lk_u_IF4d : link_u (ab_ifv (A:=A)) (ab_1 (A:=A)) k_v.
  Proof. ku. Qed.
  Lemma lk_c_IF4d : link_coef nl (css IF4d) (ab_ifv (A:=A)) (ab_1 (A:=A)) k_v (if4d_coeffs F A (p_vec p)).
  Proof. intros h s w Hc. unfold k_v in *. rename Hc into E. norm. rewrite ?E. libs; fin. Qed.
  Lemma lk_i_IF4d : link_init nl (css IF4d) (ab_ifv (A:=A)) (ab_1 (A:=A)) k_v (if4d_init F A W nl).
  Proof. intros s w u h b Hc Hu. unfold k_v in *. rename Hc into E. norm. rewrite ?Hu. rewrite ?E. calls; fin. Qed.
  Lemma lk_s_IF4d : link_stage nl (css IF4d) (ab_ifv (A:=A)) (ab_1 (A:=A)) k_v (if4d_stages F A W nl).
  Proof. intros b s w u h hc Hc Hu. unfold k_v in *. rename Hc into E. norm. rewrite ?Hu. rewrite ?E. calls; fin. Qed.
  Lemma lk_u_IF4n : link_u (ab_ifm (A:=A)) (ab_1 (A:=A)) k_m.
  Proof. ku. Qed.
  Lemma lk_c_IF4n : link_coef nl (css IF4n) (ab_ifm (A:=A)) (ab_1 (A:=A)) k_m (if4n_coeffs F A (p_expm p) (p_mat p)).
  Proof. intros h s w Hc. unfold k_m in *. rename Hc into E. norm. rewrite ?E. libs; fin. Qed.
  Lemma lk_i_IF4n : link_init nl (css IF4n) (ab_ifm (A:=A)) (ab_1 (A:=A)) k_m (if4n_init F A W nl).
  Proof. intros s w u h b Hc Hu. unfold k_m in *. rename Hc into E. norm. rewrite ?Hu. rewrite ?E. calls; fin. Qed.
  Lemma lk_s_IF4n : link_stage nl (css IF4n) (ab_ifm (A:=A)) (ab_1 (A:=A)) k_m (if4n_stages F A W nl (p_size p)).
  Proof. intros b s w u h hc Hc Hu. unfold k_m in *. rename Hc into E. norm. rewrite ?Hu. rewrite ?E. calls; fin. Qed.
  Lemma lk_u_ETD4d : link_u (ab_e4v (A:=A)) (ab_1 (A:=A)) k_v.
  Proof. ku. Qed.
  Lemma lk_c_ETD4d : link_coef nl (css ETD4d) (ab_e4v (A:=A)) (ab_1 (A:=A)) k_v (etd4d_coeffs F A (p_cfg p) (p_vec p)).
  Proof. intros h s w Hc. unfold k_v in *. rename Hc into E. norm. rewrite ?E. libs; fin. Qed.
  Lemma lk_i_ETD4d : link_init nl (css ETD4d) (ab_e4v (A:=A)) (ab_1 (A:=A)) k_v (etd4d_init F A W nl).
  Proof. intros s w u h b Hc Hu. unfold k_v in *. rename Hc into E. norm. rewrite ?Hu. rewrite ?E. calls; fin. Qed.
  Lemma lk_s_ETD4d : link_stage nl (css ETD4d) (ab_e4v (A:=A)) (ab_1 (A:=A)) k_v (etd4d_stages F A W nl).
  Proof. intros b s w u h hc Hc Hu. unfold k_v in *. rename Hc into E. norm. rewrite ?Hu. rewrite ?E. calls; fin. Qed.
  Lemma lk_u_ETD4n : link_u (ab_e4m (A:=A)) (ab_1 (A:=A)) k_m.
  Proof. ku. Qed.
  Lemma lk_i_ETD4n : link_init nl (css ETD4n) (ab_e4m (A:=A)) (ab_1 (A:=A)) k_m (etd4n_init F A W nl).
  Proof. intros s w u h b Hc Hu. unfold k_m in *. rename Hc into E. norm. rewrite ?Hu. rewrite ?E. calls; fin. Qed.
  Lemma lk_s_ETD4n : link_stage nl (css ETD4n) (ab_e4m (A:=A)) (ab_1 (A:=A)) k_m (etd4n_stages F A W nl (p_size p)).
  Proof. intros b s w u h hc Hc Hu. unfold k_m in *. rename Hc into E. norm. rewrite ?Hu. rewrite ?E. calls; fin. Qed.
  Lemma lk_u_ETD5d : link_u (ab_e5v (A:=A)) (ab_1 (A:=A)) k_v.
  Proof. ku. Qed.
  Lemma lk_c_ETD5d : link_coef nl (css ETD5d) (ab_e5v (A:=A)) (ab_1 (A:=A)) k_v (etd5d_coeffs F A (p_cfg p) (p_vec p)).
  Proof. intros h s w Hc. unfold k_v in *. rename Hc into E. norm. rewrite ?E. libs; fin. Qed.
  Lemma lk_i_ETD5d : link_init nl (css ETD5d) (ab_e5v (A:=A)) (ab_1 (A:=A)) k_v (etd5d_init F A W nl).
  Proof. intros s w u h b Hc Hu. unfold k_v in *. rename Hc into E. norm. rewrite ?Hu. rewrite ?E. calls; fin. Qed.
  Lemma lk_s_ETD5d : link_stage nl (css ETD5d) (ab_e5v (A:=A)) (ab_1 (A:=A)) k_v (etd5d_stages F A W nl).
  Proof. intros b s w u h hc Hc Hu. unfold k_v in *. rename Hc into E. norm. rewrite ?Hu. rewrite ?E. calls; fin. Qed.
  Lemma lk_u_ETD5n : link_u (ab_e5m (A:=A)) (ab_1 (A:=A)) k_m.
  Proof. ku. Qed.
  Lemma lk_i_ETD5n : link_init nl (css ETD5n) (ab_e5m (A:=A)) (ab_1 (A:=A)) k_m (etd5n_init F A W nl).
  Proof. intros s w u h b Hc Hu. unfold k_m in *. rename Hc into E. norm. rewrite ?Hu. rewrite ?E. calls; fin. Qed.
  Lemma lk_s_ETD5n : link_stage nl (css ETD5n) (ab_e5m (A:=A)) (ab_1 (A:=A)) k_m (etd5n_stages F A W nl (p_size p)).
  Proof. intros b s w u h hc Hc Hu. unfold k_m in *. rename Hc into E. norm. rewrite ?Hu. rewrite ?E. calls; fin. Qed.
  Lemma lk_u_IF34d : link_u (ab_ifv (A:=A)) (ab_2 (A:=A)) k_v.
  Proof. ku. Qed.
  Lemma lk_c_IF34d : link_coef nl (ass_ IF34d) (ab_ifv (A:=A)) (ab_2 (A:=A)) k_v (if34d_coeffs F A (p_vec p)).
  Proof. intros h s w Hc. unfold k_v in *. rename Hc into E. norm. rewrite ?E. libs; fin. Qed.
  Lemma lk_i_IF34d : link_init nl (ass_ IF34d) (ab_ifv (A:=A)) (ab_2 (A:=A)) k_v (if34d_init F A W nl).
  Proof. intros s w u h b Hc Hu. unfold k_v in *. rename Hc into E. norm. rewrite ?Hu. rewrite ?E. calls; fin. Qed.
  Lemma lk_s_IF34d : link_astage nl (ass_ IF34d) (ab_ifv (A:=A)) (ab_2 (A:=A)) k_v (if34d_stages F A W nl).
  Proof. intros b [] s w u h hc Hc Hu; unfold k_v in *; rename Hc into E; norm; rewrite ?Hu; rewrite ?E; calls; fin. Qed.
  Lemma lk_u_IF34n : link_u (ab_ifm (A:=A)) (ab_2 (A:=A)) k_m.
  Proof. ku. Qed.
  Lemma lk_c_IF34n : link_coef nl (ass_ IF34n) (ab_ifm (A:=A)) (ab_2 (A:=A)) k_m (if34n_coeffs F A (p_expm p) (p_mat p)).
  Proof. intros h s w Hc. unfold k_m in *. rename Hc into E. norm. rewrite ?E. libs; fin. Qed.
  Lemma lk_i_IF34n : link_init nl (ass_ IF34n) (ab_ifm (A:=A)) (ab_2 (A:=A)) k_m (if34n_init F A W nl).
  Proof. intros s w u h b Hc Hu. unfold k_m in *. rename Hc into E. norm. rewrite ?Hu. rewrite ?E. calls; fin. Qed.
  Lemma lk_s_IF34n : link_astage nl (ass_ IF34n) (ab_ifm (A:=A)) (ab_2 (A:=A)) k_m (if34n_stages F A W nl (p_size p)).
  Proof. intros b [] s w u h hc Hc Hu; unfold k_m in *; rename Hc into E; norm; rewrite ?Hu; rewrite ?E; calls; fin. Qed.
  Lemma lk_u_IF34z : link_u (ab_ifv (A:=A)) (ab_3 (A:=A)) k_z.
  Proof. ku. Qed.
  Lemma lk_c_IF34z : link_coef nl (ass_ IF34z) (ab_ifv (A:=A)) (ab_3 (A:=A)) k_z (if34z_coeffs F A (p_eigs p)).
  Proof. intros h s w Hc. unfold k_z in *. destruct Hc as (E & ES & ESi). norm. rewrite ?E, ?ES, ?ESi. libs; fin. Qed.
  Lemma lk_i_IF34z : link_init nl (ass_ IF34z) (ab_ifv (A:=A)) (ab_3 (A:=A)) k_z (if34z_init F A W nl (p_size p) (p_Sinv p)).
  Proof. intros s w u h b Hc Hu. unfold k_z in *. destruct Hc as (E & ES & ESi). norm. rewrite ?Hu. rewrite ?E, ?ES, ?ESi. calls; fin. Qed.
  Lemma lk_s_IF34z : link_astage nl (ass_ IF34z) (ab_ifv (A:=A)) (ab_3 (A:=A)) k_z (if34z_stages F A W nl (p_size p) (p_S p) (p_Sinv p)).
  Proof. intros b [] s w u h hc Hc Hu; unfold k_z in *; destruct Hc as (E & ES & ESi); norm; rewrite ?Hu; rewrite ?E, ?ES, ?ESi; calls; fin. Qed.
  Lemma lk_u_ETD34d : link_u (ab_e34v (A:=A)) (ab_2 (A:=A)) k_v.
  Proof. ku. Qed.
  Lemma lk_c_ETD34d : link_coef nl (ass_ ETD34d) (ab_e34v (A:=A)) (ab_2 (A:=A)) k_v (etd34d_coeffs F A (p_cfg p) (p_vec p)).
  Proof. intros h s w Hc. unfold k_v in *. rename Hc into E. norm. rewrite ?E. libs; fin. Qed.
  Lemma lk_i_ETD34d : link_init nl (ass_ ETD34d) (ab_e34v (A:=A)) (ab_2 (A:=A)) k_v (etd34d_init F A W nl).
  Proof. intros s w u h b Hc Hu. unfold k_v in *. rename Hc into E. norm. rewrite ?Hu. rewrite ?E. calls; fin. Qed.
  Lemma lk_s_ETD34d : link_astage nl (ass_ ETD34d) (ab_e34v (A:=A)) (ab_2 (A:=A)) k_v (etd34d_stages F A W nl).
  Proof. intros b [] s w u h hc Hc Hu; unfold k_v in *; rename Hc into E; norm; rewrite ?Hu; rewrite ?E; calls; fin. Qed.
  Lemma lk_u_ETD34n : link_u (ab_e34m (A:=A)) (ab_2 (A:=A)) k_m.
  Proof. ku. Qed.
  Lemma lk_i_ETD34n : link_init nl (ass_ ETD34n) (ab_e34m (A:=A)) (ab_2 (A:=A)) k_m (etd34n_init F A W nl).
  Proof. intros s w u h b Hc Hu. unfold k_m in *. rename Hc into E. norm. rewrite ?Hu. rewrite ?E. calls; fin. Qed.
  Lemma lk_s_ETD34n : link_astage nl (ass_ ETD34n) (ab_e34m (A:=A)) (ab_2 (A:=A)) k_m (etd34n_stages F A W nl (p_size p)).
  Proof. intros b [] s w u h hc Hc Hu; unfold k_m in *; rename Hc into E; norm; rewrite ?Hu; rewrite ?E; calls; fin. Qed.
  Lemma lk_u_ETD34z : link_u (ab_e34v (A:=A)) (ab_3 (A:=A)) k_z.
  Proof. ku. Qed.
  Lemma lk_c_ETD34z : link_coef nl (ass_ ETD34z) (ab_e34v (A:=A)) (ab_3 (A:=A)) k_z (etd34z_coeffs F A (p_cfg p) (p_eigs p)).
  Proof. intros h s w Hc. unfold k_z in *. destruct Hc as (E & ES & ESi). norm. rewrite ?E, ?ES, ?ESi. libs; fin. Qed.
  Lemma lk_i_ETD34z : link_init nl (ass_ ETD34z) (ab_e34v (A:=A)) (ab_3 (A:=A)) k_z (etd34z_init F A W nl (p_size p) (p_Sinv p)).
  Proof. intros s w u h b Hc Hu. unfold k_z in *. destruct Hc as (E & ES & ESi). norm. rewrite ?Hu. rewrite ?E, ?ES, ?ESi. calls; fin. Qed.
  Lemma lk_s_ETD34z : link_astage nl (ass_ ETD34z) (ab_e34v (A:=A)) (ab_3 (A:=A)) k_z (etd34z_stages F A W nl (p_size p) (p_S p) (p_Sinv p)).
  Proof. intros b [] s w u h hc Hc Hu; unfold k_z in *; destruct Hc as (E & ES & ESi); norm; rewrite ?Hu; rewrite ?E, ?ES, ?ESi; calls; fin. Qed.
  Lemma lk_u_ETD35d : link_u (ab_e35v (A:=A)) (ab_1 (A:=A)) k_v.
  Proof. ku. Qed.
  Lemma lk_c_ETD35d : link_coef nl (ass_ ETD35d) (ab_e35v (A:=A)) (ab_1 (A:=A)) k_v (etd35d_coeffs F A (p_cfg p) (p_vec p)).
  Proof. intros h s w Hc. unfold k_v in *. rename Hc into E. norm. rewrite ?E. libs; fin. Qed.
  Lemma lk_i_ETD35d : link_init nl (ass_ ETD35d) (ab_e35v (A:=A)) (ab_1 (A:=A)) k_v (etd35d_init F A W nl).
  Proof. intros s w u h b Hc Hu. unfold k_v in *. rename Hc into E. norm. rewrite ?Hu. rewrite ?E. calls; fin. Qed.
  Lemma lk_s_ETD35d : link_astage nl (ass_ ETD35d) (ab_e35v (A:=A)) (ab_1 (A:=A)) k_v (etd35d_stages F A W nl).
  Proof. intros b [] s w u h hc Hc Hu; unfold k_v in *; rename Hc into E; norm; rewrite ?Hu; rewrite ?E; calls; fin. Qed.
  Lemma lk_u_ETD35n : link_u (ab_e35m (A:=A)) (ab_1 (A:=A)) k_m.
  Proof. ku. Qed.
  Lemma lk_i_ETD35n : link_init nl (ass_ ETD35n) (ab_e35m (A:=A)) (ab_1 (A:=A)) k_m (etd35n_init F A W nl).
  Proof. intros s w u h b Hc Hu. unfold k_m in *. rename Hc into E. norm. rewrite ?Hu. rewrite ?E. calls; fin. Qed.
  Lemma lk_s_ETD35n : link_astage nl (ass_ ETD35n) (ab_e35m (A:=A)) (ab_1 (A:=A)) k_m (etd35n_stages F A W nl (p_size p)).
  Proof. intros b [] s w u h hc Hc Hu; unfold k_m in *; rename Hc into E; norm; rewrite ?Hu; rewrite ?E; calls; fin. Qed.
  Lemma lk_u_ETD35z : link_u (ab_e35v (A:=A)) (ab_4 (A:=A)) k_z.
  Proof. ku. Qed.
  Lemma lk_c_ETD35z : link_coef nl (ass_ ETD35z) (ab_e35v (A:=A)) (ab_4 (A:=A)) k_z (etd35z_coeffs F A (p_cfg p) (p_eigs p)).
  Proof. intros h s w Hc. unfold k_z in *. destruct Hc as (E & ES & ESi). norm. rewrite ?E, ?ES, ?ESi. libs; fin. Qed.
  Lemma lk_i_ETD35z : link_init nl (ass_ ETD35z) (ab_e35v (A:=A)) (ab_4 (A:=A)) k_z (etd35z_init F A W nl (p_size p) (p_Sinv p)).
  Proof. intros s w u h b Hc Hu. unfold k_z in *. destruct Hc as (E & ES & ESi). norm. rewrite ?Hu. rewrite ?E, ?ES, ?ESi. calls; fin. Qed.
  Lemma lk_s_ETD35z : link_astage nl (ass_ ETD35z) (ab_e35v (A:=A)) (ab_4 (A:=A)) k_z (etd35z_stages F A W nl (p_size p) (p_S p) (p_Sinv p)).
  Proof. intros b [] s w u h hc Hc Hu; unfold k_z in *; destruct Hc as (E & ES & ESi); norm; rewrite ?Hu; rewrite ?E, ?ES, ?ESi; calls; fin. Qed.
  Lemma vexec_app : forall a b s w, vexec nl (a ++ b) s w =
    match vexec nl a s w with (inr _, s1, w1) => vexec nl b s1 w1 | (inl e, s1, w1) => (inl e, s1, w1) end.
  Proof.
    induction a as [|i a IH]; intros b s w; cbn [app vexec]; [reflexivity|].
    destruct i as [y e|y e|y z|y z|y e]; try apply IH.
    - destruct (e s); [reflexivity|apply IH].
    - destruct (p_nl p (Heap.asv (s z)) w) as [[ex|v] w1]; [reflexivity|apply IH].
  Qed.


  Definition ab_psis4 (s : store A) := mk_psis4 (Heap.asm' (s "psi1_12")) (Heap.asm' (s "psi2_12")) (Heap.asm' (s "psi1_1")) (Heap.asm' (s "psi2_1")) (Heap.asm' (s "psi3_1")).
  Definition tmp4 := ["psi1_12"; "psi2_12"; "psi1_1"; "psi2_1"; "psi3_1"; "Q"; "Q2"].
  Lemma contour4 : forall pts q s w,
    match etd4_contour F A (p_cfg p) (p_inv p) (Heap.asm' (s "z")) pts (ab_psis4 s) with
    | inl e => exists s', vexec nl (flat_map (hetd4_point (p_cfg p) (p_inv p)) pts ++ q) s w = (inl e, s', w) /\
                 forall x, mem_s x tmp4 = false -> s' x = s x
    | inr P => exists s', vexec nl (flat_map (hetd4_point (p_cfg p) (p_inv p)) pts ++ q) s w = vexec nl q s' w /\ ab_psis4 s' = P /\
                 forall x, mem_s x tmp4 = false -> s' x = s x
    end.
  Proof.
    induction pts as [|pt pts IH]; intros q s w.
    { cbn [etd4_contour flat_map app]. exists s. auto. }
    assert (PT : forall r s1 w1, vexec nl (hetd4_point (p_cfg p) (p_inv p) pt) s w = (r, s1, w1) ->
      forall x, mem_s x tmp4 = false -> s1 x = s x).
    { intros r s1 w1 E x Hx. eapply vexec_frame; [exact E|]. unfold tmp4, mem_s in Hx. cbn [existsb] in Hx.
      repeat match goal with H : _ || _ = false |- _ => apply orb_false_elim in H; destruct H end.
      unfold hetd4_point, lib. cbn [existsb].
      repeat match goal with H : String.eqb x _ = false |- _ => rewrite !H; clear H end. reflexivity. }
    cbn [flat_map etd4_contour]. rewrite <- app_assoc.
    assert (SP : forall q', vexec nl (hetd4_point (p_cfg p) (p_inv p) pt ++ q') s w =
      match vexec nl (hetd4_point (p_cfg p) (p_inv p) pt) s w with
      | (inr _, s1, w1) => vexec nl q' s1 w1
      | (inl e, s1, w1) => (inl e, s1, w1)
      end) by (intros q'; apply vexec_app).
    rewrite SP. clear SP.
    set (z := Heap.asm' (s "z")) in *. unfold Heap.asm' in z.
    destruct (p_inv p (mscale pt (eye A) -m z)%arr) as [e|mQ] eqn:EQ.
    { assert (V : exists s1, vexec nl (hetd4_point (p_cfg p) (p_inv p) pt) s w = (inl e, s1, w)).
      { unfold hetd4_point, lib; norm; fold z; rewrite ?EQ; eexists; reflexivity. }
      destruct V as [s1 V]. rewrite V. exists s1. split; [reflexivity|]. eapply PT. exact V. }
    destruct (p_inv p (mscale pt (eye A) -m z /zm 2)%arr) as [e|mQ2] eqn:EQ2.
    { assert (V : exists s1, vexec nl (hetd4_point (p_cfg p) (p_inv p) pt) s w = (inl e, s1, w)).
      { unfold hetd4_point, lib; norm; fold z; rewrite ?EQ, ?EQ2; eexists; reflexivity. }
      destruct V as [s1 V]. rewrite V. exists s1. split; [reflexivity|]. eapply PT. exact V. }
    assert (V : exists s1, vexec nl (hetd4_point (p_cfg p) (p_inv p) pt) s w = (inr tt, s1, w) /\ Heap.asm' (s1 "z") = z /\
      ab_psis4 s1 = mk_psis4 (Heap.asm' (s "psi1_12") +m mscale (emul A pt (psi1 A pt)) mQ2 /sm npts (p_cfg p))%arr (Heap.asm' (s "psi2_12") +m mscale (emul A pt (psi2 A pt)) mQ2 /sm npts (p_cfg p))%arr (Heap.asm' (s "psi1_1") +m mscale (emul A pt (psi1 A pt)) mQ /sm npts (p_cfg p))%arr (Heap.asm' (s "psi2_1") +m mscale (emul A pt (psi2 A pt)) mQ /sm npts (p_cfg p))%arr (Heap.asm' (s "psi3_1") +m mscale (emul A pt (psi3 A pt)) mQ /sm npts (p_cfg p))%arr).
    { unfold hetd4_point, lib; norm; fold z; rewrite ?EQ, ?EQ2; eexists; split; [reflexivity|]. split; reflexivity. }
    destruct V as (s1 & V & Vz & Vp). rewrite V. assert (FR := PT _ _ _ V). specialize (IH q s1 w). rewrite Vz, Vp in IH.
    unfold ab_psis4. cbn [p4_1h p4_2h p4_1 p4_2 p4_3].
    destruct (etd4_contour F A (p_cfg p) (p_inv p) z pts _) as [e|P].
    - destruct IH as (s2 & I1 & I2). exists s2. split; [exact I1|]. intros x Hx. rewrite (I2 x Hx). apply FR, Hx.
    - destruct IH as (s2 & I1 & I2 & I3). exists s2. split; [exact I1|]. split; [exact I2|]. intros x Hx. rewrite (I3 x Hx). apply FR, Hx.
  Qed.


  Definition ab_psis5 (s : store A) := mk_psis5 (Heap.asm' (s "psi1_14")) (Heap.asm' (s "psi2_14")) (Heap.asm' (s "psi1_12")) (Heap.asm' (s "psi2_12")) (Heap.asm' (s "psi1_34")) (Heap.asm' (s "psi2_34")) (Heap.asm' (s "psi1_1")) (Heap.asm' (s "psi2_1")) (Heap.asm' (s "psi3_1")).
  Definition tmp5 := ["psi1_14"; "psi2_14"; "psi1_12"; "psi2_12"; "psi1_34"; "psi2_34"; "psi1_1"; "psi2_1"; "psi3_1"; "Q14"; "Q12"; "Q34"; "Q"].
  Lemma contour5 : forall pts q s w,
    match etd5_contour F A (p_cfg p) (p_inv p) (Heap.asm' (s "z")) pts (ab_psis5 s) with
    | inl e => exists s', vexec nl (flat_map (hetd5_point (p_cfg p) (p_inv p)) pts ++ q) s w = (inl e, s', w) /\
                 forall x, mem_s x tmp5 = false -> s' x = s x
    | inr P => exists s', vexec nl (flat_map (hetd5_point (p_cfg p) (p_inv p)) pts ++ q) s w = vexec nl q s' w /\ ab_psis5 s' = P /\
                 forall x, mem_s x tmp5 = false -> s' x = s x
    end.
  Proof.
    induction pts as [|pt pts IH]; intros q s w.
    { cbn [etd5_contour flat_map app]. exists s. auto. }
    assert (PT : forall r s1 w1, vexec nl (hetd5_point (p_cfg p) (p_inv p) pt) s w = (r, s1, w1) ->
      forall x, mem_s x tmp5 = false -> s1 x = s x).
    { intros r s1 w1 E x Hx. eapply vexec_frame; [exact E|]. unfold tmp5, mem_s in Hx. cbn [existsb] in Hx.
      repeat match goal with H : _ || _ = false |- _ => apply orb_false_elim in H; destruct H end.
      unfold hetd5_point, lib. cbn [existsb].
      repeat match goal with H : String.eqb x _ = false |- _ => rewrite !H; clear H end. reflexivity. }
    cbn [flat_map etd5_contour]. rewrite <- app_assoc.
    assert (SP : forall q', vexec nl (hetd5_point (p_cfg p) (p_inv p) pt ++ q') s w =
      match vexec nl (hetd5_point (p_cfg p) (p_inv p) pt) s w with
      | (inr _, s1, w1) => vexec nl q' s1 w1
      | (inl e, s1, w1) => (inl e, s1, w1)
      end) by (intros q'; apply vexec_app).
    rewrite SP. clear SP.
    set (z := Heap.asm' (s "z")) in *. unfold Heap.asm' in z.
    destruct (p_inv p (mscale pt (eye A) -m z /zm 4)%arr) as [e|mQ14] eqn:EQ14.
    { assert (V : exists s1, vexec nl (hetd5_point (p_cfg p) (p_inv p) pt) s w = (inl e, s1, w)).
      { unfold hetd5_point, lib; norm; fold z; rewrite ?EQ14; eexists; reflexivity. }
      destruct V as [s1 V]. rewrite V. exists s1. split; [reflexivity|]. eapply PT. exact V. }
    destruct (p_inv p (mscale pt (eye A) -m z /zm 2)%arr) as [e|mQ12] eqn:EQ12.
    { assert (V : exists s1, vexec nl (hetd5_point (p_cfg p) (p_inv p) pt) s w = (inl e, s1, w)).
      { unfold hetd5_point, lib; norm; fold z; rewrite ?EQ14, ?EQ12; eexists; reflexivity. }
      destruct V as [s1 V]. rewrite V. exists s1. split; [reflexivity|]. eapply PT. exact V. }
    destruct (p_inv p (mscale pt (eye A) -m 3 *zm z /zm 4)%arr) as [e|mQ34] eqn:EQ34.
    { assert (V : exists s1, vexec nl (hetd5_point (p_cfg p) (p_inv p) pt) s w = (inl e, s1, w)).
      { unfold hetd5_point, lib; norm; fold z; rewrite ?EQ14, ?EQ12, ?EQ34; eexists; reflexivity. }
      destruct V as [s1 V]. rewrite V. exists s1. split; [reflexivity|]. eapply PT. exact V. }
    destruct (p_inv p (mscale pt (eye A) -m z)%arr) as [e|mQ] eqn:EQ.
    { assert (V : exists s1, vexec nl (hetd5_point (p_cfg p) (p_inv p) pt) s w = (inl e, s1, w)).
      { unfold hetd5_point, lib; norm; fold z; rewrite ?EQ14, ?EQ12, ?EQ34, ?EQ; eexists; reflexivity. }
      destruct V as [s1 V]. rewrite V. exists s1. split; [reflexivity|]. eapply PT. exact V. }
    assert (V : exists s1, vexec nl (hetd5_point (p_cfg p) (p_inv p) pt) s w = (inr tt, s1, w) /\ Heap.asm' (s1 "z") = z /\
      ab_psis5 s1 = mk_psis5 (Heap.asm' (s "psi1_14") +m mscale (emul A pt (psi1 A pt)) mQ14 /sm npts (p_cfg p))%arr (Heap.asm' (s "psi2_14") +m mscale (emul A pt (psi2 A pt)) mQ14 /sm npts (p_cfg p))%arr (Heap.asm' (s "psi1_12") +m mscale (emul A pt (psi1 A pt)) mQ12 /sm npts (p_cfg p))%arr (Heap.asm' (s "psi2_12") +m mscale (emul A pt (psi2 A pt)) mQ12 /sm npts (p_cfg p))%arr (Heap.asm' (s "psi1_34") +m mscale (emul A pt (psi1 A pt)) mQ34 /sm npts (p_cfg p))%arr (Heap.asm' (s "psi2_34") +m mscale (emul A pt (psi2 A pt)) mQ34 /sm npts (p_cfg p))%arr (Heap.asm' (s "psi1_1") +m mscale (emul A pt (psi1 A pt)) mQ /sm npts (p_cfg p))%arr (Heap.asm' (s "psi2_1") +m mscale (emul A pt (psi2 A pt)) mQ /sm npts (p_cfg p))%arr (Heap.asm' (s "psi3_1") +m mscale (emul A pt (psi3 A pt)) mQ /sm npts (p_cfg p))%arr).
    { unfold hetd5_point, lib; norm; fold z; rewrite ?EQ14, ?EQ12, ?EQ34, ?EQ; eexists; split; [reflexivity|]. split; reflexivity. }
    destruct V as (s1 & V & Vz & Vp). rewrite V. assert (FR := PT _ _ _ V). specialize (IH q s1 w). rewrite Vz, Vp in IH.
    unfold ab_psis5. cbn [p5_14a p5_14b p5_12a p5_12b p5_34a p5_34b p5_1 p5_2 p5_3].
    destruct (etd5_contour F A (p_cfg p) (p_inv p) z pts _) as [e|P].
    - destruct IH as (s2 & I1 & I2). exists s2. split; [exact I1|]. intros x Hx. rewrite (I2 x Hx). apply FR, Hx.
    - destruct IH as (s2 & I1 & I2 & I3). exists s2. split; [exact I1|]. split; [exact I2|]. intros x Hx. rewrite (I3 x Hx). apply FR, Hx.
  Qed.


  (** Coefficients of the matrix strategies. *)
  Lemma lk_c_ETD4n : link_coef nl (css ETD4n) (ab_e4m (A:=A)) (ab_1 (A:=A)) k_m (etd4n_coeffs F A (p_cfg p) (p_expm p) (p_inv p) (p_mat p)).
  Proof.
    intros h s w E. unfold k_m in *. cbn [cs_scheme sc_coef]. unfold hetd4n_coef. rewrite vexec_app. unfold etd4n_coeffs.
    match goal with |- context [vexec nl ?q s w] => set (pre := q) end.
    destruct (p_expm p (h *sm p_mat p)%arr) as [e|EL] eqn:E1.
    { assert (V : exists s1, vexec nl pre s w = (inl e, s1, w) /\ ab_e4m s1 = ab_e4m s /\ ab_1 s1 = ab_1 s /\ s1 "lin_op" = s "lin_op" /\ s1 "u" = s "u").
      { unfold pre. norm. rewrite E, E1. eexists. split; [reflexivity|]. repeat split; try exact E. }
      destruct V as (s1 & -> & V1 & V2 & V3 & V4). rewrite V1, V2, V3. auto. }
    destruct (p_expm p ((h *sm p_mat p) /zm 2)%arr) as [e|EL2] eqn:E2.
    { assert (V : exists s1, vexec nl pre s w = (inl e, s1, w) /\ ab_e4m s1 = mk_etd4_coefs EL (e4_EL2 (ab_e4m s)) (e4_a21 (ab_e4m s))
        (e4_a31 (ab_e4m s)) (e4_a32 (ab_e4m s)) (e4_a41 (ab_e4m s)) (e4_a43 (ab_e4m s)) (e4_b1 (ab_e4m s)) (e4_b2 (ab_e4m s)) (e4_b4 (ab_e4m s)) /\
        ab_1 s1 = ab_1 s /\ s1 "lin_op" = s "lin_op" /\ s1 "u" = s "u").
      { unfold pre. norm. rewrite E, E1, E2. eexists. split; [reflexivity|]. repeat split; try exact E. }
      destruct V as (s1 & -> & V1 & V2 & V3 & V4). rewrite V1, V2, V3. auto. }
    assert (V : exists s1, vexec nl pre s w = (inr tt, s1, w) /\ Heap.asm' (s1 "z") = (h *sm p_mat p)%arr /\ s1 "_EL" = Mc EL /\ s1 "_EL2" = Mc EL2 /\
      forall x, mem_s x ["z"; "_EL"; "_EL2"] = false -> s1 x = s x).
    { destruct (vexec nl pre s w) as [[r s1] w1] eqn:V.
      assert (FR : forall x, mem_s x ["z"; "_EL"; "_EL2"] = false -> s1 x = s x).
      { intros x Hx. eapply vexec_frame; [exact V|]. unfold pre. exact Hx. }
      exists s1. revert V. unfold pre. norm. rewrite E, E1, E2. intros V. inversion V; subst. repeat split; exact FR. }
    destruct V as (s1 & -> & Z1 & EL1 & EL21 & F1). rewrite vexec_app.
    set (s2 := snd (fst (vexec nl (zeros_m A ["psi1_12"; "psi2_12"; "psi1_1"; "psi2_1"; "psi3_1"]) s1 w))).
    change (vexec nl (zeros_m A ["psi1_12"; "psi2_12"; "psi1_1"; "psi2_1"; "psi3_1"]) s1 w) with (inr tt : exn + unit, s2, w).
    assert (F2 : forall x, mem_s x tmp4 = false -> s2 x = s1 x).
    { intros x Hx. apply (@vexec_frame x (zeros_m A ["psi1_12"; "psi2_12"; "psi1_1"; "psi2_1"; "psi3_1"]) s1 w (inr tt) s2 w eq_refl). unfold tmp4, mem_s in Hx. cbn [existsb] in Hx.
      repeat match goal with H : _ || _ = false |- _ => apply orb_false_elim in H; destruct H end.
      unfold zeros_m. cbn [existsb map]. repeat match goal with H : String.eqb x _ = false |- _ => rewrite !H; clear H end. reflexivity. }
    assert (P2 : ab_psis4 s2 = mk_psis4 (mzero A) (mzero A) (mzero A) (mzero A) (mzero A)) by reflexivity.
    assert (Z2 : Heap.asm' (s2 "z") = (h *sm p_mat p)%arr) by exact Z1.
    clearbody s2.
    cbn beta iota. match goal with |- context [vexec nl (_ ++ ?q) s2 w] => set (post := q) end.
    assert (C := contour4 (nodes A (p_cfg p)) post s2 w). rewrite Z2, P2 in C.
    assert (FF : forall s3, (forall x, mem_s x tmp4 = false -> s3 x = s2 x) ->
      forall x, mem_s x (["z"; "_EL"; "_EL2"] ++ tmp4) = false -> s3 x = s x).
    { intros s3 H3 x Hx. unfold mem_s in Hx. rewrite existsb_app in Hx. apply orb_false_elim in Hx. destruct Hx as [Hx1 Hx2].
      rewrite (H3 x Hx2), (F2 x Hx2), (F1 x Hx1). reflexivity. }
    destruct (etd4_contour F A (p_cfg p) (p_inv p) (h *sm p_mat p)%arr (nodes A (p_cfg p)) _) as [e|P].
    { destruct C as (s3 & -> & F3). assert (G3 := FF s3 F3). split; [reflexivity|].
      assert (EL3 : s3 "_EL" = Mc EL) by (rewrite F3, F2 by reflexivity; exact EL1).
      assert (EL23 : s3 "_EL2" = Mc EL2) by (rewrite F3, F2 by reflexivity; exact EL21).
      unfold ab_e4m, ab_1. rewrite EL3, EL23. cbn [e4_a21 e4_a31 e4_a32 e4_a41 e4_a43 e4_b1 e4_b2 e4_b4 Heap.asm'].
      rewrite !(fun x => G3 x) by reflexivity. auto. }
    destruct C as (s3 & -> & P3 & F3). assert (G3 := FF s3 F3). destruct P as [q1 q2 q3 q4 q5]. unfold ab_psis4 in P3. inversion P3; subst.
    assert (EL3 : s3 "_EL" = Mc EL) by (rewrite F3, F2 by reflexivity; exact EL1).
    assert (EL23 : s3 "_EL2" = Mc EL2) by (rewrite F3, F2 by reflexivity; exact EL21).
    rewrite (sets_run post) by reflexivity. set (s4 := sets post s3).
    split; [reflexivity|]. split; [|split; [|split]].
    - unfold s4, post. norm. rewrite EL3, EL23. reflexivity.
    - change (ab_1 s4) with (ab_1 s3). unfold ab_1. rewrite G3 by reflexivity. reflexivity.
    - change (s4 "lin_op") with (s3 "lin_op"). rewrite G3 by reflexivity. exact E.
    - change (s4 "u") with (s3 "u"). apply G3. reflexivity.
  Qed.

  Lemma lk_c_ETD34n : link_coef nl (ass_ ETD34n) (ab_e34m (A:=A)) (ab_2 (A:=A)) k_m (etd4n_coeffs F A (p_cfg p) (p_expm p) (p_inv p) (p_mat p)).
  Proof.
    intros h s w E. unfold k_m in *. cbn [as_scheme sc_coef]. unfold hetd34n_coef. rewrite vexec_app. unfold etd4n_coeffs.
    match goal with |- context [vexec nl ?q s w] => set (pre := q) end.
    destruct (p_expm p (h *sm p_mat p)%arr) as [e|EL] eqn:E1.
    { assert (V : exists s1, vexec nl pre s w = (inl e, s1, w) /\ ab_e34m s1 = ab_e34m s /\ ab_2 s1 = ab_2 s /\ s1 "lin_op" = s "lin_op" /\ s1 "u" = s "u").
      { unfold pre. norm. rewrite E, E1. eexists. split; [reflexivity|]. repeat split; try exact E. }
      destruct V as (s1 & -> & V1 & V2 & V3 & V4). rewrite V1, V2, V3. auto. }
    destruct (p_expm p ((h *sm p_mat p) /zm 2)%arr) as [e|EL2] eqn:E2.
    { assert (V : exists s1, vexec nl pre s w = (inl e, s1, w) /\ ab_e34m s1 = mk_etd4_coefs EL (e4_EL2 (ab_e34m s)) (e4_a21 (ab_e34m s))
        (e4_a31 (ab_e34m s)) (e4_a32 (ab_e34m s)) (e4_a41 (ab_e34m s)) (e4_a43 (ab_e34m s)) (e4_b1 (ab_e34m s)) (e4_b2 (ab_e34m s)) (e4_b4 (ab_e34m s)) /\
        ab_2 s1 = ab_2 s /\ s1 "lin_op" = s "lin_op" /\ s1 "u" = s "u").
      { unfold pre. norm. rewrite E, E1, E2. eexists. split; [reflexivity|]. repeat split; try exact E. }
      destruct V as (s1 & -> & V1 & V2 & V3 & V4). rewrite V1, V2, V3. auto. }
    assert (V : exists s1, vexec nl pre s w = (inr tt, s1, w) /\ Heap.asm' (s1 "z") = (h *sm p_mat p)%arr /\ s1 "_EL" = Mc EL /\ s1 "_EL2" = Mc EL2 /\
      forall x, mem_s x ["z"; "_EL"; "_EL2"] = false -> s1 x = s x).
    { destruct (vexec nl pre s w) as [[r s1] w1] eqn:V.
      assert (FR : forall x, mem_s x ["z"; "_EL"; "_EL2"] = false -> s1 x = s x).
      { intros x Hx. eapply vexec_frame; [exact V|]. unfold pre. exact Hx. }
      exists s1. revert V. unfold pre. norm. rewrite E, E1, E2. intros V. inversion V; subst. repeat split; exact FR. }
    destruct V as (s1 & -> & Z1 & EL1 & EL21 & F1). rewrite vexec_app.
    set (s2 := snd (fst (vexec nl (zeros_m A ["psi1_12"; "psi2_12"; "psi1_1"; "psi2_1"; "psi3_1"]) s1 w))).
    change (vexec nl (zeros_m A ["psi1_12"; "psi2_12"; "psi1_1"; "psi2_1"; "psi3_1"]) s1 w) with (inr tt : exn + unit, s2, w).
    assert (F2 : forall x, mem_s x tmp4 = false -> s2 x = s1 x).
    { intros x Hx. apply (@vexec_frame x (zeros_m A ["psi1_12"; "psi2_12"; "psi1_1"; "psi2_1"; "psi3_1"]) s1 w (inr tt) s2 w eq_refl). unfold tmp4, mem_s in Hx. cbn [existsb] in Hx.
      repeat match goal with H : _ || _ = false |- _ => apply orb_false_elim in H; destruct H end.
      unfold zeros_m. cbn [existsb map]. repeat match goal with H : String.eqb x _ = false |- _ => rewrite !H; clear H end. reflexivity. }
    assert (P2 : ab_psis4 s2 = mk_psis4 (mzero A) (mzero A) (mzero A) (mzero A) (mzero A)) by reflexivity.
    assert (Z2 : Heap.asm' (s2 "z") = (h *sm p_mat p)%arr) by exact Z1.
    clearbody s2.
    cbn beta iota. match goal with |- context [vexec nl (_ ++ ?q) s2 w] => set (post := q) end.
    assert (C := contour4 (nodes A (p_cfg p)) post s2 w). rewrite Z2, P2 in C.
    assert (FF : forall s3, (forall x, mem_s x tmp4 = false -> s3 x = s2 x) ->
      forall x, mem_s x (["z"; "_EL"; "_EL2"] ++ tmp4) = false -> s3 x = s x).
    { intros s3 H3 x Hx. unfold mem_s in Hx. rewrite existsb_app in Hx. apply orb_false_elim in Hx. destruct Hx as [Hx1 Hx2].
      rewrite (H3 x Hx2), (F2 x Hx2), (F1 x Hx1). reflexivity. }
    destruct (etd4_contour F A (p_cfg p) (p_inv p) (h *sm p_mat p)%arr (nodes A (p_cfg p)) _) as [e|P].
    { destruct C as (s3 & -> & F3). assert (G3 := FF s3 F3). split; [reflexivity|].
      assert (EL3 : s3 "_EL" = Mc EL) by (rewrite F3, F2 by reflexivity; exact EL1).
      assert (EL23 : s3 "_EL2" = Mc EL2) by (rewrite F3, F2 by reflexivity; exact EL21).
      unfold ab_e34m, ab_2. rewrite EL3, EL23. cbn [e4_a21 e4_a31 e4_a32 e4_a41 e4_a43 e4_b1 e4_b2 e4_b4 Heap.asm'].
      rewrite !(fun x => G3 x) by reflexivity. auto. }
    destruct C as (s3 & -> & P3 & F3). assert (G3 := FF s3 F3). destruct P as [q1 q2 q3 q4 q5]. unfold ab_psis4 in P3. inversion P3; subst.
    assert (EL3 : s3 "_EL" = Mc EL) by (rewrite F3, F2 by reflexivity; exact EL1).
    assert (EL23 : s3 "_EL2" = Mc EL2) by (rewrite F3, F2 by reflexivity; exact EL21).
    rewrite (sets_run post) by reflexivity. set (s4 := sets post s3).
    split; [reflexivity|]. split; [|split; [|split]].
    - unfold s4, post. norm. rewrite EL3, EL23. reflexivity.
    - change (ab_2 s4) with (ab_2 s3). unfold ab_2. rewrite !(fun x => G3 x) by reflexivity. reflexivity.
    - change (s4 "lin_op") with (s3 "lin_op"). rewrite G3 by reflexivity. exact E.
    - change (s4 "u") with (s3 "u"). apply G3. reflexivity.
  Qed.

  Lemma lk_c_ETD5n : link_coef nl (css ETD5n) (ab_e5m (A:=A)) (ab_1 (A:=A)) k_m (etd5n_coeffs F A (p_cfg p) (p_expm p) (p_inv p) (p_mat p)).
  Proof.
    intros h s w E. unfold k_m in *. cbn [cs_scheme sc_coef]. unfold hetd5n_coef. rewrite vexec_app. unfold etd5n_coeffs.
    match goal with |- context [vexec nl ?q s w] => set (pre := q) end.
    destruct (p_expm p (h *sm p_mat p /zm 4)%arr) as [e|EL14] eqn:E0.
    { assert (V : exists s1, vexec nl pre s w = (inl e, s1, w) /\
        ab_e5m s1 = mk_etd5_coefs (e5_EL14 (ab_e5m s)) (e5_EL12 (ab_e5m s)) (e5_EL34 (ab_e5m s)) (e5_EL (ab_e5m s)) (e5_a21 (ab_e5m s)) (e5_a31 (ab_e5m s)) (e5_a32 (ab_e5m s)) (e5_a41 (ab_e5m s)) (e5_a43 (ab_e5m s)) (e5_a51 (ab_e5m s)) (e5_a52 (ab_e5m s)) (e5_a54 (ab_e5m s)) (e5_a61 (ab_e5m s)) (e5_a62 (ab_e5m s)) (e5_a63 (ab_e5m s)) (e5_a65 (ab_e5m s)) (e5_b1 (ab_e5m s)) (e5_b3 (ab_e5m s)) (e5_b4 (ab_e5m s)) (e5_b5 (ab_e5m s)) (e5_b6 (ab_e5m s)) /\
        ab_1 s1 = ab_1 s /\ s1 "lin_op" = s "lin_op" /\ s1 "u" = s "u").
      { unfold pre. norm. rewrite E, E0. eexists. split; [reflexivity|]. repeat split; try exact E. }
      destruct V as (s1 & -> & V1 & V2 & V3 & V4). rewrite V1, V2, V3. auto. }
    destruct (p_expm p (h *sm p_mat p /zm 2)%arr) as [e|EL12] eqn:E1.
    { assert (V : exists s1, vexec nl pre s w = (inl e, s1, w) /\
        ab_e5m s1 = mk_etd5_coefs EL14 (e5_EL12 (ab_e5m s)) (e5_EL34 (ab_e5m s)) (e5_EL (ab_e5m s)) (e5_a21 (ab_e5m s)) (e5_a31 (ab_e5m s)) (e5_a32 (ab_e5m s)) (e5_a41 (ab_e5m s)) (e5_a43 (ab_e5m s)) (e5_a51 (ab_e5m s)) (e5_a52 (ab_e5m s)) (e5_a54 (ab_e5m s)) (e5_a61 (ab_e5m s)) (e5_a62 (ab_e5m s)) (e5_a63 (ab_e5m s)) (e5_a65 (ab_e5m s)) (e5_b1 (ab_e5m s)) (e5_b3 (ab_e5m s)) (e5_b4 (ab_e5m s)) (e5_b5 (ab_e5m s)) (e5_b6 (ab_e5m s)) /\
        ab_1 s1 = ab_1 s /\ s1 "lin_op" = s "lin_op" /\ s1 "u" = s "u").
      { unfold pre. norm. rewrite E, E0, E1. eexists. split; [reflexivity|]. repeat split; try exact E. }
      destruct V as (s1 & -> & V1 & V2 & V3 & V4). rewrite V1, V2, V3. auto. }
    destruct (p_expm p (3 *zm (h *sm p_mat p) /zm 4)%arr) as [e|EL34] eqn:E2.
    { assert (V : exists s1, vexec nl pre s w = (inl e, s1, w) /\
        ab_e5m s1 = mk_etd5_coefs EL14 EL12 (e5_EL34 (ab_e5m s)) (e5_EL (ab_e5m s)) (e5_a21 (ab_e5m s)) (e5_a31 (ab_e5m s)) (e5_a32 (ab_e5m s)) (e5_a41 (ab_e5m s)) (e5_a43 (ab_e5m s)) (e5_a51 (ab_e5m s)) (e5_a52 (ab_e5m s)) (e5_a54 (ab_e5m s)) (e5_a61 (ab_e5m s)) (e5_a62 (ab_e5m s)) (e5_a63 (ab_e5m s)) (e5_a65 (ab_e5m s)) (e5_b1 (ab_e5m s)) (e5_b3 (ab_e5m s)) (e5_b4 (ab_e5m s)) (e5_b5 (ab_e5m s)) (e5_b6 (ab_e5m s)) /\
        ab_1 s1 = ab_1 s /\ s1 "lin_op" = s "lin_op" /\ s1 "u" = s "u").
      { unfold pre. norm. rewrite E, E0, E1, E2. eexists. split; [reflexivity|]. repeat split; try exact E. }
      destruct V as (s1 & -> & V1 & V2 & V3 & V4). rewrite V1, V2, V3. auto. }
    destruct (p_expm p (h *sm p_mat p)%arr) as [e|EL] eqn:E3.
    { assert (V : exists s1, vexec nl pre s w = (inl e, s1, w) /\
        ab_e5m s1 = mk_etd5_coefs EL14 EL12 EL34 (e5_EL (ab_e5m s)) (e5_a21 (ab_e5m s)) (e5_a31 (ab_e5m s)) (e5_a32 (ab_e5m s)) (e5_a41 (ab_e5m s)) (e5_a43 (ab_e5m s)) (e5_a51 (ab_e5m s)) (e5_a52 (ab_e5m s)) (e5_a54 (ab_e5m s)) (e5_a61 (ab_e5m s)) (e5_a62 (ab_e5m s)) (e5_a63 (ab_e5m s)) (e5_a65 (ab_e5m s)) (e5_b1 (ab_e5m s)) (e5_b3 (ab_e5m s)) (e5_b4 (ab_e5m s)) (e5_b5 (ab_e5m s)) (e5_b6 (ab_e5m s)) /\
        ab_1 s1 = ab_1 s /\ s1 "lin_op" = s "lin_op" /\ s1 "u" = s "u").
      { unfold pre. norm. rewrite E, E0, E1, E2, E3. eexists. split; [reflexivity|]. repeat split; try exact E. }
      destruct V as (s1 & -> & V1 & V2 & V3 & V4). rewrite V1, V2, V3. auto. }
    assert (V : exists s1, vexec nl pre s w = (inr tt, s1, w) /\ Heap.asm' (s1 "z") = (h *sm p_mat p)%arr /\
      s1 "_EL14" = Mc EL14 /\ s1 "_EL12" = Mc EL12 /\ s1 "_EL34" = Mc EL34 /\ s1 "_EL" = Mc EL /\
      forall x, mem_s x ["z"; "_EL14"; "_EL12"; "_EL34"; "_EL"] = false -> s1 x = s x).
    { destruct (vexec nl pre s w) as [[r s1] w1] eqn:V.
      assert (FR : forall x, mem_s x ["z"; "_EL14"; "_EL12"; "_EL34"; "_EL"] = false -> s1 x = s x).
      { intros x Hx. eapply vexec_frame; [exact V|]. unfold pre. exact Hx. }
      exists s1. revert V. unfold pre. norm. rewrite E, E0, E1, E2, E3. intros V. inversion V; subst. repeat split; exact FR. }
    destruct V as (s1 & -> & Z1 & L1 & L2 & L3 & L4 & F1). rewrite vexec_app.
    set (s2 := snd (fst (vexec nl (zeros_m A ["psi1_14"; "psi2_14"; "psi1_12"; "psi2_12"; "psi1_34"; "psi2_34"; "psi1_1"; "psi2_1"; "psi3_1"]) s1 w))).
    change (vexec nl (zeros_m A ["psi1_14"; "psi2_14"; "psi1_12"; "psi2_12"; "psi1_34"; "psi2_34"; "psi1_1"; "psi2_1"; "psi3_1"]) s1 w) with (inr tt : exn + unit, s2, w).
    assert (F2 : forall x, mem_s x tmp5 = false -> s2 x = s1 x).
    { intros x Hx. apply (@vexec_frame x (zeros_m A ["psi1_14"; "psi2_14"; "psi1_12"; "psi2_12"; "psi1_34"; "psi2_34"; "psi1_1"; "psi2_1"; "psi3_1"]) s1 w (inr tt) s2 w eq_refl).
      unfold tmp5, mem_s in Hx. cbn [existsb] in Hx.
      repeat match goal with H : _ || _ = false |- _ => apply orb_false_elim in H; destruct H end.
      unfold zeros_m. cbn [existsb map]. repeat match goal with H : String.eqb x _ = false |- _ => rewrite !H; clear H end. reflexivity. }
    assert (P2 : ab_psis5 s2 = mk_psis5 (mzero A) (mzero A) (mzero A) (mzero A) (mzero A) (mzero A) (mzero A) (mzero A) (mzero A)) by reflexivity.
    assert (Z2 : Heap.asm' (s2 "z") = (h *sm p_mat p)%arr) by exact Z1.
    clearbody s2.
    cbn beta iota. match goal with |- context [vexec nl (_ ++ ?q) s2 w] => set (post := q) end.
    assert (C := contour5 (nodes A (p_cfg p)) post s2 w). rewrite Z2, P2 in C.
    assert (FF : forall s3, (forall x, mem_s x tmp5 = false -> s3 x = s2 x) ->
      forall x, mem_s x (["z"; "_EL14"; "_EL12"; "_EL34"; "_EL"] ++ tmp5) = false -> s3 x = s x).
    { intros s3 H3 x Hx. unfold mem_s in Hx. rewrite existsb_app in Hx. apply orb_false_elim in Hx. destruct Hx as [Hx1 Hx2].
      rewrite (H3 x Hx2), (F2 x Hx2), (F1 x Hx1). reflexivity. }
    assert (LL : forall s3, (forall x, mem_s x tmp5 = false -> s3 x = s2 x) ->
      s3 "_EL14" = Mc EL14 /\ s3 "_EL12" = Mc EL12 /\ s3 "_EL34" = Mc EL34 /\ s3 "_EL" = Mc EL).
    { intros s3 F3. rewrite !(fun x => F3 x) by reflexivity. rewrite !(fun x => F2 x) by reflexivity. auto. }
    destruct (etd5_contour F A (p_cfg p) (p_inv p) (h *sm p_mat p)%arr (nodes A (p_cfg p)) _) as [e|P].
    { destruct C as (s3 & -> & F3). assert (G3 := FF s3 F3). split; [reflexivity|].
      destruct (LL s3 F3) as (M1 & M2 & M3 & M4).
      unfold ab_e5m, ab_1. rewrite M1, M2, M3, M4. cbn [e5_a21 e5_a31 e5_a32 e5_a41 e5_a43 e5_a51 e5_a52 e5_a54 e5_a61 e5_a62 e5_a63 e5_a65 e5_b1 e5_b3 e5_b4 e5_b5 e5_b6 Heap.asm'].
      rewrite !(fun x => G3 x) by reflexivity. auto. }
    destruct C as (s3 & -> & P3 & F3). assert (G3 := FF s3 F3). destruct P as [q1 q2 q3 q4 q5 q6 q7 q8 q9]. unfold ab_psis5 in P3. inversion P3; subst.
    destruct (LL s3 F3) as (M1 & M2 & M3 & M4).
    rewrite (sets_run post) by reflexivity. set (s4 := sets post s3).
    split; [reflexivity|]. split; [|split; [|split]].
    - unfold s4, post. norm. rewrite M1, M2, M3, M4. reflexivity.
    - change (ab_1 s4) with (ab_1 s3). unfold ab_1. rewrite !(fun x => G3 x) by reflexivity. reflexivity.
    - change (s4 "lin_op") with (s3 "lin_op"). rewrite G3 by reflexivity. exact E.
    - change (s4 "u") with (s3 "u"). apply G3. reflexivity.
  Qed.

  Lemma lk_c_ETD35n : link_coef nl (ass_ ETD35n) (ab_e35m (A:=A)) (ab_1 (A:=A)) k_m (etd5n_coeffs F A (p_cfg p) (p_expm p) (p_inv p) (p_mat p)).
  Proof.
    intros h s w E. unfold k_m in *. cbn [as_scheme sc_coef]. unfold hetd35n_coef. rewrite vexec_app. unfold etd5n_coeffs.
    match goal with |- context [vexec nl ?q s w] => set (pre := q) end.
    destruct (p_expm p (h *sm p_mat p /zm 4)%arr) as [e|EL14] eqn:E0.
    { assert (V : exists s1, vexec nl pre s w = (inl e, s1, w) /\
        ab_e35m s1 = mk_etd5_coefs (e5_EL14 (ab_e35m s)) (e5_EL12 (ab_e35m s)) (e5_EL34 (ab_e35m s)) (e5_EL (ab_e35m s)) (e5_a21 (ab_e35m s)) (e5_a31 (ab_e35m s)) (e5_a32 (ab_e35m s)) (e5_a41 (ab_e35m s)) (e5_a43 (ab_e35m s)) (e5_a51 (ab_e35m s)) (e5_a52 (ab_e35m s)) (e5_a54 (ab_e35m s)) (e5_a61 (ab_e35m s)) (e5_a62 (ab_e35m s)) (e5_a63 (ab_e35m s)) (e5_a65 (ab_e35m s)) (e5_b1 (ab_e35m s)) (e5_b3 (ab_e35m s)) (e5_b4 (ab_e35m s)) (e5_b5 (ab_e35m s)) (e5_b6 (ab_e35m s)) /\
        ab_1 s1 = ab_1 s /\ s1 "lin_op" = s "lin_op" /\ s1 "u" = s "u").
      { unfold pre. norm. rewrite E, E0. eexists. split; [reflexivity|]. repeat split; try exact E. }
      destruct V as (s1 & -> & V1 & V2 & V3 & V4). rewrite V1, V2, V3. auto. }
    destruct (p_expm p (h *sm p_mat p /zm 2)%arr) as [e|EL12] eqn:E1.
    { assert (V : exists s1, vexec nl pre s w = (inl e, s1, w) /\
        ab_e35m s1 = mk_etd5_coefs EL14 (e5_EL12 (ab_e35m s)) (e5_EL34 (ab_e35m s)) (e5_EL (ab_e35m s)) (e5_a21 (ab_e35m s)) (e5_a31 (ab_e35m s)) (e5_a32 (ab_e35m s)) (e5_a41 (ab_e35m s)) (e5_a43 (ab_e35m s)) (e5_a51 (ab_e35m s)) (e5_a52 (ab_e35m s)) (e5_a54 (ab_e35m s)) (e5_a61 (ab_e35m s)) (e5_a62 (ab_e35m s)) (e5_a63 (ab_e35m s)) (e5_a65 (ab_e35m s)) (e5_b1 (ab_e35m s)) (e5_b3 (ab_e35m s)) (e5_b4 (ab_e35m s)) (e5_b5 (ab_e35m s)) (e5_b6 (ab_e35m s)) /\
        ab_1 s1 = ab_1 s /\ s1 "lin_op" = s "lin_op" /\ s1 "u" = s "u").
      { unfold pre. norm. rewrite E, E0, E1. eexists. split; [reflexivity|]. repeat split; try exact E. }
      destruct V as (s1 & -> & V1 & V2 & V3 & V4). rewrite V1, V2, V3. auto. }
    destruct (p_expm p (3 *zm (h *sm p_mat p) /zm 4)%arr) as [e|EL34] eqn:E2.
    { assert (V : exists s1, vexec nl pre s w = (inl e, s1, w) /\
        ab_e35m s1 = mk_etd5_coefs EL14 EL12 (e5_EL34 (ab_e35m s)) (e5_EL (ab_e35m s)) (e5_a21 (ab_e35m s)) (e5_a31 (ab_e35m s)) (e5_a32 (ab_e35m s)) (e5_a41 (ab_e35m s)) (e5_a43 (ab_e35m s)) (e5_a51 (ab_e35m s)) (e5_a52 (ab_e35m s)) (e5_a54 (ab_e35m s)) (e5_a61 (ab_e35m s)) (e5_a62 (ab_e35m s)) (e5_a63 (ab_e35m s)) (e5_a65 (ab_e35m s)) (e5_b1 (ab_e35m s)) (e5_b3 (ab_e35m s)) (e5_b4 (ab_e35m s)) (e5_b5 (ab_e35m s)) (e5_b6 (ab_e35m s)) /\
        ab_1 s1 = ab_1 s /\ s1 "lin_op" = s "lin_op" /\ s1 "u" = s "u").
      { unfold pre. norm. rewrite E, E0, E1, E2. eexists. split; [reflexivity|]. repeat split; try exact E. }
      destruct V as (s1 & -> & V1 & V2 & V3 & V4). rewrite V1, V2, V3. auto. }
    destruct (p_expm p (h *sm p_mat p)%arr) as [e|EL] eqn:E3.
    { assert (V : exists s1, vexec nl pre s w = (inl e, s1, w) /\
        ab_e35m s1 = mk_etd5_coefs EL14 EL12 EL34 (e5_EL (ab_e35m s)) (e5_a21 (ab_e35m s)) (e5_a31 (ab_e35m s)) (e5_a32 (ab_e35m s)) (e5_a41 (ab_e35m s)) (e5_a43 (ab_e35m s)) (e5_a51 (ab_e35m s)) (e5_a52 (ab_e35m s)) (e5_a54 (ab_e35m s)) (e5_a61 (ab_e35m s)) (e5_a62 (ab_e35m s)) (e5_a63 (ab_e35m s)) (e5_a65 (ab_e35m s)) (e5_b1 (ab_e35m s)) (e5_b3 (ab_e35m s)) (e5_b4 (ab_e35m s)) (e5_b5 (ab_e35m s)) (e5_b6 (ab_e35m s)) /\
        ab_1 s1 = ab_1 s /\ s1 "lin_op" = s "lin_op" /\ s1 "u" = s "u").
      { unfold pre. norm. rewrite E, E0, E1, E2, E3. eexists. split; [reflexivity|]. repeat split; try exact E. }
      destruct V as (s1 & -> & V1 & V2 & V3 & V4). rewrite V1, V2, V3. auto. }
    assert (V : exists s1, vexec nl pre s w = (inr tt, s1, w) /\ Heap.asm' (s1 "z") = (h *sm p_mat p)%arr /\
      s1 "_EL14" = Mc EL14 /\ s1 "_EL12" = Mc EL12 /\ s1 "_EL34" = Mc EL34 /\ s1 "_EL" = Mc EL /\
      forall x, mem_s x ["z"; "_EL14"; "_EL12"; "_EL34"; "_EL"] = false -> s1 x = s x).
    { destruct (vexec nl pre s w) as [[r s1] w1] eqn:V.
      assert (FR : forall x, mem_s x ["z"; "_EL14"; "_EL12"; "_EL34"; "_EL"] = false -> s1 x = s x).
      { intros x Hx. eapply vexec_frame; [exact V|]. unfold pre. exact Hx. }
      exists s1. revert V. unfold pre. norm. rewrite E, E0, E1, E2, E3. intros V. inversion V; subst. repeat split; exact FR. }
    destruct V as (s1 & -> & Z1 & L1 & L2 & L3 & L4 & F1). rewrite vexec_app.
    set (s2 := snd (fst (vexec nl (zeros_m A ["psi1_14"; "psi2_14"; "psi1_12"; "psi2_12"; "psi1_34"; "psi2_34"; "psi1_1"; "psi2_1"; "psi3_1"]) s1 w))).
    change (vexec nl (zeros_m A ["psi1_14"; "psi2_14"; "psi1_12"; "psi2_12"; "psi1_34"; "psi2_34"; "psi1_1"; "psi2_1"; "psi3_1"]) s1 w) with (inr tt : exn + unit, s2, w).
    assert (F2 : forall x, mem_s x tmp5 = false -> s2 x = s1 x).
    { intros x Hx. apply (@vexec_frame x (zeros_m A ["psi1_14"; "psi2_14"; "psi1_12"; "psi2_12"; "psi1_34"; "psi2_34"; "psi1_1"; "psi2_1"; "psi3_1"]) s1 w (inr tt) s2 w eq_refl).
      unfold tmp5, mem_s in Hx. cbn [existsb] in Hx.
      repeat match goal with H : _ || _ = false |- _ => apply orb_false_elim in H; destruct H end.
      unfold zeros_m. cbn [existsb map]. repeat match goal with H : String.eqb x _ = false |- _ => rewrite !H; clear H end. reflexivity. }
    assert (P2 : ab_psis5 s2 = mk_psis5 (mzero A) (mzero A) (mzero A) (mzero A) (mzero A) (mzero A) (mzero A) (mzero A) (mzero A)) by reflexivity.
    assert (Z2 : Heap.asm' (s2 "z") = (h *sm p_mat p)%arr) by exact Z1.
    clearbody s2.
    cbn beta iota. match goal with |- context [vexec nl (_ ++ ?q) s2 w] => set (post := q) end.
    assert (C := contour5 (nodes A (p_cfg p)) post s2 w). rewrite Z2, P2 in C.
    assert (FF : forall s3, (forall x, mem_s x tmp5 = false -> s3 x = s2 x) ->
      forall x, mem_s x (["z"; "_EL14"; "_EL12"; "_EL34"; "_EL"] ++ tmp5) = false -> s3 x = s x).
    { intros s3 H3 x Hx. unfold mem_s in Hx. rewrite existsb_app in Hx. apply orb_false_elim in Hx. destruct Hx as [Hx1 Hx2].
      rewrite (H3 x Hx2), (F2 x Hx2), (F1 x Hx1). reflexivity. }
    assert (LL : forall s3, (forall x, mem_s x tmp5 = false -> s3 x = s2 x) ->
      s3 "_EL14" = Mc EL14 /\ s3 "_EL12" = Mc EL12 /\ s3 "_EL34" = Mc EL34 /\ s3 "_EL" = Mc EL).
    { intros s3 F3. rewrite !(fun x => F3 x) by reflexivity. rewrite !(fun x => F2 x) by reflexivity. auto. }
    destruct (etd5_contour F A (p_cfg p) (p_inv p) (h *sm p_mat p)%arr (nodes A (p_cfg p)) _) as [e|P].
    { destruct C as (s3 & -> & F3). assert (G3 := FF s3 F3). split; [reflexivity|].
      destruct (LL s3 F3) as (M1 & M2 & M3 & M4).
      unfold ab_e35m, ab_1. rewrite M1, M2, M3, M4. cbn [e5_a21 e5_a31 e5_a32 e5_a41 e5_a43 e5_a51 e5_a52 e5_a54 e5_a61 e5_a62 e5_a63 e5_a65 e5_b1 e5_b3 e5_b4 e5_b5 e5_b6 Heap.asm'].
      rewrite !(fun x => G3 x) by reflexivity. auto. }
    destruct C as (s3 & -> & P3 & F3). assert (G3 := FF s3 F3). destruct P as [q1 q2 q3 q4 q5 q6 q7 q8 q9]. unfold ab_psis5 in P3. inversion P3; subst.
    destruct (LL s3 F3) as (M1 & M2 & M3 & M4).
    rewrite (sets_run post) by reflexivity. set (s4 := sets post s3).
    split; [reflexivity|]. split; [|split; [|split]].
    - unfold s4, post. norm. rewrite M1, M2, M3, M4. reflexivity.
    - change (ab_1 s4) with (ab_1 s3). unfold ab_1. rewrite !(fun x => G3 x) by reflexivity. reflexivity.
    - change (s4 "lin_op") with (s3 "lin_op"). rewrite G3 by reflexivity. exact E.
    - change (s4 "u") with (s3 "u"). apply G3. reflexivity.
  Qed.


  (** IF45DP, whose wrapper is written differently. *)
  Lemma lk_u_IF45DPd : link_u (ab_dp (A:=A)) (ab_2' (A:=A)) k_v.
  Proof. ku. Qed.
  Lemma lk_c_IF45DPd : link_coef nl (ass_ IF45DPd) (ab_dp (A:=A)) (ab_2' (A:=A)) k_v (dp_coeffs F A (p_vec p)).
  Proof. intros h s w E. unfold k_v in *. norm. rewrite ?E. fin. Qed.
  (** The part of [dp_update_stages] after the first stage has been settled. *)
  Definition dp_tail (u : vec A) : M (sst (T F) (dp_coefs (vec A)  (T F)) (mem2 (vec A))) W (vec A * vec A) :=
    (fun s w => bind (get coefs) (fun c => bind (get mem) (fun m =>
      let NL1 := m2_NL1 m in
      bind (call nl (dp_EL15 c *v u +v dp_a21 c *v NL1)%arr) (fun NL2 =>
      bind (call nl (dp_EL310 c *v u +v dp_a31 c *v NL1 +v dp_a32 c *v NL2)%arr) (fun NL3 =>
      bind (call nl (dp_EL45 c *v u +v dp_a41 c *v NL1 +v dp_a42 c *v NL2 +v dp_a43 c *v NL3)%arr) (fun NL4 =>
      bind (call nl (dp_EL89 c *v u +v dp_a51 c *v NL1 +v dp_a52 c *v NL2 +v dp_a53 c *v NL3 +v dp_a54 c *v NL4)%arr) (fun NL5 =>
      bind (call nl (dp_EL c *v u +v dp_a61 c *v NL1 +v dp_a62 c *v NL2 +v dp_a63 c *v NL3 +v dp_a64 c *v NL4 +v dp_a65 c *v NL5)%arr) (fun NL6 =>
      let k := (dp_EL c *v u +v dp_a71 c *v NL1 +v dp_a73 c *v NL3 +v dp_a74 c *v NL4 +v dp_a75 c *v NL5 +v dp_a76 c *s NL6)%arr in
      bind (call nl k) (fun NL7 =>
      bind (upd (set_mem (mk_mem2 NL1 NL7))) (fun _ =>
      ret (k, (dp_r1 c *v NL1 +v dp_r3 c *v NL3 +v dp_r4 c *v NL4 +v dp_r5 c *v NL5 +v dp_r6 c *s NL6 +v dp_r7 c *s NL7)%arr)))))))))) s w).
  Lemma dp_unfold a u h : dp_update_stages F A W nl (p_vec p) a u h =
    bind (s_update_coeffs F W _ (mem2 (vec A)) (dp_coeffs F A (p_vec p)) h) (fun _ => bind (get n1_init) (fun b =>
      bind (if b then if a then bind (get mem) (fun m => upd (set_mem (mk_mem2 (m2_NLn m) (m2_NLn m)))) else ret tt
            else bind (call nl u) (fun n1 => bind (get mem) (fun m => bind (upd (set_mem (mk_mem2 n1 (m2_NLn m)))) (fun _ => upd (set_init true)))))
        (fun _ => dp_tail u))).
  Proof. reflexivity. Qed.
  Lemma vexec_set x e q s w : vexec nl (Set_ x e :: q) s w = vexec nl q (sset s x (e s)) w.
  Proof. reflexivity. Qed.
  Lemma dp_copy : hdp_stage A true true = Set_ "_NL1" (fun s => Vc (Heap.asv (s "_NL7"))) :: hdp_stage A false false.
  Proof. reflexivity. Qed.
  Lemma dp_plain : hdp_stage A true false = hdp_stage A false false.
  Proof. reflexivity. Qed.
  Lemma dp_first a : hdp_stage A false a = hdp_stage A false false.
  Proof. reflexivity. Qed.
  Lemma lk_dp_tail : forall s w u hc, k_v s -> s "u" = Vc u ->
    let '(r, s', w') := vexec nl (hdp_stage A false false) s w in
    dp_tail u (mk_sst hc true (ab_dp s) (ab_2' s)) w =
      (match r with inl e => inl e | inr _ => inr (Heap.asv (s' "_k"), Heap.asv (s' "_err")) end,
       mk_sst hc true (ab_dp s') (ab_2' s'), w') /\
    k_v s' /\ (r = inr tt -> exists v e, s' "_k" = Vc v /\ s' "_err" = Vc e).
  Proof.
    intros s w u hc Hc Su. unfold k_v, dp_tail in *. norm. rewrite ?Su. lazy beta iota. calls.
    all: split; [reflexivity|]; split; [exact Hc|].
    all: try discriminate.
    intros _. eexists. eexists. split; reflexivity.
  Qed.
  Theorem lk_IF45DPd : forall g a u h w, k_v (g_vars g) ->
    let '(r, g', w') := g_update (vexec nl) (ass_ IF45DPd) a h (put_u g u) w in
    dp_update_stages F A W nl (p_vec p) a u h (mk_sst (g_h g) (g_init g) (ab_dp (g_vars g)) (ab_2' (g_vars g))) w =
      (match r with inl e => inl e | inr _ => inr (Heap.asv (g_vars g' "_k"), Heap.asv (g_vars g' "_err")) end,
       mk_sst (g_h g') (g_init g') (ab_dp (g_vars g')) (ab_2' (g_vars g')), w') /\
    k_v (g_vars g') /\ (r = inr tt -> exists v e, g_vars g' "_k" = Vc v /\ g_vars g' "_err" = Vc e).
  Proof.
    intros g a u h w Hc. rewrite dp_unfold. unfold g_update, put_u. cbn [g_h g_init g_vars].
    destruct (lk_u_IF45DPd (g_vars g) (Vc u)) as (U1 & U2 & U3). specialize (U3 Hc).
    set (s0 := sset (g_vars g) "u" (Vc u)) in *. assert (Su : s0 "u" = Vc u) by reflexivity.
    rewrite <- U1, <- U2. clearbody s0. clear Hc U1 U2.
    assert (C := @lk_c_IF45DPd h s0 w U3).
    match goal with |- context [bind (s_update_coeffs F W ?K ?X ?c h) ?k ?st w] =>
      change (bind (s_update_coeffs F W K X c h) k st w) with
        (match s_update_coeffs F W K X c h st w with (inl e, s', w') => (inl e, s', w') | (inr x, s', w') => k x s' w' end) end.
    assert (E : exists r1 s1, (if same_h F h (g_h g) then (inr tt, s0, w) else vexec nl (sc_coef (ass_ IF45DPd) h) s0 w) = (r1, s1, w) /\
      s_update_coeffs F W _ _ (dp_coeffs F A (p_vec p)) h (mk_sst (g_h g) (g_init g) (ab_dp s0) (ab_2' s0)) w =
      (r1, mk_sst (if same_h F h (g_h g) then g_h g else Some h) (g_init g) (ab_dp s1) (ab_2' s1), w) /\
      k_v s1 /\ s1 "u" = Vc u).
    { unfold s_update_coeffs. cbn [h_coeff coefs set_h mem n1_init]. destruct (same_h F h (g_h g)).
      - exists (inr tt), s0. split; [reflexivity|]. split; [reflexivity|]. split; [exact U3|exact Su].
      - destruct (vexec nl (sc_coef (ass_ IF45DPd) h) s0 w) as [[r1 s1] w1]. destruct C as (-> & C2 & <- & C4 & C5).
        exists r1, s1. rewrite C2, C5. split; [reflexivity|]. split; [reflexivity|]. split; [exact C4|exact Su]. }
    destruct E as (r1 & s1 & -> & -> & C1 & S1).
    set (h1 := if same_h F h (g_h g) then g_h g else Some h). clear C Su U3.
    destruct r1 as [e|[]]; [split; [reflexivity|]; split; [exact C1|discriminate]|].
    assert (T := @lk_dp_tail).
    change (sc_ret (ass_ IF45DPd)) with "_k" in *. change (sc_err (ass_ IF45DPd)) with "_err" in *.
    change (sc_stage (ass_ IF45DPd) (g_init g) a h) with (hdp_stage A (g_init g) a).
    unfold bind at 1, get at 1. cbn [n1_init]. destruct (g_init g).
    - destruct a.
      + rewrite dp_copy, vexec_set.
        specialize (T (sset s1 "_NL1" (Vc (Heap.asv (s1 "_NL7")))) w u h1 C1 S1).
        destruct (vexec nl (hdp_stage A false false) _ w) as [[r3 s3] w3]. exact T.
      + specialize (T s1 w u h1 C1 S1).
        rewrite dp_plain.
        destruct (vexec nl (hdp_stage A false false) s1 w) as [[r3 s3] w3]. exact T.
    - change (sc_init (ass_ IF45DPd)) with (hinit_v A). unfold hinit_v. cbn [vexec].
      unfold bind at 1 2, call at 1. rewrite S1. cbn [Heap.asv].
      destruct (p_nl p u w) as [[e|n1] w1].
      { split; [reflexivity|]. split; [exact C1|discriminate]. }
      specialize (T (sset s1 "_NL1" (Vc n1)) w1 u h1 C1 S1).
      rewrite dp_first.
      destruct (vexec nl (hdp_stage A false false) _ w1) as [[r3 s3] w3]. exact T.
  Qed.

End Strategies.
