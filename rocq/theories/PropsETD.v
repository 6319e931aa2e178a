(** * C36-C38 *)

From Coq Require Import ZArith List Bool Reals Lra Lia FunctionalExtensionality QArith Qreals Setoid Morphisms.
From Coquelicot Require Import Hierarchy Derive RInt Complex.
From Verif Require Import Scalars Control ControlCS ControlCSReal ControlSim ControlSound Arrays SchemeBase
     SchemeIF SchemeETD4 SchemeETD5 Solvers SchemeFacts SchemeSound SchemeFamily SchemeForm CInst SpecRK
     SchemeIFReal PropsCache PropsIF SpecPhi ContourReal SpecERK SchemeETDReal SchemeETDCoefs PropsPsi.
Import ListNotations.
Local Open Scope R_scope.

(** ** Methods with exact phi functions of a 1-D operator *)
Definition dphi (h : R) (L : cvec) (r : nat) (q : R) : op := dfun h L (fun z => phi r (RtoC q * z))%C.
Definition kro (h : R) (L : cvec) : erk :=
  krogstad (dE h L (1/2)) (dE h L 1) (dphi h L 1 (1/2)) (dphi h L 2 (1/2)) (dphi h L 1 1) (dphi h L 2 1) (dphi h L 3 1).
Definition kro_embedded (h : R) (L : cvec) : erk :=
  krogstad_embedded (dE h L (1/2)) (dE h L 1) (dphi h L 1 (1/2)) (dphi h L 2 (1/2)) (dphi h L 1 1) (dphi h L 2 1) (dphi h L 3 1).
Definition etd5 (h : R) (L : cvec) : erk :=
  etd5_method (dE h L (1/4)) (dE h L (1/2)) (dE h L (3/4)) (dE h L 1) (dphi h L 1 (1/4)) (dphi h L 2 (1/4))
    (dphi h L 1 (1/2)) (dphi h L 2 (1/2)) (dphi h L 1 (3/4)) (dphi h L 2 (3/4)) (dphi h L 1 1) (dphi h L 2 1) (dphi h L 3 1).
Definition etd5_emb (h : R) (L : cvec) : erk :=
  etd5_embedded (dE h L (1/4)) (dE h L (1/2)) (dE h L (3/4)) (dE h L 1) (dphi h L 1 (1/4)) (dphi h L 2 (1/4))
    (dphi h L 1 (1/2)) (dphi h L 2 (1/2)) (dphi h L 1 (3/4)) (dphi h L 2 (3/4)) (dphi h L 1 1) (dphi h L 2 1) (dphi h L 3 1).

Lemma psi_code_phi r (z : C) : (1 <= r <= 3)%nat -> z <> 0 -> psi_code r z = (RtoC (INR (fact r)) * phi r z)%C.
Proof.
  intros Hr Hz. assert (r = 1 \/ r = 2 \/ r = 3)%nat as [-> | [-> | ->]] by lia; cbn [psi_code].
  - rewrite psi1_phi, fact1 by exact Hz. ceq. ring.
  - rewrite psi2_phi, fact2 by exact Hz. reflexivity.
  - rewrite psi3_phi, fact3 by exact Hz. reflexivity.
Qed.

Section Cfg.
  Variable cfg : etdcfg Rops.
  Hypothesis Hc0 : 0 < modecutoff cfg.

  (** Modes above the cutoff: exact. *)
  Lemma ph_big r q z : (1 <= r <= 3)%nat -> q <> 0 -> modecutoff cfg <= Cmod z ->
    ph cfg r q z = phi r (RtoC q * z)%C.
  Proof.
    intros Hr Hq Hz. unfold ph, psi_used. destruct (Rlt_dec _ _) as [H|_]; [lra|].
    rewrite psi_code_phi; [|exact Hr|].
    - rewrite Cmult_assoc, <- RtoC_mult, Rinv_l by apply INR_fact_neq. ring.
    - apply Cmult_neq_0; [apply C2_neq; exact Hq|]. intros E. rewrite E, Cmod_0 in Hz. lra.
  Qed.
  Lemma dph_big r q h L : (1 <= r <= 3)%nat -> q <> 0 -> (forall i, modecutoff cfg <= Cmod (RtoC h * L i)%C) ->
    dph cfg h L r q = dphi h L r q.
  Proof.
    intros Hr Hq HL. unfold dph, dphi, dfun. apply functional_extensionality; intros v.
    apply functional_extensionality; intros i. rewrite ph_big by auto. reflexivity.
  Qed.

  (** Modes below the cutoff: contour accuracy. *)
  Hypothesis HM : (0 < contour_points cfg)%nat.
  Hypothesis HR : modecutoff cfg <= contour_radius cfg.
  Definition quad_err (z : C) : R :=
    exp (Cmod z + contour_radius cfg) * contour_radius cfg ^ contour_points cfg / INR (fact (contour_points cfg)).
  Lemma ph_small r q z : (1 <= r <= 3)%nat -> 0 < q <= 1 -> Cmod z < modecutoff cfg ->
    Cmod (ph cfg r q z - phi r (RtoC q * z))%C <= quad_err z / INR (fact r).
  Proof.
    intros Hr Hq Hz. unfold ph, psi_used. destruct (Rlt_dec _ _) as [_|H]; [|lra].
    rewrite (csum_ext _ _ (fun j => RtoC (INR (fact r)) * phi r (RtoC q * (z + rho cfg j)))%C).
    2: { intros j _. apply psi_code_phi; [exact Hr|]. apply Cmult_neq_0; [apply C2_neq; lra|].
         apply (point_neq cfg HM (conj Hc0 HR) z j Hz). }
    rewrite csum_scal. destruct r as [|r]; [lia|].
    replace (RtoC (/ INR (fact (S r))) * (RtoC (INR (fact (S r))) * csum (contour_points cfg)
       (fun j => phi (S r) (RtoC q * (z + rho cfg j))) / RtoC (INR (contour_points cfg))))%C
      with (csum (contour_points cfg) (fun j => phi (S r) (RtoC q * (z + rho cfg j))) / RtoC (INR (contour_points cfg)))%C.
    2: { unfold Cdiv. rewrite !Cmult_assoc, <- RtoC_mult, Rinv_l by apply INR_fact_neq. ring. }
    assert (B := phi_mean cfg HM r q z ltac:(lra)). rewrite Rabs_pos_eq in B by lra. exact B.
  Qed.
  (** Every mode. *)
  Lemma ph_error r q z : (1 <= r <= 3)%nat -> 0 < q <= 1 ->
    Cmod (ph cfg r q z - phi r (RtoC q * z))%C <= quad_err z / INR (fact r).
  Proof.
    intros Hr Hq. destruct (Rlt_dec (Cmod z) (modecutoff cfg)) as [H|H].
    - apply ph_small; assumption.
    - rewrite ph_big; [|exact Hr|lra|lra].
      match goal with |- Cmod (?a - ?a)%C <= _ => replace (a - a)%C with (RtoC 0) by ring end. rewrite Cmod_0.
      unfold quad_err, Rdiv. repeat apply Rmult_le_pos; try (left; apply exp_pos); try (apply pow_le; lra);
        left; apply Rinv_0_lt_compat, INR_fact_lt_0.
  Qed.
End Cfg.

(** ** The step functions of the code *)
Section Steps.
  Variable W : Type.
  Variable p : problem Cops W.
  Variable N : vec Cops -> vec Cops.
  Notation cfg := (p_cfg p).
  Notation L := (p_vec p).

  Lemma etd4d_erk (h : R) u : cs_Phi p N ETD4d h u = erk_step (d_krogstad cfg h L) N h u.
  Proof.
    erewrite cs_Phi_form by reflexivity. cbn [cs_form].
    change (fst (@etd4_form Rops Cops _ (vmul (A := Cops)) N (snd (etd4d_coeffs Rops Cops cfg L h (cs_k0 Cops ETD4d))) u (N u))
            = erk_step (d_krogstad cfg h L) N h u).
    erewrite (etd4_form_erk _ _ vmul_act N) by apply etd4d_ok. reflexivity.
  Qed.
  Definition pair_of (m e : erk) (h : R) (u : cvec) : cvec * cvec :=
    (erk_step m N h u, fun i => (erk_step m N h u i - erk_step e N h u i)%C).
  Lemma cadd_minus (a b : cvec) : cadd a (cscal (RtoC (-1)) b) = (fun i => a i - b i)%C.
  Proof. apply functional_extensionality; intros i. unfold cadd, cscal. replace (RtoC (-1)) with (- RtoC 1)%C by (rewrite <- RtoC_opp; reflexivity). ring. Qed.
  Lemma etd34d_erk (h : R) u : as_Phi p N ETD34d h u = pair_of (d_krogstad cfg h L) (d_krogstad_embedded cfg h L) h u.
  Proof.
    erewrite as_Phi_form by reflexivity. cbn [as_form].
    change (@etd4_form Rops Cops _ (vmul (A := Cops)) N (snd (etd4d_coeffs Rops Cops cfg L h (as_k0 Cops ETD34d))) u (N u)
            = pair_of (d_krogstad cfg h L) (d_krogstad_embedded cfg h L) h u).
    erewrite (etd4_form_erk _ _ vmul_act N) by apply etd4d_ok. rewrite cadd_minus. reflexivity.
  Qed.
  Lemma etd5d_erk (h : R) u : cs_Phi p N ETD5d h u = erk_step (d_etd5 cfg h L) N h u.
  Proof.
    erewrite cs_Phi_form by reflexivity. cbn [cs_form].
    change (fst (@etd5_form Rops Cops _ (vmul (A := Cops)) N (snd (etd5d_coeffs Rops Cops cfg L h (cs_k0 Cops ETD5d))) u (N u))
            = erk_step (d_etd5 cfg h L) N h u).
    erewrite (etd5_form_erk _ _ vmul_act N) by apply etd5d_ok. reflexivity.
  Qed.
  Lemma etd35d_erk (h : R) u : as_Phi p N ETD35d h u = pair_of (d_etd5 cfg h L) (d_etd5_embedded cfg h L) h u.
  Proof.
    erewrite as_Phi_form by reflexivity. cbn [as_form].
    change (@etd5_form Rops Cops _ (vmul (A := Cops)) N
              (snd (etd35_coeffs_of Rops Cops cfg h (vscal (A := Cops) h L) (as_k0 Cops ETD35d))) u (N u)
            = pair_of (d_etd5 cfg h L) (d_etd5_embedded cfg h L) h u).
    erewrite (etd5_form_erk _ _ vmul_act N) by apply etd35_ok. rewrite cadd_minus. reflexivity.
  Qed.
End Steps.

(** ** C36: ETD4 and ETD34 are Krogstad's method *)

Lemma d_krogstad_big (cfg : etdcfg Rops) (h : R) (L : cvec) : 0 < modecutoff cfg -> (forall i, modecutoff cfg <= Cmod (RtoC h * L i)%C) ->
  d_krogstad cfg h L = kro h L /\ d_krogstad_embedded cfg h L = kro_embedded h L.
Proof.
  intros H0 HL. unfold d_krogstad, d_krogstad_embedded, kro, kro_embedded.
  rewrite !dph_big by (auto; try lia; lra). split; reflexivity.
Qed.

(** If every [|h L_i|] reaches the cutoff, one step is exactly Krogstad's step with the phi
    functions of [hL], and the error vector of ETD34 is the difference to the same step with the
    new value as fifth stage. *)
Theorem C36_exact_krogstad :
  forall (W : Type) (p : problem Cops W) (N : vec Cops -> vec Cops) (h : R) (u : vec Cops),
    0 < modecutoff (p_cfg p) -> (forall i, modecutoff (p_cfg p) <= Cmod (RtoC h * p_vec p i)%C) ->
    cs_Phi p N ETD4d h u = erk_step (kro h (p_vec p)) N h u /\
    fst (as_Phi p N ETD34d h u) = erk_step (kro h (p_vec p)) N h u /\
    forall i, snd (as_Phi p N ETD34d h u) i
              = (erk_step (kro h (p_vec p)) N h u i - erk_step (kro_embedded h (p_vec p)) N h u i)%C.
Proof.
  intros W p N h u H0 HL. rewrite etd4d_erk, etd34d_erk. destruct (d_krogstad_big _ h (p_vec p) H0 HL) as [-> ->].
  repeat split.
Qed.

(** In general (in particular for zero modes): Krogstad's step with functions that replace
    [phi_r(q z)] with error at most [e^(|z|+R) R^M / M! / r!]. *)
Theorem C36_krogstad_up_to_quadrature :
  forall (W : Type) (p : problem Cops W) (N : vec Cops -> vec Cops),
    let cfg := p_cfg p in
    0 < modecutoff cfg <= contour_radius cfg -> (0 < contour_points cfg)%nat ->
    exists f : nat -> R -> C -> C,
      (forall r q z, (1 <= r <= 3)%nat -> 0 < q <= 1 ->
         Cmod (f r q z - phi r (RtoC q * z))%C <=
         exp (Cmod z + contour_radius cfg) * contour_radius cfg ^ contour_points cfg
           / INR (fact (contour_points cfg)) / INR (fact r)) /\
      (forall r q z, (1 <= r <= 3)%nat -> 0 < q <= 1 -> modecutoff cfg <= Cmod z -> f r q z = phi r (RtoC q * z)%C) /\
      forall h u,
        let E q := dfun h (p_vec p) (fun z => Cexp (RtoC q * z))%C in
        let P r q := dfun h (p_vec p) (f r q) in
        let m := krogstad (E (1/2)) (E 1) (P 1%nat (1/2)) (P 2%nat (1/2)) (P 1%nat 1) (P 2%nat 1) (P 3%nat 1) in
        let e := krogstad_embedded (E (1/2)) (E 1) (P 1%nat (1/2)) (P 2%nat (1/2)) (P 1%nat 1) (P 2%nat 1) (P 3%nat 1) in
        cs_Phi p N ETD4d h u = erk_step m N h u /\
        as_Phi p N ETD34d h u = (erk_step m N h u, fun i => (erk_step m N h u i - erk_step e N h u i)%C).
Proof.
  intros W p N cfg [H0 HR] HM. exists (ph cfg). split; [|split].
  - intros r q z Hr Hq. apply (ph_error cfg H0 HM HR r q z Hr Hq).
  - intros r q z Hr Hq Hz. apply ph_big; [exact H0|exact Hr|lra|exact Hz].
  - intros h u E P m e. rewrite etd4d_erk, etd34d_erk. split; reflexivity.
Qed.

(** Without a linear part Krogstad's method is the classical one of order four, and the embedded
    method has order three. *)
Definition acts_as (q : Q) (o : op) : Prop := forall v, o v = cscal (RtoC (Q2R q)) v.
Lemma scalar_comb os qs : Forall2 (fun o q => acts_as q o) os qs -> forall ns, ocomb os ns = lincomb qs ns.
Proof.
  induction 1 as [|o q os qs Ho H IH]; intros ns; [reflexivity|]. destruct ns as [|n ns]; [reflexivity|].
  cbn [ocomb]. rewrite IH, Ho. reflexivity.
Qed.
Lemma scalar_step (m : erk) (tb : tableau) :
  Forall2 (fun (E : op) (c : Q) => forall v, E v = v) (er_E m) (tb_c tb) ->
  Forall2 (Forall2 (fun o q => acts_as q o)) (er_a m) (tb_a tb) ->
  (forall v, er_E1 m v = v) -> Forall2 (fun o q => acts_as q o) (er_b m) (tb_b tb) ->
  forall N h u, erk_step m N h u = rk_step tb (fun _ => N) 0 h u.
Proof.
  intros HE Ha H1 Hb N h u.
  assert (V : forall (E : op) os qs ns, (forall v, E v = v) -> Forall2 (fun o q => acts_as q o) os qs ->
            erk_value h u E os ns = (fun i => u i + RtoC h * lincomb qs ns i)%C).
  { intros E os qs ns H2 H3. unfold erk_value. rewrite H2, (scalar_comb _ _ H3). reflexivity. }
  unfold erk_step, rk_step. rewrite (V _ _ _ _ H1 Hb).
  replace (erk_stages N h u (er_E m) (er_a m) []) with (rk_stages (fun _ => N) 0 h u (tb_a tb) (tb_c tb) []); [reflexivity|].
  generalize (@nil cvec). revert HE Ha. generalize (er_E m) (tb_c tb) (er_a m) (tb_a tb).
  intros Es cs rows qrows HE. revert rows qrows. induction HE as [|E c Es cs HEc HE IH]; intros rows qrows Ha ns.
  - destruct rows, qrows; reflexivity.
  - inversion Ha as [|row qrow rows' qrows' Hr Ha']; subst; [reflexivity|].
    cbn [erk_stages rk_stages]. rewrite (V _ _ _ ns HEc Hr). apply IH. exact Ha'.
Qed.

Lemma dphi_0 h r q : acts_as (1 # Pos.of_nat (fact r)) (dphi h (fun _ => RtoC 0) r q).
Proof.
  intros v. unfold dphi, dfun, cscal. apply functional_extensionality; intros i.
  rewrite !Cmult_0_r, phi_0. f_equal. f_equal. unfold Q2R. cbn [Qnum Qden].
  assert (F := lt_O_fact r). rewrite INR_IZR_INZ. rewrite <- (Nat2Pos.id (fact r)) at 1 by lia. rewrite positive_nat_Z. ring.
Qed.
Lemma dE_0 h q v : dE h (fun _ => RtoC 0) q v = v.
Proof. unfold dE, dfun. apply functional_extensionality; intros i. rewrite !Cmult_0_r, Cexp_0. ring. Qed.
Lemma dphi_01 h q v : dphi h (fun _ => RtoC 0) 1 q v = cscal (RtoC 1) v.
Proof. rewrite dphi_0. f_equal. f_equal. unfold Q2R; cbn. field. Qed.
Lemma dphi_02 h q v : dphi h (fun _ => RtoC 0) 2 q v = cscal (RtoC (/ 2)) v.
Proof. rewrite dphi_0. f_equal. f_equal. unfold Q2R; cbn. field. Qed.
Lemma dphi_03 h q v : dphi h (fun _ => RtoC 0) 3 q v = cscal (RtoC (/ 6)) v.
Proof. rewrite dphi_0. f_equal. f_equal. unfold Q2R; cbn. field. Qed.
Ltac acts := let v := fresh "v" in let i := fresh "i" in intros v; unfold osub; unfold oadd, oscal, ozero;
  rewrite ?dphi_01, ?dphi_02, ?dphi_03; apply functional_extensionality; intros i; unfold cadd, cscal, Q2R; cbn [Qnum Qden];
  set (x := v i); clearbody x; destruct x as [x1 x2]; apply C_eq; cbn; field.

Theorem C36_classical_limit : forall (N : vec Cops -> vec Cops) (h : R) (u : vec Cops),
  erk_step (kro h (fun _ => RtoC 0)) N h u = rk_step RK4 (fun _ => N) 0 h u /\
  erk_step (kro_embedded h (fun _ => RtoC 0)) N h u
  = rk_step (without_weights RK4_fsal RK4_fsal_hat) (fun _ => N) 0 h u.
Proof.
  intros N h u. split; apply scalar_step.
  - repeat constructor; try apply dE_0.
  - repeat constructor; acts.
  - apply dE_0.
  - repeat constructor; acts.
  - repeat constructor; try apply dE_0.
  - repeat constructor; acts.
  - apply dE_0.
  - repeat constructor; acts.
Qed.
Theorem C36_orders :
  has_order (tb_a RK4) (tb_b RK4) (tb_c RK4) 4 /\ has_order (tb_a RK4_fsal) RK4_fsal_hat (tb_c RK4_fsal) 3.
Proof. exact (conj RK4_order RK4_fsal_hat_order). Qed.

(** ** C37: ETD5 and ETD35 *)

Lemma d_etd5_big (cfg : etdcfg Rops) (h : R) (L : cvec) :
  0 < modecutoff cfg -> (forall i, modecutoff cfg <= Cmod (RtoC h * L i)%C) ->
  d_etd5 cfg h L = etd5 h L /\ d_etd5_embedded cfg h L = etd5_emb h L.
Proof.
  intros H0 HL. unfold d_etd5, d_etd5_embedded, etd5, etd5_emb.
  rewrite !dph_big by (auto; try lia; lra). split; reflexivity.
Qed.
Theorem C37_exact_method :
  forall (W : Type) (p : problem Cops W) (N : vec Cops -> vec Cops) (h : R) (u : vec Cops),
    0 < modecutoff (p_cfg p) -> (forall i, modecutoff (p_cfg p) <= Cmod (RtoC h * p_vec p i)%C) ->
    cs_Phi p N ETD5d h u = erk_step (etd5 h (p_vec p)) N h u /\
    fst (as_Phi p N ETD35d h u) = erk_step (etd5 h (p_vec p)) N h u /\
    forall i, snd (as_Phi p N ETD35d h u) i
              = (erk_step (etd5 h (p_vec p)) N h u i - erk_step (etd5_emb h (p_vec p)) N h u i)%C.
Proof.
  intros W p N h u H0 HL. rewrite etd5d_erk, etd35d_erk. destruct (d_etd5_big _ h (p_vec p) H0 HL) as [-> ->].
  repeat split.
Qed.
(** In general: the same method with functions that replace [phi_r(q z)]. *)
Theorem C37_method_up_to_quadrature :
  forall (W : Type) (p : problem Cops W) (N : vec Cops -> vec Cops),
    let cfg := p_cfg p in
    0 < modecutoff cfg <= contour_radius cfg -> (0 < contour_points cfg)%nat ->
    exists f : nat -> R -> C -> C,
      (forall r q z, (1 <= r <= 3)%nat -> 0 < q <= 1 ->
         Cmod (f r q z - phi r (RtoC q * z))%C <=
         exp (Cmod z + contour_radius cfg) * contour_radius cfg ^ contour_points cfg
           / INR (fact (contour_points cfg)) / INR (fact r)) /\
      (forall r q z, (1 <= r <= 3)%nat -> 0 < q <= 1 -> modecutoff cfg <= Cmod z -> f r q z = phi r (RtoC q * z)%C) /\
      forall h u,
        let E q := dfun h (p_vec p) (fun z => Cexp (RtoC q * z))%C in
        let P r q := dfun h (p_vec p) (f r q) in
        let m := etd5_method (E (1/4)) (E (1/2)) (E (3/4)) (E 1) (P 1%nat (1/4)) (P 2%nat (1/4)) (P 1%nat (1/2)) (P 2%nat (1/2))
                   (P 1%nat (3/4)) (P 2%nat (3/4)) (P 1%nat 1) (P 2%nat 1) (P 3%nat 1) in
        cs_Phi p N ETD5d h u = erk_step m N h u /\ fst (as_Phi p N ETD35d h u) = erk_step m N h u.
Proof.
  intros W p N cfg [H0 HR] HM. exists (ph cfg). split; [|split].
  - intros r q z Hr Hq. apply (ph_error cfg H0 HM HR r q z Hr Hq).
  - intros r q z Hr Hq Hz. apply ph_big; [exact H0|exact Hr|lra|exact Hz].
  - intros h u E P m. rewrite etd5d_erk, etd35d_erk. split; reflexivity.
Qed.

(** Order conditions with exact phi functions, as identities of operators applied to any [v]. *)
Definition etd5_c : list R := [0; 1/4; 1/4; 1/2; 3/4; 1].
Definition at_nodes (k : nat) (cs : list R) (v : cvec) : list cvec := map (fun c => cscal (RtoC (c ^ k)) v) cs.
Lemma dphi_scal h L r q c v : dphi h L r q (cscal c v) = cscal c (dphi h L r q v).
Proof. apply functional_extensionality; intros i. unfold dphi, dfun, cscal. ring. Qed.
Ltac order_id h L v := cbn [etd5 etd5_method er_a er_b nth at_nodes map etd5_c ocomb firstn]; unfold osub; unfold oadd, oscal, ozero;
  rewrite ?dphi_scal; apply functional_extensionality; intros ?i; unfold cadd, cscal;
  repeat match goal with |- context [dphi h L ?r ?q v ?i] => let x := fresh "x" in set (x := dphi h L r q v i); clearbody x end;
  repeat match goal with x : C |- _ => destruct x end;
  cbn [pow]; apply C_eq; cbn; field.

Theorem C37_weights : forall (h : R) (L v : cvec),
  let b := er_b (etd5 h L) in
  ocomb b (at_nodes 0 etd5_c v) = dphi h L 1 1 v /\
  ocomb b (at_nodes 1 etd5_c v) = dphi h L 2 1 v /\
  ocomb b (at_nodes 2 etd5_c v) = cscal (RtoC 2) (dphi h L 3 1 v).
Proof. intros h L v b. unfold b. repeat split; order_id h L v. Qed.
Theorem C37_rows : forall (h : R) (L v : cvec) (i : nat), (i < 6)%nat ->
  let c := nth i etd5_c 0 in
  ocomb (nth i (er_a (etd5 h L)) []) (at_nodes 0 (firstn i etd5_c) v) = cscal (RtoC c) (dphi h L 1 c v) /\
  ((2 <= i)%nat ->
   ocomb (nth i (er_a (etd5 h L)) []) (at_nodes 1 (firstn i etd5_c) v) = cscal (RtoC (c ^ 2)) (dphi h L 2 c v)) /\
  length (nth i (er_a (etd5 h L)) []) = i /\
  forall u, nth i (er_E (etd5 h L)) ozero u = dE h L c u.
Proof.
  intros h L v i Hi.
  assert (E0 : forall u, u = dE h L 0 u).
  { intros u. unfold dE, dfun. apply functional_extensionality; intros j. rewrite Cmult_0_l, Cexp_0. ring. }
  do 6 (destruct i as [|i]; [split; [|split; [|split; [reflexivity|]]]; [order_id h L v|intros H2; try lia; order_id h L v|intros u; cbn; auto; try reflexivity]|]).
  lia.
Qed.

(** Without a linear part: Butcher's six-stage method of order five. *)
Open Scope Q_scope.
Definition Butcher6 : tableau :=
  mk_tableau [[]; [1#4]; [1#8; 1#8]; [0; 0; 1#2]; [3#16; -3#8; 3#8; 9#16]; [-3#7; 8#7; 6#7; -12#7; 8#7]]
    [7#90; 0; 32#90; 12#90; 32#90; 7#90] [0; 1#4; 1#4; 1#2; 3#4; 1].
(** Weights of the method embedded in ETD35. *)
Definition Butcher6_hat : list Q := [39#90; 0; -96#90; 204#90; -96#90; 39#90].
Close Scope Q_scope.
Theorem C37_classical_limit : forall (N : vec Cops -> vec Cops) (h : R) (u : vec Cops),
  erk_step (etd5 h (fun _ => RtoC 0)) N h u = rk_step Butcher6 (fun _ => N) 0 h u /\
  erk_step (etd5_emb h (fun _ => RtoC 0)) N h u = rk_step (without_weights Butcher6 Butcher6_hat) (fun _ => N) 0 h u.
Proof.
  intros N h u. split; apply scalar_step.
  - repeat constructor; try apply dE_0.
  - repeat constructor; acts.
  - apply dE_0.
  - repeat constructor; acts.
  - repeat constructor; try apply dE_0.
  - repeat constructor; acts.
  - apply dE_0.
  - repeat (apply Forall2_cons || apply Forall2_nil); cbn [nth etd5_method er_b]; acts.
Qed.
Theorem C37_orders :
  has_order (tb_a Butcher6) (tb_b Butcher6) (tb_c Butcher6) 5 /\
  ~ has_order (tb_a Butcher6) (tb_b Butcher6) (tb_c Butcher6) 6 /\
  has_order (tb_a Butcher6) Butcher6_hat (tb_c Butcher6) 3 /\
  ~ has_order (tb_a Butcher6) Butcher6_hat (tb_c Butcher6) 4.
Proof.
  split; [|split; [|split]].
  - apply has_order_check. vm_compute. reflexivity.
  - intros [_ H]. specialize (H (Node [Node [Node [Node [Node [Node []]]]]]) (le_n _)). unfold order_condition in H.
    vm_compute in H. discriminate.
  - apply has_order_check. vm_compute. reflexivity.
  - intros [_ H]. specialize (H (Node [Node [Node [Node []]]]) (le_n _)). unfold order_condition in H.
    vm_compute in H. discriminate.
Qed.

(** ** C38: constant forcing and equilibria *)

(** [c phi_1(c z) z = e^(cz) - 1]. *)
Lemma phi1_id (z : C) : (z * phi 1 z = Cexp z - 1)%C.
Proof. rewrite phi_rec. unfold phi at 1. f_equal. f_equal. cbn. rewrite Rinv_1. reflexivity. Qed.

(** The value of a method all of whose stages are [g]: only the sum of the weights counts. *)
Lemma ocomb_const (os : list op) (g : cvec) ns : length ns = length os -> Forall (eq g) ns ->
  ocomb os ns = ocomb os (repeat g (length os)).
Proof.
  revert ns. induction os as [|o os IH]; intros [|n ns] Hl H; try discriminate; [reflexivity|].
  inversion H; subst. cbn [ocomb length repeat]. rewrite (IH ns) by auto. reflexivity.
Qed.
Lemma erk_stages_constN g h u : forall Es rows ns, Forall (eq g) ns -> length Es = length rows ->
  Forall (eq g) (erk_stages (fun _ => g) h u Es rows ns) /\
  length (erk_stages (fun _ => g) h u Es rows ns) = (length ns + length rows)%nat.
Proof.
  induction Es as [|E Es IH]; intros [|row rows] ns Hn Hl; try discriminate; cbn [erk_stages].
  - split; [exact Hn|cbn; lia].
  - destruct (IH rows (ns ++ [g])) as [A B].
    + apply Forall_app. split; [exact Hn|repeat constructor].
    + injection Hl; auto.
    + split; [exact A|]. rewrite B, app_length. cbn. lia.
Qed.
Lemma step_const (m : erk) g h u : length (er_E m) = length (er_a m) -> length (er_a m) = length (er_b m) ->
  erk_step m (fun _ => g) h u = cadd (er_E1 m u) (cscal (RtoC h) (ocomb (er_b m) (repeat g (length (er_b m))))).
Proof.
  intros H1 H2. unfold erk_step, erk_value.
  destruct (erk_stages_constN g h u (er_E m) (er_a m) []) as [A B]; [constructor|exact H1|].
  rewrite (ocomb_const _ g _); [reflexivity| |exact A]. rewrite B, <- H2. reflexivity.
Qed.

(** The initial value problem [w' = L w + g], [w(0) = u] has only one solution. *)
Lemma Cder_zero_const (f : R -> C) : (forall t, is_Cder f t 0) -> forall t, f t = f 0.
Proof.
  intros H t. assert (I := is_Cint_der f (fun _ => RtoC 0) 0 t H (Ccont_const 0)). apply is_Cint_unique in I.
  assert (Z : Cint (fun _ => RtoC 0) 0 t = RtoC 0).
  { assert (K : is_RInt (fun _ : R => zero : R_NormedModule) 0 t (zero : R_NormedModule)).
    { assert (K := @is_RInt_const R_NormedModule 0 t zero).
      assert (E : scal (t - 0) (zero : R_NormedModule) = zero) by exact (scal_zero_r (V := R_NormedModule) (t - 0)).
      rewrite E in K. exact K. }
    apply is_Cint_unique. split; exact K. }
  rewrite Z in I. replace (f t) with (f t - f 0 + f 0)%C by ring. rewrite <- I. ring.
Qed.
Lemma forced_solution (L g u : C) (w : R -> C) (h : R) :
  (forall t, is_Cder w t (L * w t + g)%C) -> w 0 = u ->
  w h = (Cexp (RtoC h * L) * u + RtoC h * (phi 1 (RtoC h * L) * g))%C.
Proof.
  intros Hw H0. destruct (Ceq_dec L 0) as [->|HL].
  - assert (D : forall t, is_Cder (fun t => w t + RtoC t * (- g))%C t 0).
    { intros t. eapply is_Cder_eq; [reflexivity| |apply is_Cder_plus; [apply Hw|]].
      2: apply is_Cder_mult; [apply is_Cder_R; apply (@is_derive_id R_AbsRing)|apply is_Cder_const].
      change (@one _) with 1%R. cbn beta. ring. }
    assert (E := Cder_zero_const _ D h). cbn beta in E. rewrite Cmult_0_r, Cexp_0, phi_0.
    rewrite fact1, Rinv_1. rewrite H0 in E.
    replace (w h) with (w h + RtoC h * - g + RtoC h * g)%C by ring. rewrite E. ring.
  - set (c := (g / L)%C).
    assert (D : forall t, is_Cder (fun t => Cexp (0 + RtoC t * (- L)) * (w t + c))%C t 0).
    { intros t. eapply is_Cder_eq; [reflexivity| |apply is_Cder_mult; [apply is_Cder_exp|apply is_Cder_plus; [apply Hw|apply is_Cder_const]]].
      cbn beta. unfold c. field. exact HL. }
    assert (E := Cder_zero_const _ D h). cbn beta in E. rewrite H0 in E.
    rewrite !Cplus_0_l, Cmult_0_l, Cexp_0, Cmult_1_l in E.
    replace (RtoC h * - L)%C with (- (RtoC h * L))%C in E by ring.
    rewrite Cexp_opp in E. assert (NZ := Cexp_neq_0 (RtoC h * L)%C).
    assert (P := phi1_id (RtoC h * L)%C).
    assert (E2 : w h = (Cexp (RtoC h * L) * (u + c) - c)%C).
    { rewrite <- E. field. exact NZ. }
    rewrite E2. replace (RtoC h * (phi 1 (RtoC h * L) * g))%C with (RtoC h * L * phi 1 (RtoC h * L) * c)%C
      by (unfold c; field; exact HL).
    rewrite P. ring.
Qed.

Ltac flat := unfold osub; unfold oadd, oscal, ozero, cadd, cscal.
Ltac rts := replace (RtoC (-1)) with (- RtoC 1)%C by (rewrite <- RtoC_opp; reflexivity).
(** With constant [N] only [phi_1] matters: the weights add up to it, whatever the functions are. *)
Lemma krogstad_const E12 E1 f1h f2h f1 f2 f3 g h u i :
  erk_step (krogstad E12 E1 f1h f2h f1 f2 f3) (fun _ => g) h u i = (E1 u i + RtoC h * f1 g i)%C /\
  erk_step (krogstad_embedded E12 E1 f1h f2h f1 f2 f3) (fun _ => g) h u i = (E1 u i + RtoC h * f1 g i)%C.
Proof.
  rewrite !step_const by reflexivity. cbn [krogstad_embedded krogstad er_b er_E1 length repeat ocomb firstn app]. flat.
  generalize (E1 u i) (f1 g i) (f2 g i) (f3 g i). intros e x1 x2 x3.
  destruct e, x1, x2, x3. split; apply C_eq; cbn; field.
Qed.
Lemma etd5_const E14 E12 E34 E1 f1q f2q f1h f2h f1t f2t f1 f2 f3 g h u i :
  erk_step (etd5_method E14 E12 E34 E1 f1q f2q f1h f2h f1t f2t f1 f2 f3) (fun _ => g) h u i = (E1 u i + RtoC h * f1 g i)%C /\
  erk_step (etd5_embedded E14 E12 E34 E1 f1q f2q f1h f2h f1t f2t f1 f2 f3) (fun _ => g) h u i = (E1 u i + RtoC h * f1 g i)%C.
Proof.
  rewrite !step_const by reflexivity. unfold etd5_embedded. cbn [etd5_method er_b er_E1 length repeat ocomb nth map]. flat.
  generalize (E1 u i) (f1 g i) (f2 g i) (f3 g i). intros e x1 x2 x3.
  destruct e, x1, x2, x3. split; apply C_eq; cbn; field.
Qed.

(** The candidates of the four exponential schemes for 1-D operators. *)
Definition etd_candidates {W} (p : problem Cops W) (N : vec Cops -> vec Cops) (h : R) (u : vec Cops) : list (vec Cops) :=
  [cs_Phi p N ETD4d h u; cs_Phi p N ETD5d h u; fst (as_Phi p N ETD34d h u); fst (as_Phi p N ETD35d h u)].

Lemma candidates_const {W} (p : problem Cops W) (g : vec Cops) h u i :
  Forall (fun c => c i = Cexp (RtoC h * p_vec p i) * u i + RtoC h * (ph (p_cfg p) 1 1 (RtoC h * p_vec p i) * g i))%C
    (etd_candidates p (fun _ => g) h u).
Proof.
  unfold etd_candidates. rewrite etd4d_erk, etd5d_erk, etd34d_erk, etd35d_erk. cbn [fst pair_of].
  assert (E : dE h (p_vec p) 1 u i = (Cexp (RtoC h * p_vec p i) * u i)%C).
  { unfold dE, dfun. rewrite Cmult_1_l. reflexivity. }
  repeat (apply Forall_cons || apply Forall_nil); unfold d_krogstad, d_etd5;
    first [rewrite (proj1 (krogstad_const _ _ _ _ _ _ _ g h u i))
          |rewrite (proj1 (etd5_const _ _ _ _ _ _ _ _ _ _ _ _ _ g h u i))]; rewrite E; reflexivity.
Qed.

(** Constant forcing, mode by mode: if [|h L_i|] reaches the cutoff the new value is the value at
    time [h] of the solution of [w' = L_i w + g_i], [w(0) = u_i]. *)
Theorem C38_constant_forcing :
  forall (W : Type) (p : problem Cops W) (g u : vec Cops) (h : R) (i : nat) (w : R -> C),
    0 < modecutoff (p_cfg p) <= Cmod (RtoC h * p_vec p i)%C ->
    w 0 = u i -> (forall t, is_Cder w t (p_vec p i * w t + g i)%C) ->
    Forall (fun c => c i = w h) (etd_candidates p (fun _ => g) h u).
Proof.
  intros W p g u h i w [H0 Hz] Hw0 Hw. rewrite (forced_solution _ _ _ _ h Hw Hw0).
  eapply Forall_impl; [|apply candidates_const]. cbn beta. intros c ->.
  rewrite ph_big; [rewrite Cmult_1_l; reflexivity|exact H0|lia|lra|exact Hz].
Qed.
(** Every mode: within quadrature accuracy of that solution. *)
Theorem C38_constant_forcing_any_mode :
  forall (W : Type) (p : problem Cops W) (g u : vec Cops) (h : R) (i : nat) (w : R -> C),
    let cfg := p_cfg p in
    0 < modecutoff cfg <= contour_radius cfg -> (0 < contour_points cfg)%nat ->
    w 0 = u i -> (forall t, is_Cder w t (p_vec p i * w t + g i)%C) ->
    Forall (fun c => Cmod (c i - w h)%C <= Rabs h * Cmod (g i) *
              (exp (Cmod (RtoC h * p_vec p i)%C + contour_radius cfg) * contour_radius cfg ^ contour_points cfg
               / INR (fact (contour_points cfg))))
      (etd_candidates p (fun _ => g) h u).
Proof.
  intros W p g u h i w cfg [H0 HR] HM Hw0 Hw. rewrite (forced_solution _ _ _ _ h Hw Hw0).
  eapply Forall_impl; [|apply candidates_const]. cbn beta. intros c ->.
  set (z := (RtoC h * p_vec p i)%C). fold cfg.
  assert (B := ph_error cfg H0 HM HR 1 1 z ltac:(lia) ltac:(lra)). rewrite Cmult_1_l, fact1 in B. unfold Rdiv at 1 in B. rewrite Rinv_1, Rmult_1_r in B. unfold quad_err in B.
  replace (Cexp z * u i + RtoC h * (ph cfg 1 1 z * g i) - (Cexp z * u i + RtoC h * (phi 1 z * g i)))%C
    with (RtoC h * g i * (ph cfg 1 1 z - phi 1 z))%C by ring.
  rewrite !Cmod_mult, Cmod_R. apply Rmult_le_compat_l; [|exact B].
  apply Rmult_le_pos; [apply Rabs_pos|apply Cmod_ge_0].
Qed.

(** Equilibria. *)
Definition respects_equilibria (h : R) (L : cvec) (m : erk) : Prop := forall (N : vec Cops -> vec Cops) u,
  (forall i, (L i * u i + N u i)%C = RtoC 0) -> erk_step m N h u = u.
Lemma row_at_equilibrium h (L u g : cvec) c row : (forall i, (L i * u i + g i)%C = RtoC 0) ->
  (ocomb row (repeat g (length row)) = cscal (RtoC c) (dphi h L 1 c g)) -> erk_value h u (dE h L c) row (repeat g (length row)) = u.
Proof.
  intros Hu Hr. unfold erk_value. rewrite Hr. apply functional_extensionality; intros i.
  unfold cadd, cscal, dE, dphi, dfun.
  assert (P := phi1_id (RtoC c * (RtoC h * L i))%C).
  replace (g i) with (- (L i * u i))%C.
  2: { specialize (Hu i). replace (g i) with (L i * u i + g i - L i * u i)%C by ring. rewrite Hu. ring. }
  replace (RtoC h * (RtoC c * (phi 1 (RtoC c * (RtoC h * L i)) * - (L i * u i))))%C
    with (- (RtoC c * (RtoC h * L i) * phi 1 (RtoC c * (RtoC h * L i)) * u i))%C by ring.
  rewrite P. ring.
Qed.
Lemma equilibrium_step h L (m : erk) cs :
  Forall2 (fun (E : op) c => E = dE h L c) (er_E m) cs -> er_E1 m = dE h L 1 ->
  Forall2 (fun c row => forall g, ocomb row (repeat g (length row)) = cscal (RtoC c) (dphi h L 1 c g)) cs (er_a m) ->
  (forall k, (k < length (er_a m))%nat -> length (nth k (er_a m) []) = k) -> length (er_b m) = length (er_a m) ->
  (forall g, ocomb (er_b m) (repeat g (length (er_b m))) = dphi h L 1 1 g) ->
  respects_equilibria h L m.
Proof.
  intros HE HE1 Ha Hl Hb Hw N u Hu.
  assert (V : forall c row ms, (forall g, ocomb row (repeat g (length row)) = cscal (RtoC c) (dphi h L 1 c g)) ->
            length ms = length row -> Forall (eq (N u)) ms -> erk_value h u (dE h L c) row ms = u).
  { intros c row ms Hr Hm Hn. unfold erk_value. rewrite (ocomb_const row (N u) ms Hm Hn).
    apply (row_at_equilibrium h L u (N u) c row Hu (Hr _)). }
  destruct (erk_stages_const N h u (er_E m) (er_a m) []) as [G1 G2].
  - clear - HE Ha V. revert Ha. generalize (er_a m). induction HE as [|E c Es cs HEc HE IH]; intros rows Ha.
    + inversion Ha. constructor.
    + inversion Ha as [|? row ? rows' Hr Ha']; subst. constructor; [|apply IH; exact Ha'].
      intros ms Hm Hn. apply V; assumption.
  - cbn [length]. intros k Hk. apply Hl. exact Hk.
  - constructor.
  - unfold erk_step. rewrite HE1. apply V; [|etransitivity; [exact G2|symmetry; exact Hb]|exact G1].
    intros g. rewrite Hw. apply functional_extensionality; intros i. unfold cscal. ring.
Qed.
Lemma dE_id h L : (fun v : cvec => v) = dE h L 0.
Proof.
  apply functional_extensionality; intros v. apply functional_extensionality; intros i. unfold dE, dfun.
  rewrite Cmult_0_l, Cexp_0. ring.
Qed.
Ltac sums h L := let g := fresh "g" in let i := fresh "i" in intros g; cbn [kro etd5 krogstad etd5_method er_a er_b nth ocomb length repeat];
  apply functional_extensionality; intros i; flat;
  repeat match goal with |- context [dphi h L ?r ?q g i] => let x := fresh "x" in set (x := dphi h L r q g i); clearbody x end;
  repeat match goal with x : C |- _ => destruct x end; apply C_eq; cbn; field.
Lemma kro_equilibria h L : respects_equilibria h L (kro h L).
Proof.
  apply (equilibrium_step h L _ [0; 1/2; 1/2; 1]); [| | | |reflexivity|].
  - repeat constructor. apply dE_id.
  - reflexivity.
  - repeat (apply Forall2_cons || apply Forall2_nil); sums h L.
  - intros k Hk. do 4 (destruct k as [|k]; [reflexivity|]). cbn in Hk. lia.
  - sums h L.
Qed.
Lemma etd5_equilibria h L : respects_equilibria h L (etd5 h L).
Proof.
  apply (equilibrium_step h L _ etd5_c); [| | | |reflexivity|].
  - repeat constructor. apply dE_id.
  - reflexivity.
  - repeat (apply Forall2_cons || apply Forall2_nil); sums h L.
  - intros k Hk. do 6 (destruct k as [|k]; [reflexivity|]). cbn in Hk. lia.
  - sums h L.
Qed.

(** An equilibrium of [v' = L v + N(v)] is kept by Krogstad's method and by the fifth-order method
    with exact phi functions, for every operator (zero modes included) and every step size ... *)
Theorem C38_equilibria :
  forall (N : vec Cops -> vec Cops) (L u : cvec) (h : R),
    (forall i, (L i * u i + N u i)%C = RtoC 0) ->
    erk_step (kro h L) N h u = u /\ erk_step (etd5 h L) N h u = u.
Proof. intros N L u h Hu. split; [apply kro_equilibria|apply etd5_equilibria]; exact Hu. Qed.
(** ... and by the code when no mode is evaluated on the contour. *)
Theorem C38_equilibria_kept :
  forall (W : Type) (p : problem Cops W) (N : vec Cops -> vec Cops) (u : vec Cops) (h : R),
    0 < modecutoff (p_cfg p) -> (forall i, modecutoff (p_cfg p) <= Cmod (RtoC h * p_vec p i)%C) ->
    (forall i, (p_vec p i * u i + N u i)%C = RtoC 0) ->
    Forall (eq u) (etd_candidates p N h u).
Proof.
  intros W p N u h H0 HL Hu.
  destruct (C36_exact_krogstad W p N h u H0 HL) as (A & B & _).
  destruct (C37_exact_method W p N h u H0 HL) as (A' & B' & _).
  unfold etd_candidates. rewrite A, B, A', B'.
  destruct (C38_equilibria N (p_vec p) u h Hu) as [E1 E2]. rewrite E1, E2. repeat constructor.
Qed.

(** Cases meeting the hypotheses: decay at rate 1 with cutoff 1/100 and steps of size 1; the
    equilibrium 1 of [v' = - v + v^2]; the solution [w = 1 - exp(-t)] of [w' = - w + 1]. *)
Definition decay_problem : problem Cops unit :=
  mk_problem (A := Cops) (fun v w => (inr v, w)) 2 (const_vec (-1)) (fun _ _ => RtoC 0)
    (mk_etdcfg (F := Rops) (1/100) 32 1) (fun m => inr m) (fun m => inr m) mident mident (const_vec 0).
Example C36_C38_not_vacuous :
  let p := decay_problem in
  0 < modecutoff (p_cfg p) <= contour_radius (p_cfg p) /\ (0 < contour_points (p_cfg p))%nat /\
  (forall i, modecutoff (p_cfg p) <= Cmod (RtoC 1 * p_vec p i)%C) /\
  (forall i, (p_vec p i * const_vec 1 i + (fun v : vec Cops => fun j => v j * v j) (const_vec 1) i)%C = RtoC 0) /\
  (let w := fun t : R => (RtoC 1 - Cexp (RtoC 0 + RtoC t * RtoC (-1)))%C in
   w 0 = RtoC 0 /\ forall t, is_Cder w t (p_vec p 0%nat * w t + RtoC 1)%C).
Proof.
  intros p. split; [cbn; lra|]. split; [cbn; lia|]. split; [|split; [|split]].
  - intros i. cbn [p decay_problem p_vec p_cfg modecutoff]. unfold const_vec. rewrite <- RtoC_mult, Cmod_R.
    replace (1 * -1) with (Ropp 1) by ring. rewrite Rabs_Ropp, Rabs_R1. cbn. lra.
  - intros i. apply C_eq; cbn; ring.
  - rewrite Cmult_0_l, Cplus_0_l, Cexp_0. ring.
  - intros t. eapply is_Cder_eq; [reflexivity| |].
    2: { eapply is_Cder_eq; [| |apply (is_Cder_plus (fun _ => RtoC 1) (fun t => RtoC (-1) * Cexp (RtoC 0 + RtoC t * RtoC (-1)))%C);
           [apply is_Cder_const|apply is_Cder_mult; [apply is_Cder_const|apply is_Cder_exp]]].
         - intros s. cbn beta. rts. ring.
         - reflexivity. }
    cbn beta. cbn [p decay_problem p_vec]. unfold const_vec. rts. ring.
Qed.

Print Assumptions C36_krogstad_up_to_quadrature.
Print Assumptions C37_orders.
Print Assumptions C38_constant_forcing_any_mode.
Print Assumptions C38_equilibria_kept.
