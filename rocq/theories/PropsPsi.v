(** * C42-C44: psi functions, contour means, divisions by zero *)

From Coq Require Import ZArith List Bool Reals Lra Lia FunctionalExtensionality.
From Coquelicot Require Import Complex.
From Verif Require Import Scalars Control Arrays SchemeBase SchemeIF SchemeETD4 SchemeETD5 Solvers
     CInst SpecRK SchemeIFReal SpecPhi ContourReal SpecERK SchemeETDReal SchemeETDCoefs.
Import ListNotations.
Local Open Scope R_scope.

(** ** C42: the documented integrals (rkstiff/etd.py, module docstring) *)
Definition psi_integral (r : nat) (z : C) : C :=
  Cint (fun t => RtoC (INR r) * (Cexp (RtoC (1 - t) * z) * RtoC (t ^ (r - 1))))%C 0 1.

Lemma psi_integral_phi r z : psi_integral (S r) z = (RtoC (INR (fact (S r))) * phi (S r) z)%C.
Proof.
  unfold psi_integral. apply is_Cint_unique.
  apply (is_Cint_ext (fun t => RtoC (INR (fact (S r))) * phi_f r z t)%C).
  - intros t. unfold phi_f. replace (S r - 1)%nat with r by lia. rewrite fact_simpl, mult_INR.
    unfold Rdiv. rewrite !RtoC_mult, RtoC_inv by apply INR_fact_neq.
    field. apply C2_neq. apply INR_fact_neq.
  - apply is_Cint_scal. apply phi_int.
Qed.

Theorem C42_psi_integrals : forall z : C, z <> 0 ->
  psi1 Cops z = psi_integral 1 z /\ psi2 Cops z = psi_integral 2 z /\ psi3 Cops z = psi_integral 3 z.
Proof.
  intros z Hz. rewrite !psi_integral_phi, psi1_phi, psi2_phi, psi3_phi by exact Hz.
  rewrite fact1, fact2, fact3. repeat split; ceq; ring.
Qed.
(** The exact functions continue to zero, where the formulas of the code divide by zero. *)
Theorem C42_psi_integrals_at_zero : forall r, psi_integral (S r) 0 = 1.
Proof.
  intros r. rewrite psi_integral_phi, phi_0, <- RtoC_mult, Rinv_r by apply INR_fact_neq. reflexivity.
Qed.
Example C42_not_vacuous : psi1 Cops (RtoC 1) = RtoC (exp 1 - 1) /\ (RtoC 1 <> 0)%C.
Proof.
  split; [|apply C2_neq; lra]. unfold psi1. csimp. rewrite Cexp_R, <- RtoC_minus, <- RtoC_div by lra. f_equal. field.
Qed.

(** ** C43: contour means *)
Theorem C43_contour_mean : forall (cfg : etdcfg Rops) (h q : R) (f : C -> C) (z : C),
  (0 < contour_points cfg)%nat -> 0 <= q <= 1 -> (forall x, f x = (RtoC q * x)%C) ->
  (forall j, (j < contour_points cfg)%nat -> f (z + node Cops cfg j)%C <> 0) ->
  let R0 := Rabs (contour_radius cfg) in let M := contour_points cfg in
  let bound := Rabs h * (exp (Cmod z + R0) * R0 ^ M / INR (fact M)) in
  Cmod (contour_avg Cops cfg h (psi1 Cops) f z - RtoC h * psi_integral 1 (RtoC q * z))%C <= bound /\
  Cmod (contour_avg Cops cfg h (psi2 Cops) f z - RtoC h * psi_integral 2 (RtoC q * z))%C <= bound /\
  Cmod (contour_avg Cops cfg h (psi3 Cops) f z - RtoC h * psi_integral 3 (RtoC q * z))%C <= bound.
Proof.
  intros cfg h q f z HM Hq Hf Hn R0 M bound.
  assert (G : forall r (psi : C -> C), (forall w : C, w <> 0 -> psi w = (RtoC (INR (fact (S r))) * phi (S r) w)%C) ->
     Cmod (contour_avg Cops cfg h psi f z - RtoC h * psi_integral (S r) (RtoC q * z))%C <= bound).
  { intros r psi Hpsi. unfold contour_avg. csimp. unfold npts. cbn [tofZ Rops]. rewrite <- INR_IZR_INZ.
    rewrite (csum_ext _ _ (fun j => RtoC (INR (fact (S r))) * phi (S r) (RtoC q * (z + rho cfg j)))%C).
    2: { intros j Hj. rewrite Hpsi by (apply Hn; exact Hj). rewrite Hf. reflexivity. }
    rewrite csum_scal, psi_integral_phi.
    assert (B := phi_mean cfg HM r q z Hq).
    set (sm := csum (contour_points cfg) _) in *. set (ex := phi (S r) (RtoC q * z)%C) in *.
    replace (RtoC h * (RtoC (INR (fact (S r))) * sm) / RtoC (INR (contour_points cfg)) - RtoC h * (RtoC (INR (fact (S r))) * ex))%C
      with (RtoC h * RtoC (INR (fact (S r))) * (sm / RtoC (INR (contour_points cfg)) - ex))%C by (unfold Cdiv; ring).
    rewrite !Cmod_mult, !Cmod_R. rewrite (Rabs_pos_eq (INR _)) by apply pos_INR.
    unfold bound. rewrite Rmult_assoc. apply Rmult_le_compat_l; [apply Rabs_pos|].
    eapply Rle_trans; [apply Rmult_le_compat_l; [apply pos_INR|exact B]|].
    right. unfold R0, M. field. split; apply INR_fact_neq. }
  split; [|split].
  - apply G. intros w Hw. rewrite psi1_phi, fact1 by exact Hw. ring.
  - apply G. intros w Hw. rewrite psi2_phi, fact2 by exact Hw. reflexivity.
  - apply G. intros w Hw. rewrite psi3_phi, fact3 by exact Hw. reflexivity.
Qed.

(** With the default radius 1 and 32 points the error is below 1e-34 for |z| <= 1. *)
Fixpoint zfact (n : nat) : Z := match n with O => 1%Z | S m => (Z.of_nat n * zfact m)%Z end.
Lemma INR_zfact n : INR (fact n) = IZR (zfact n).
Proof.
  induction n as [|n IH]; [reflexivity|]. rewrite fact_simpl, mult_INR, IH. cbn [zfact].
  rewrite mult_IZR, <- INR_IZR_INZ. reflexivity.
Qed.
Theorem C43_default_accuracy : forall (cfg : etdcfg Rops) (h q : R) (f : C -> C) (z : C),
  contour_points cfg = 32%nat -> contour_radius cfg = 1 -> Cmod z <= 1 -> 0 <= q <= 1 ->
  (forall x, f x = (RtoC q * x)%C) ->
  (forall j, (j < 32)%nat -> f (z + node Cops cfg j)%C <> 0) ->
  Cmod (contour_avg Cops cfg h (psi1 Cops) f z - RtoC h * psi_integral 1 (RtoC q * z))%C <= Rabs h * / 10 ^ 34 /\
  Cmod (contour_avg Cops cfg h (psi2 Cops) f z - RtoC h * psi_integral 2 (RtoC q * z))%C <= Rabs h * / 10 ^ 34 /\
  Cmod (contour_avg Cops cfg h (psi3 Cops) f z - RtoC h * psi_integral 3 (RtoC q * z))%C <= Rabs h * / 10 ^ 34.
Proof.
  intros cfg h q f z HM HR Hz Hq Hf Hn.
  assert (H := C43_contour_mean cfg h q f z). rewrite HM, HR in H. cbv zeta in H.
  specialize (H ltac:(lia) Hq Hf Hn).
  assert (B : exp (Cmod z + Rabs 1) * Rabs 1 ^ 32 / INR (fact 32) <= / 10 ^ 34).
  { rewrite Rabs_R1, pow1, Rmult_1_r, INR_zfact.
    assert (E : exp (Cmod z + 1) <= 9).
    { eapply Rle_trans; [apply exp_mono with (y := 1 + 1); lra|]. rewrite exp_plus.
      pose proof exp_le_3. pose proof (exp_pos 1). nra. }
    change (zfact 32) with 263130836933693530167218012160000000%Z.
    apply Rle_trans with (9 / 263130836933693530167218012160000000).
    - apply Rmult_le_compat_r; [|exact E]. left. apply Rinv_0_lt_compat. lra.
    - rewrite <- (Rmult_1_l (/ 10 ^ 34)). apply Rmult_le_reg_r with 263130836933693530167218012160000000; [lra|].
      unfold Rdiv. rewrite Rmult_assoc, Rinv_l, Rmult_1_r by lra. lra. }
  assert (P := Rabs_pos h).
  assert (B' := Rmult_le_compat_l _ _ _ P B).
  destruct H as (H1 & H2 & H3). repeat split; eapply Rle_trans; eauto.
Qed.

(** ** C44: divisions by zero

    Complex numbers with a poison value that every operation propagates and that division by
    zero produces; the sums and products of the model are folded the same way. *)
Definition pmap2 (f : C -> C -> C) (a b : option C) : option C :=
  match a, b with Some x, Some y => Some (f x y) | _, _ => None end.
Definition pdiv (a b : option C) : option C :=
  match a, b with
  | Some x, Some y => if Ceq_dec y 0 then None else Some (x / y)%C
  | _, _ => None
  end.
Fixpoint psum (n : nat) (f : nat -> option C) : option C :=
  match n with O => Some (RtoC 0) | S n => pmap2 Cplus (psum n f) (f n) end.
Definition Pops : aops Rops :=
  mk_aops Rops (option C) (fun x : R => Some (RtoC x)) (pmap2 Cplus) (pmap2 Cminus) (pmap2 Cmult) pdiv
    (option_map Copp) (option_map Cexp) (fun a => match a with Some x => Cmod x | None => 0 end)
    (Some (0, 2 * PI)%R) psum (fun n m v i => psum n (fun j => pmap2 Cmult (m i j) (v j))).

(** A poisoned entry and its exact counterpart: no division by zero happened. *)
Definition Ok (a : E Pops) (b : E Cops) : Prop := a = Some b.
Lemma ok_lit z : Ok (lit Pops z) (lit Cops z).  Proof. reflexivity. Qed.
Lemma ok_ofT x : Ok (eofT Pops x) (eofT Cops x).  Proof. reflexivity. Qed.
Lemma ok_pi : Ok (e2pij Pops) (e2pij Cops).  Proof. reflexivity. Qed.
Lemma ok_add a b c d : Ok a b -> Ok c d -> Ok (eadd Pops a c) (eadd Cops b d).
Proof. unfold Ok. intros -> ->. reflexivity. Qed.
Lemma ok_sub a b c d : Ok a b -> Ok c d -> Ok (esub Pops a c) (esub Cops b d).
Proof. unfold Ok. intros -> ->. reflexivity. Qed.
Lemma ok_mul a b c d : Ok a b -> Ok c d -> Ok (emul Pops a c) (emul Cops b d).
Proof. unfold Ok. intros -> ->. reflexivity. Qed.
Lemma ok_exp a b : Ok a b -> Ok (eexp Pops a) (eexp Cops b).
Proof. unfold Ok. intros ->. reflexivity. Qed.
Lemma ok_div a b c d : Ok a b -> Ok c d -> (d : C) <> 0 -> Ok (ediv Pops a c) (ediv Cops b d).
Proof.
  unfold Ok. intros -> -> H. cbn [ediv Pops pdiv]. destruct (Ceq_dec d 0) as [e|_]; [contradiction|reflexivity].
Qed.
Lemma ok_sum n f g : (forall j, (j < n)%nat -> Ok (f j) (g j)) -> Ok (esum Pops n f) (esum Cops n g).
Proof.
  unfold Ok. cbn [esum Pops Cops]. induction n as [|n IH]; intros H; cbn [psum csum]; [reflexivity|].
  rewrite IH, H by (intros; auto with arith). reflexivity.
Qed.
Lemma lit_neq (z : Z) : z <> 0%Z -> (lit Cops z : C) <> 0.
Proof. intros H. apply C2_neq. apply not_0_IZR. exact H. Qed.

Lemma ok_psi1 a b : Ok a b -> (b : C) <> 0 -> Ok (psi1 Pops a) (psi1 Cops b).
Proof. intros H Hn. unfold psi1. repeat first [apply ok_div | apply ok_sub | apply ok_exp | apply ok_lit | assumption]. Qed.
Lemma ok_psi2 a b : Ok a b -> (b : C) <> 0 -> Ok (psi2 Pops a) (psi2 Cops b).
Proof.
  intros H Hn. unfold psi2.
  repeat first [apply ok_div | apply ok_sub | apply ok_exp | apply ok_lit | apply ok_mul | assumption].
  apply Cmult_neq_0; exact Hn.
Qed.
Lemma ok_psi3 a b : Ok a b -> (b : C) <> 0 -> Ok (psi3 Pops a) (psi3 Cops b).
Proof.
  intros H Hn. unfold psi3.
  repeat first [apply ok_div | apply ok_sub | apply ok_exp | apply ok_lit | apply ok_mul | assumption].
  - apply lit_neq. discriminate.
  - repeat apply Cmult_neq_0; exact Hn.
Qed.
Definition psi_ok (p : E Pops -> E Pops) (c : E Cops -> E Cops) : Prop := forall a b, Ok a b -> (b : C) <> 0 -> Ok (p a) (c b).

Section NoDivisionByZero.
  Variable cfg : etdcfg Rops.
  Hypothesis HM : (0 < contour_points cfg)%nat.
  Hypothesis Hcut : 0 < modecutoff cfg <= contour_radius cfg.

  Lemma npts_neq : (eofT Cops (npts cfg) : C) <> 0.
  Proof. apply C2_neq. apply not_0_IZR. lia. Qed.
  Lemma ok_node j : Ok (node Pops cfg j) (node Cops cfg j).
  Proof.
    unfold node. repeat first [apply ok_mul | apply ok_exp | apply ok_div | apply ok_ofT | apply ok_pi].
    apply npts_neq.
  Qed.
  (** No contour point of a small mode is zero. *)
  Lemma point_neq z j : Cmod z < modecutoff cfg -> (z + node Cops cfg j)%C <> 0.
  Proof.
    intros Hz H. assert (E : Cmod (node Cops cfg j) = Rabs (contour_radius cfg)) by apply (Cmod_rho cfg HM).
    set (r := node Cops cfg j) in *. clearbody r. cbn in r.
    assert (Er : r = (- z)%C) by (replace r with ((z + r) - z)%C by ring; rewrite H; ring).
    rewrite Er, Cmod_opp, Rabs_pos_eq in E by lra. lra.
  Qed.
  Lemma ok_avg h (p : E Pops -> E Pops) (c : E Cops -> E Cops) f g z z' : psi_ok p c ->
    (forall a b, Ok a b -> Ok (f a) (g b)) -> (forall w : C, w <> 0 -> (g w : C) <> 0) ->
    Ok z z' -> Cmod z' < modecutoff cfg ->
    Ok (contour_avg Pops cfg h p f z) (contour_avg Cops cfg h c g z').
  Proof.
    intros Hp Hf Hg Hz Hs. unfold contour_avg. apply ok_div; [|apply ok_ofT|apply npts_neq].
    apply ok_mul; [apply ok_ofT|]. apply ok_sum. intros j _. apply Hp.
    - apply Hf. apply ok_add; [exact Hz|apply ok_node].
    - apply Hg. apply (point_neq z' j Hs).
  Qed.

  Definition lifted (L : vec Cops) : vec Pops := fun i => Some (L i).
  Lemma pick_ok (z : vec Pops) (z' : vec Cops) i (s g : E Pops) (s' g' : E Cops) : Ok (z i) (z' i) ->
    (Cmod (z' i) < modecutoff cfg -> Ok s s') ->
    (~ Cmod (z' i) < modecutoff cfg -> Ok g g') ->
    Ok (if small_idx z (modecutoff cfg) i then s else g) (if small_idx z' (modecutoff cfg) i then s' else g').
  Proof.
    intros Hz H1 H2. unfold small_idx. rewrite Hz. cbn [eabs Pops Cops].
    change (tltb Rops) with Rltb. unfold Rltb. destruct (Rlt_dec _ _); auto.
  Qed.
  Lemma big_neq z : ~ Cmod z < modecutoff cfg -> z <> 0.
  Proof. intros H E. apply H. rewrite E, Cmod_0. lra. Qed.
  Lemma scaled_neq (z : C) (a b : Z) : a <> 0%Z -> b <> 0%Z -> z <> 0 -> (lit Cops a * z / lit Cops b)%C <> 0.
  Proof.
    intros Ha Hb Hz H. apply Hz.
    replace z with (lit Cops a * z / lit Cops b * lit Cops b / lit Cops a)%C
      by (field; split; apply lit_neq; assumption).
    rewrite H. unfold Cdiv. ring.
  Qed.

  Ltac oks :=
    lazymatch goal with
    | |- Ok (lit _ _) _ => apply ok_lit
    | |- Ok (eofT _ _) _ => apply ok_ofT
    | |- Ok (psi1 _ _) _ => apply ok_psi1; oks
    | |- Ok (psi2 _ _) _ => apply ok_psi2; oks
    | |- Ok (psi3 _ _) _ => apply ok_psi3; oks
    | |- Ok (contour_avg _ _ _ _ _ _) _ => apply ok_avg; oks
    | |- Ok (eadd _ _ _) _ => apply ok_add; oks
    | |- Ok (esub _ _ _) _ => apply ok_sub; oks
    | |- Ok (emul _ _ _) _ => apply ok_mul; oks
    | |- Ok (eexp _ _) _ => apply ok_exp; oks
    | |- Ok (ediv _ _ _) _ => apply ok_div; oks
    | |- Ok (lifted _ _) _ => reflexivity
    | |- psi_ok (psi1 _) _ => exact ok_psi1
    | |- psi_ok (psi2 _) _ => exact ok_psi2
    | |- psi_ok (psi3 _) _ => exact ok_psi3
    | |- Ok _ _ => first [assumption | idtac]
    | |- lit _ _ <> _ => apply lit_neq; discriminate
    | |- eofT _ (tofZ _ ?z) <> _ => apply (lit_neq z); discriminate
    | |- _ => try assumption
    end.
  Ltac neqs :=
    lazymatch goal with
    | |- forall a : E Pops, _ => let H := fresh in intros ? ? H; cbv beta; oks
    | |- forall w : C, _ => let w := fresh "w" in let H := fresh in intros w H; try exact H
    | _ => idtac
    end.
  Lemma quot_neq (z : C) (b : Z) : b <> 0%Z -> z <> 0 -> (z / lit Cops b)%C <> 0.
  Proof.
    intros Hb Hz H. apply Hz. replace z with (z / lit Cops b * lit Cops b)%C by (field; apply lit_neq; assumption).
    rewrite H. ring.
  Qed.
  Ltac fin_neq := oks; neqs;
    lazymatch goal with
    | |- ediv _ (emul _ (eofT _ (tofZ _ ?a)) ?z) (eofT _ (tofZ _ ?b)) <> _ =>
        apply (scaled_neq z a b); [discriminate|discriminate|assumption]
    | |- ediv _ (emul _ (lit _ ?a) ?z) (lit _ ?b) <> _ =>
        apply (scaled_neq z a b); [discriminate|discriminate|assumption]
    | |- ediv _ ?z (eofT _ (tofZ _ ?b)) <> _ => apply (quot_neq z b); [discriminate|assumption]
    | |- emul _ (eofT _ ?x) ?z <> _ =>
        apply (Cmult_neq_0 (RtoC x) z); [apply C2_neq; cbn [tdiv tofZ Rops]; lra|assumption]
    | |- ediv _ ?z (lit _ ?b) <> _ => apply (quot_neq z b); [discriminate|assumption]
    | _ => idtac
    end.
  Ltac entry L h i :=
    unfold vadd, vsub, vscalz, vdivz, vscal, vdivs, vexp;
    first [ apply (pick_ok (vscal (A := Pops) h (lifted L)) (vscal (A := Cops) h L) i);
            [ reflexivity
            | let Hz := fresh "Hz" in intros Hz; unfold vscal in Hz; fin_neq
            | let Hz := fresh "Hz" in intros Hz; unfold vscal in Hz; apply big_neq in Hz; fin_neq ]
          | oks ].

  Definition lift4 (c : etd4_coefs (vec Cops)) : etd4_coefs (vec Pops) :=
    mk_etd4_coefs (lifted (e4_EL c)) (lifted (e4_EL2 c)) (lifted (e4_a21 c)) (lifted (e4_a31 c)) (lifted (e4_a32 c))
      (lifted (e4_a41 c)) (lifted (e4_a43 c)) (lifted (e4_b1 c)) (lifted (e4_b2 c)) (lifted (e4_b4 c)).
  Lemma etd4_no_zero_division (L : vec Cops) h c0 c0' :
    snd (etd4d_coeffs Rops Pops cfg (lifted L) h c0) = lift4 (snd (etd4d_coeffs Rops Cops cfg L h c0')).
  Proof.
    unfold etd4d_coeffs; cbn [snd]. unfold lift4.
    cbn [e4_EL e4_EL2 e4_a21 e4_a31 e4_a32 e4_a41 e4_a43 e4_b1 e4_b2 e4_b4].
    rewrite !mask_cover. f_equal; apply functional_extensionality; intros i;
      match goal with |- ?a = lifted ?b i => change (Ok a (b i)) end; cbv beta.
    all: entry L h i.
  Qed.
  Definition lift5 (c : etd5_coefs (vec Cops)) : etd5_coefs (vec Pops) :=
    mk_etd5_coefs (lifted (e5_EL14 c)) (lifted (e5_EL12 c)) (lifted (e5_EL34 c)) (lifted (e5_EL c)) (lifted (e5_a21 c)) (lifted (e5_a31 c)) (lifted (e5_a32 c)) (lifted (e5_a41 c)) (lifted (e5_a43 c)) (lifted (e5_a51 c)) (lifted (e5_a52 c)) (lifted (e5_a54 c)) (lifted (e5_a61 c)) (lifted (e5_a62 c)) (lifted (e5_a63 c)) (lifted (e5_a65 c)) (lifted (e5_b1 c)) (lifted (e5_b3 c)) (lifted (e5_b4 c)) (lifted (e5_b5 c)) (lifted (e5_b6 c)).
  Lemma lift5_intro c c' :
    (forall i, Ok (e5_EL14 c i) (e5_EL14 c' i)) ->
    (forall i, Ok (e5_EL12 c i) (e5_EL12 c' i)) ->
    (forall i, Ok (e5_EL34 c i) (e5_EL34 c' i)) ->
    (forall i, Ok (e5_EL c i) (e5_EL c' i)) ->
    (forall i, Ok (e5_a21 c i) (e5_a21 c' i)) ->
    (forall i, Ok (e5_a31 c i) (e5_a31 c' i)) ->
    (forall i, Ok (e5_a32 c i) (e5_a32 c' i)) ->
    (forall i, Ok (e5_a41 c i) (e5_a41 c' i)) ->
    (forall i, Ok (e5_a43 c i) (e5_a43 c' i)) ->
    (forall i, Ok (e5_a51 c i) (e5_a51 c' i)) ->
    (forall i, Ok (e5_a52 c i) (e5_a52 c' i)) ->
    (forall i, Ok (e5_a54 c i) (e5_a54 c' i)) ->
    (forall i, Ok (e5_a61 c i) (e5_a61 c' i)) ->
    (forall i, Ok (e5_a62 c i) (e5_a62 c' i)) ->
    (forall i, Ok (e5_a63 c i) (e5_a63 c' i)) ->
    (forall i, Ok (e5_a65 c i) (e5_a65 c' i)) ->
    (forall i, Ok (e5_b1 c i) (e5_b1 c' i)) ->
    (forall i, Ok (e5_b3 c i) (e5_b3 c' i)) ->
    (forall i, Ok (e5_b4 c i) (e5_b4 c' i)) ->
    (forall i, Ok (e5_b5 c i) (e5_b5 c' i)) ->
    (forall i, Ok (e5_b6 c i) (e5_b6 c' i)) ->
    c = lift5 c'.
  Proof.
    destruct c as [x1 x2 x3 x4 x5 x6 x7 x8 x9 x10 x11 x12 x13 x14 x15 x16 x17 x18 x19 x20 x21].
    cbn [e5_EL14 e5_EL12 e5_EL34 e5_EL e5_a21 e5_a31 e5_a32 e5_a41 e5_a43 e5_a51 e5_a52 e5_a54 e5_a61 e5_a62 e5_a63 e5_a65 e5_b1 e5_b3 e5_b4 e5_b5 e5_b6]. intros. unfold lift5.
    repeat match goal with H : forall i, Ok (?v i) (?w i) |- _ =>
      let H' := fresh in
      assert (H' : v = lifted w) by (apply functional_extensionality; exact H); clear H; rewrite H'; clear H' end.
    reflexivity.
  Qed.
  Lemma etd5_no_zero_division (L : vec Cops) h c0 c0' :
    snd (etd5d_coeffs Rops Pops cfg (lifted L) h c0) = lift5 (snd (etd5d_coeffs Rops Cops cfg L h c0')).
  Proof.
    apply lift5_intro; intros i; unfold etd5d_coeffs;
      cbn [snd e5_EL14 e5_EL12 e5_EL34 e5_EL e5_a21 e5_a31 e5_a32 e5_a41 e5_a43 e5_a51 e5_a52 e5_a54 e5_a61 e5_a62 e5_a63 e5_a65 e5_b1 e5_b3 e5_b4 e5_b5 e5_b6]; rewrite ?mask_cover.
    all: entry L h i.
  Qed.
  Lemma etd35_no_zero_division (L : vec Cops) h c0 c0' :
    snd (etd35_coeffs_of Rops Pops cfg h (vscal (A := Pops) h (lifted L)) c0) = lift5 (snd (etd35_coeffs_of Rops Cops cfg h (vscal (A := Cops) h L) c0')).
  Proof.
    apply lift5_intro; intros i; unfold etd35_coeffs_of;
      cbn [snd e5_EL14 e5_EL12 e5_EL34 e5_EL e5_a21 e5_a31 e5_a32 e5_a41 e5_a43 e5_a51 e5_a52 e5_a54 e5_a61 e5_a62 e5_a63 e5_a65 e5_b1 e5_b3 e5_b4 e5_b5 e5_b6]; rewrite ?mask_cover.
    all: entry L h i.
  Qed.
End NoDivisionByZero.

(** What the setters of [ETDConfig] accept (rkstiff/etd.py:97-131). *)
Definition admissible (cfg : etdcfg Rops) : Prop :=
  0 < modecutoff cfg <= 1 /\ (1 < contour_points cfg)%nat /\ 0 < contour_radius cfg.

(** No division by zero while the coefficients of a 1-D operator are computed, if the contour
    radius is not below the cutoff: in the arithmetic with poison every entry is a number. *)
Theorem C44_no_zero_division : forall (cfg : etdcfg Rops) (L : vec Cops) (h : R),
  admissible cfg -> modecutoff cfg <= contour_radius cfg ->
  (forall c, exists c', snd (etd4d_coeffs Rops Pops cfg (lifted L) h c) = lift4 c') /\
  (forall c, exists c', snd (etd34_coeffs_of Rops Pops cfg h (vscal (A := Pops) h (lifted L)) c) = lift4 c') /\
  (forall c, exists c', snd (etd5d_coeffs Rops Pops cfg (lifted L) h c) = lift5 c') /\
  (forall c, exists c', snd (etd35_coeffs_of Rops Pops cfg h (vscal (A := Pops) h (lifted L)) c) = lift5 c').
Proof.
  intros cfg L h (Hc & HM & HR) Hcr.
  assert (H0 : (0 < contour_points cfg)%nat) by lia.
  assert (H1 : 0 < modecutoff cfg <= contour_radius cfg) by (split; [exact (proj1 Hc)|exact Hcr]).
  pose (v0 := (fun _ => RtoC 0) : vec Cops).
  pose (c4 := mk_etd4_coefs v0 v0 v0 v0 v0 v0 v0 v0 v0 v0).
  pose (c5 := mk_etd5_coefs v0 v0 v0 v0 v0 v0 v0 v0 v0 v0 v0 v0 v0 v0 v0 v0 v0 v0 v0 v0 v0).
  split; [|split; [|split]]; intros c; eexists.
  - apply (etd4_no_zero_division cfg H0 H1 L h c c4).
  - apply (etd4_no_zero_division cfg H0 H1 L h c c4).
  - apply (etd5_no_zero_division cfg H0 H1 L h c c5).
  - apply (etd35_no_zero_division cfg H0 H1 L h c c5).
Qed.
Definition default_etdcfg : etdcfg Rops := @mk_etdcfg Rops (1 / 100) 32 1.
Example C44_not_vacuous : admissible default_etdcfg /\ modecutoff default_etdcfg <= contour_radius default_etdcfg.
Proof. unfold admissible, default_etdcfg; cbn. repeat split; try lra. lia. Qed.

Example C43_not_vacuous : forall j, (RtoC (1 / 2) * (0 + node Cops default_etdcfg j))%C <> 0.
Proof.
  intros j. apply Cmult_neq_0; [apply C2_neq; lra|].
  apply (point_neq default_etdcfg); cbn; [lia|lra|]. rewrite Cmod_0. lra.
Qed.

(** The setters accept a radius below the cutoff, and then a contour can pass through zero: with
    three points the second one is [-R], and the mode [z = R] is small. *)
Definition tight_etdcfg : etdcfg Rops := @mk_etdcfg Rops (1 / 100) 3 (1 / 1000).
Lemma tight_node : node Cops tight_etdcfg 1 = RtoC (- (1 / 1000)).
Proof.
  change (node Cops tight_etdcfg 1) with (rho tight_etdcfg 1).
  rewrite rho_eq by (cbn; lia). cbn [tight_etdcfg contour_points contour_radius].
  replace (2 * PI * (1 / 2 + INR 1) / INR 3) with PI by (cbn; field).
  unfold Cexp, Cmult, RtoC; cbn [fst snd]. rewrite cos_PI, sin_PI, exp_0. apply C_eq; ring.
Qed.
Theorem C44_refuted : exists (cfg : etdcfg Rops) (L : vec Cops) (h : R),
  admissible cfg /\ forall c, e4_a43 (snd (etd4d_coeffs Rops Pops cfg (lifted L) h c)) 0%nat = None.
Proof.
  exists tight_etdcfg, (const_vec (1 / 1000)), 1. split.
  - unfold admissible, tight_etdcfg; cbn. repeat split; try lra. lia.
  - intros c. unfold etd4d_coeffs. cbn [snd e4_a43]. rewrite mask_cover.
    unfold small_idx, vscal, lifted, const_vec. cbn [eabs emul eofT Pops pmap2].
    rewrite <- RtoC_mult, Cmod_R, Rabs_pos_eq by lra.
    change (tltb Rops) with Rltb. unfold Rltb. cbn [modecutoff tight_etdcfg].
    destruct (Rlt_dec _ _) as [_|H]; [|exfalso; apply H; lra].
    unfold contour_avg. cbn [ediv emul Pops contour_points tight_etdcfg esum psum].
    rewrite (ok_node tight_etdcfg ltac:(cbn; lia) 1%nat), tight_node.
    assert (H : psi2 Pops (eadd Pops (Some (RtoC (1 * (1 / 1000)))) (Some (RtoC (- (1 / 1000))))) = None).
    { cbn [eadd Pops pmap2]. rewrite <- RtoC_plus. replace (1 * (1 / 1000) + - (1 / 1000)) with 0 by ring.
      unfold psi2. cbn [ediv emul esub eexp Pops pmap2 lit eofT option_map pdiv].
      destruct (Ceq_dec (RtoC 0 * RtoC 0)%C 0) as [_|N]; [reflexivity|]. exfalso. apply N. ring. }
    match goal with |- pdiv (pmap2 Cmult _ (pmap2 Cplus (pmap2 Cplus ?s ?t) _)) _ = _ =>
      replace t with (@None C) by (symmetry; exact H); destruct s; reflexivity end.
Qed.

Print Assumptions C42_psi_integrals.
Print Assumptions C42_psi_integrals_at_zero.
Print Assumptions C43_contour_mean.
Print Assumptions C43_default_accuracy.
Print Assumptions C44_no_zero_division.
Print Assumptions C44_refuted.
