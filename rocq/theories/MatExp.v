(** * The matrix exponential and the phi functions of a matrix

    Spec file: the sums of the series [sum_k t^k L^k / (k+r)!] are differentiable in [t]; any
    matrices given by the exponential series form a flow, and the series of the phi functions
    satisfy the differential equations of [phi_ops]. *)

From Coq Require Import ZArith List Bool Reals Lra Lia FunctionalExtensionality Setoid Morphisms.
From Coquelicot Require Import Rbar Lim_seq Series PSeries Hierarchy Derive Complex Continuity.
From Verif Require Import CInst SpecRK SchemeIFReal SpecPhi SpecPoly ContourReal PropsETD ContourMatrix MatrixFlow Asym Solution Voc.
Import ListNotations.
Local Open Scope R_scope.

(** ** Limits of complex sequences *)
Definition clim (f : nat -> C) (l : C) : Prop := forall eps : R, 0 < eps -> exists K, forall m, (K <= m)%nat -> Cmod (f m - l)%C < eps.
Lemma clim_unique f l l' : clim f l -> clim f l' -> l = l'.
Proof.
  intros H H'. assert (E : Cmod (l - l')%C <= 0).
  { apply le_epsilon. intros eps He. destruct (H (eps / 2) ltac:(lra)) as [K HK]. destruct (H' (eps / 2) ltac:(lra)) as [K' HK'].
    assert (G := HK (max K K') ltac:(lia)). assert (G' := HK' (max K K') ltac:(lia)).
    replace (l - l')%C with (- (f (max K K') - l) + (f (max K K') - l'))%C by ring.
    eapply Rle_trans; [apply Cmod_triangle|]. rewrite Cmod_opp. lra. }
  assert (E0 : (l - l')%C = 0) by (apply Cmod_eq_0; apply Rle_antisym; [exact E|apply Cmod_ge_0]).
  replace l with ((l - l') + l')%C by ring. rewrite E0. ring.
Qed.
Lemma clim_ext f g l : (forall m, f m = g m) -> clim f l -> clim g l.
Proof. intros E H eps He. destruct (H eps He) as [K HK]. exists K. intros m Hm. rewrite <- E. apply HK. exact Hm. Qed.
Lemma clim_plus f g l l' : clim f l -> clim g l' -> clim (fun m => f m + g m)%C (l + l')%C.
Proof.
  intros H H' eps He. destruct (H (eps / 2) ltac:(lra)) as [K HK]. destruct (H' (eps / 2) ltac:(lra)) as [K' HK'].
  exists (max K K'). intros m Hm. specialize (HK m ltac:(lia)). specialize (HK' m ltac:(lia)).
  replace (f m + g m - (l + l'))%C with ((f m - l) + (g m - l'))%C by ring. eapply Rle_lt_trans; [apply Cmod_triangle|]. lra.
Qed.
Lemma clim_scal c f l : clim f l -> clim (fun m => c * f m)%C (c * l)%C.
Proof.
  intros H eps He. assert (P := Cmod_ge_0 c). destruct (H (eps / (Cmod c + 1))) as [K HK]; [apply Rdiv_lt_0_compat; lra|].
  exists K. intros m Hm. specialize (HK m Hm). replace (c * f m - c * l)%C with (c * (f m - l))%C by ring. rewrite Cmod_mult.
  apply Rle_lt_trans with (Cmod c * (eps / (Cmod c + 1))); [apply Rmult_le_compat_l; lra|].
  apply Rmult_lt_reg_r with (Cmod c + 1); [lra|]. replace (Cmod c * (eps / (Cmod c + 1)) * (Cmod c + 1)) with (Cmod c * eps) by (field; lra). nra.
Qed.
Lemma clim_const c : clim (fun _ => c) c.
Proof. intros eps He. exists O. intros m _. unfold Cminus. rewrite Cplus_opp_r, Cmod_0. exact He. Qed.
Lemma clim_csum n (f : nat -> nat -> C) l : (forall j, (j < n)%nat -> clim (fun m => f m j) (l j)) -> clim (fun m => csum n (f m)) (csum n l).
Proof.
  induction n as [|n IH]; intros H; [exact (clim_const (RtoC 0))|]. cbn [csum]. apply clim_plus; [apply IH; intros; apply H; lia|apply H; lia].
Qed.
Lemma clim_S f l : clim f l -> clim (fun m => f (S m)) l.
Proof. intros H eps He. destruct (H eps He) as [K HK]. exists K. intros m Hm. apply HK. lia. Qed.
Lemma clim_S' f l : clim (fun m => f (S m)) l -> clim f l.
Proof. intros H eps He. destruct (H eps He) as [K HK]. exists (S K). intros [|m] Hm; [lia|]. apply HK. lia. Qed.

(** ** Power series with complex coefficients *)
Section Power.
  Variable c : nat -> C.
  Variables X B : R.
  Hypothesis HX : 0 <= X.
  Hypothesis HB : 0 <= B.
  Hypothesis Hc : forall k, Cmod (c k) <= B * (X ^ k / INR (fact k)).
  Definition cps (t : R) : C := (PSeries (fun k => fst (c k)) t, PSeries (fun k => snd (c k)) t).
  Definition cpd (t : R) : C := (PSeries (PS_derive (fun k => fst (c k))) t, PSeries (PS_derive (fun k => snd (c k))) t).

  Lemma real_radius (a : nat -> R) : (forall k, Rabs (a k) <= B * (X ^ k / INR (fact k))) -> forall t, Rbar_lt (Rabs t) (CV_radius a).
  Proof.
    intros Ha t. set (r := Rabs t + 1). assert (Hr : 0 <= r) by (unfold r; assert (P := Rabs_pos t); lra).
    apply Rbar_lt_le_trans with r; [cbn; unfold r; lra|].
    apply (proj1 (CV_radius_bounded a)). exists (B * exp (X * r)). intros k.
    rewrite Rabs_mult, <- RPow_abs, (Rabs_pos_eq r) by exact Hr.
    assert (F := INR_fact_lt_0 k). assert (P := pow_le r k Hr).
    apply Rle_trans with (B * (X ^ k / INR (fact k)) * r ^ k); [apply Rmult_le_compat_r; [exact P|apply Ha]|].
    rewrite Rmult_assoc. apply Rmult_le_compat_l; [exact HB|].
    replace (X ^ k / INR (fact k) * r ^ k) with (/ INR (fact k) * (X * r) ^ k) by (rewrite Rpow_mult_distr; field; lra).
    assert (P2 : 0 <= X * r) by (apply Rmult_le_pos; assumption).
    eapply Rle_trans; [|apply (exp_partial (X * r) (S k) P2)]. cbn [sumf].
    assert (0 <= sumf k (fun k => / INR (fact k) * (X * r) ^ k)); [|lra].
    apply sumf_nonneg. intros l _. apply Rmult_le_pos; [left; apply Rinv_0_lt_compat, INR_fact_lt_0|apply pow_le; exact P2].
  Qed.
  Lemma part_fst k : Rabs (fst (c k)) <= B * (X ^ k / INR (fact k)).
  Proof. eapply Rle_trans; [apply parts_Cmod|apply Hc]. Qed.
  Lemma part_snd k : Rabs (snd (c k)) <= B * (X ^ k / INR (fact k)).
  Proof. eapply Rle_trans; [apply parts_Cmod|apply Hc]. Qed.
  Lemma cps_der t : is_Cder cps t (cpd t).
  Proof.
    split; cbn [cps cpd fst snd]; apply is_derive_PSeries; apply real_radius; [apply part_fst|apply part_snd].
  Qed.
  Lemma real_lim (a : nat -> R) t : Rbar_lt (Rabs t) (CV_radius a) ->
    forall eps : R, 0 < eps -> exists K, forall m, (K <= m)%nat -> Rabs (sumf m (fun k => t ^ k * a k) - PSeries a t) < eps.
  Proof.
    intros H eps He. assert (G := PSeries_correct a t (CV_radius_inside _ _ H)). 
    assert (G2 : is_lim_seq (sum_n (fun k => scal (pow_n t k) (a k))) (PSeries a t)) by exact G.
    apply is_lim_seq_spec in G2. destruct (G2 (mkposreal eps He)) as [K HK]. exists (S K). intros [|m] Hm; [lia|].
    specialize (HK m ltac:(lia)). cbn [pos] in HK.
    replace (sumf (S m) (fun k => t ^ k * a k)) with (sum_n (fun k => scal (pow_n t k) (a k)) m); [exact HK|].
    clear. induction m as [|m IH]; [rewrite sum_O; cbn [sumf]; rewrite <- (pow_n_pow t 0); symmetry; apply Rplus_0_l|].
    rewrite sum_Sn, IH. cbn [sumf]. rewrite <- (pow_n_pow t (S m)). reflexivity.
  Qed.
  Lemma csum_two m (t : R) (d : nat -> C) : csum m (fun k => RtoC (t ^ k) * d k)%C =
    (sumf m (fun k => t ^ k * fst (d k)), sumf m (fun k => t ^ k * snd (d k))).
  Proof.
    rewrite csum_parts. f_equal; (induction m as [|m IH]; [reflexivity|]; cbn [sumf]; rewrite IH; f_equal; cbn; ring).
  Qed.
  Lemma two_lim t (d : nat -> C) (l : C) : (forall eps : R, 0 < eps -> exists K, forall m, (K <= m)%nat -> Rabs (sumf m (fun k => t ^ k * fst (d k)) - fst l) < eps) ->
    (forall eps : R, 0 < eps -> exists K, forall m, (K <= m)%nat -> Rabs (sumf m (fun k => t ^ k * snd (d k)) - snd l) < eps) ->
    clim (fun m => csum m (fun k => RtoC (t ^ k) * d k)%C) l.
  Proof.
    intros H H' eps He. destruct (H (eps / 2) ltac:(lra)) as [K HK]. destruct (H' (eps / 2) ltac:(lra)) as [K' HK'].
    exists (max K K'). intros m Hm. specialize (HK m ltac:(lia)). specialize (HK' m ltac:(lia)).
    rewrite csum_two. eapply Rle_lt_trans; [apply Cmod_parts|]. cbn [fst snd Cminus Cplus Copp]. unfold Rminus in *. lra.
  Qed.
  Lemma cps_lim t : clim (fun m => csum m (fun k => RtoC (t ^ k) * c k)%C) (cps t).
  Proof. apply two_lim; cbn [cps fst snd]; apply real_lim; apply real_radius; [apply part_fst|apply part_snd]. Qed.
  Lemma cpd_lim t : clim (fun m => csum m (fun k => RtoC (t ^ k) * (RtoC (INR (S k)) * c (S k)))%C) (cpd t).
  Proof.
    apply two_lim; cbn [cpd fst snd].
    - intros eps He. destruct (real_lim (PS_derive (fun k => fst (c k))) t) with (eps := eps) as [K HK]; [|exact He|].
      + rewrite CV_radius_derive. apply real_radius. apply part_fst.
      + exists K. intros m Hm. specialize (HK m Hm). 
        replace (sumf m (fun k => t ^ k * fst (RtoC (INR (S k)) * c (S k))%C)) with (sumf m (fun k => t ^ k * PS_derive (fun k => fst (c k)) k)); [exact HK|].
        clear. induction m as [|m IH]; [reflexivity|]. cbn [sumf]. rewrite IH. unfold PS_derive. f_equal. destruct (c (S m)) as [a b]. unfold RtoC, Cmult; cbn [fst snd]. ring.
    - intros eps He. destruct (real_lim (PS_derive (fun k => snd (c k))) t) with (eps := eps) as [K HK]; [|exact He|].
      + rewrite CV_radius_derive. apply real_radius. apply part_snd.
      + exists K. intros m Hm. specialize (HK m Hm). 
        replace (sumf m (fun k => t ^ k * snd (RtoC (INR (S k)) * c (S k))%C)) with (sumf m (fun k => t ^ k * PS_derive (fun k => snd (c k)) k)); [exact HK|].
        clear. induction m as [|m IH]; [reflexivity|]. cbn [sumf]. rewrite IH. unfold PS_derive. f_equal. destruct (c (S m)) as [a b]. unfold RtoC, Cmult; cbn [fst snd]. ring.
  Qed.
End Power.

(** ** The series of the phi functions of a matrix *)
Lemma mpow_times n c (L : cmat) k : meq n (mpow n (mtimes c L) k) (mtimes (cpow c k) (mpow n L k)).
Proof.
  induction k as [|k IH]; intros i j Hi Hj; [cbn [mpow cpow]; unfold mtimes; ring|]. cbn [mpow cpow].
  unfold mprod. unfold mtimes at 3. unfold mprod. rewrite <- csum_scal. apply csum_ext. intros l Hl. rewrite (IH l j Hl Hj). unfold mtimes. ring.
Qed.
Lemma csum_mident n i (v : cvec) : (i < n)%nat -> csum n (fun j => mident i j * v j)%C = v i.
Proof.
  intros Hi. rewrite (csum_single n i); [unfold mident; rewrite Nat.eqb_refl; ring|exact Hi|].
  intros j Hj Hn. unfold mident. destruct (Nat.eqb_spec i j); [congruence|ring].
Qed.
Lemma RtoC_cpow (t : R) k : cpow (RtoC t) k = RtoC (t ^ k).
Proof. induction k as [|k IH]; [reflexivity|]. cbn [cpow pow]. rewrite IH, RtoC_mult. reflexivity. Qed.

Section Mat.
  Variable n : nat.
  Variable L : cmat.
  Definition mcoef (r i j k : nat) : C := (RtoC (/ INR (fact (k + r))) * mpow n L k i j)%C.
  Definition mphi (r : nat) (t : R) : cmat := fun i j => cps (mcoef r i j) t.
  Definition mphid (r : nat) (t : R) : cmat := fun i j => cpd (mcoef r i j) t.

  Lemma mcoef_bound : exists X, 0 <= X /\ forall r i j k, (i < n)%nat -> (j < n)%nat -> Cmod (mcoef r i j k) <= 1 * (X ^ k / INR (fact k)).
  Proof.
    destruct (mat_bounded n L) as (X & HX & HL). exists X. split; [exact HX|]. intros r i j k Hi Hj.
    unfold mcoef. rewrite Cmod_mult, Cmod_R.
    assert (F := INR_fact_lt_0 k). assert (F2 := INR_fact_lt_0 (k + r)).
    rewrite Rabs_pos_eq by (left; apply Rinv_0_lt_compat; exact F2).
    rewrite Rmult_1_l. unfold Rdiv. rewrite Rmult_comm. apply Rmult_le_compat; [apply Cmod_ge_0|left; apply Rinv_0_lt_compat; exact F2| |].
    - eapply Rle_trans; [apply (entry_rown n _ i j Hj)|apply rown_pow; assumption].
    - apply Rinv_le_contravar; [exact F|apply le_INR, fact_le; lia].
  Qed.
  Lemma mphi_lim r t i j : (i < n)%nat -> (j < n)%nat -> clim (fun m => csum m (fun k => RtoC (t ^ k) * mcoef r i j k)%C) (mphi r t i j).
  Proof. intros Hi Hj. destruct mcoef_bound as (X & HX & H). apply (cps_lim _ X 1 HX Rle_0_1). intros k. apply H; assumption. Qed.
  Lemma mphid_lim r t i j : (i < n)%nat -> (j < n)%nat ->
    clim (fun m => csum m (fun k => RtoC (t ^ k) * (RtoC (INR (S k)) * mcoef r i j (S k)))%C) (mphid r t i j).
  Proof. intros Hi Hj. destruct mcoef_bound as (X & HX & H). apply (cpd_lim _ X 1 HX Rle_0_1). intros k. apply H; assumption. Qed.
  Lemma mphi_der r t i j : (i < n)%nat -> (j < n)%nat -> is_Cder (fun t => mphi r t i j) t (mphid r t i j).
  Proof. intros Hi Hj. destruct mcoef_bound as (X & HX & H). apply (cps_der _ X 1 HX Rle_0_1). intros k. apply H; assumption. Qed.

  Lemma mphi_psi r t : is_psi n r (mtimes (RtoC t) L) (mtimes (RtoC (INR (fact r))) (mphi r t)).
  Proof.
    intros i j Hi Hj. change (clim (fun m => psum n r (mtimes (RtoC t) L) m i j) (RtoC (INR (fact r)) * mphi r t i j)%C).
    eapply clim_ext; [|apply clim_scal; apply mphi_lim; assumption]. intros m. cbn beta. rewrite <- csum_scal.
    unfold psum, mpoly. apply csum_ext. intros k _. rewrite (mpow_times n (RtoC t) L k i j Hi Hj). unfold mtimes, mcoef, pcoef.
    rewrite RtoC_cpow. unfold Rdiv. rewrite (RtoC_mult (INR (fact r))). ring.
  Qed.
  (** [phi_r(tL) = 1/r! + t L phi_(r+1)(tL)]. *)
  Lemma mphi_rec r t i j : (i < n)%nat -> (j < n)%nat ->
    mphi r t i j = (RtoC (/ INR (fact r)) * mident i j + RtoC t * mprod n L (mphi (S r) t) i j)%C.
  Proof.
    intros Hi Hj. apply (clim_unique (fun m => csum m (fun k => RtoC (t ^ k) * mcoef r i j k)%C)); [apply mphi_lim; assumption|].
    apply clim_S'. apply (clim_ext (fun m => RtoC (/ INR (fact r)) * mident i j +
       RtoC t * csum n (fun l => L i l * csum m (fun k => RtoC (t ^ k) * mcoef (S r) l j k)))%C).
    - intros m. rewrite csum_shift. unfold mcoef at 2. cbn [pow Nat.add mpow]. rewrite Cmult_1_l. f_equal.
      transitivity (csum n (fun l => csum m (fun k => RtoC t * L i l * (RtoC (t ^ k) * mcoef (S r) l j k)))%C).
      + rewrite <- csum_scal. apply csum_ext. intros l _. rewrite csum_scal. ring.
      + rewrite csum_swap. apply csum_ext. intros k _. unfold mcoef. cbn [mpow]. unfold mprod.
        replace (S k + r)%nat with (k + S r)%nat by lia.
        rewrite <- !csum_scal. apply csum_ext. intros l _. cbn [pow]. rewrite RtoC_mult. ring.
    - apply clim_plus; [apply clim_const|]. apply clim_scal. unfold mprod.
      apply (clim_csum n (fun m l => L i l * csum m (fun k => RtoC (t ^ k) * mcoef (S r) l j k))%C (fun l => L i l * mphi (S r) t l j)%C).
      intros l Hl. apply clim_scal. apply mphi_lim; assumption.
  Qed.
  (** [(r+1) phi_(r+1) + t phi_(r+1)' = phi_r]. *)
  Lemma mphid_rec r t i j : (i < n)%nat -> (j < n)%nat ->
    (RtoC (INR (S r)) * mphi (S r) t i j + RtoC t * mphid (S r) t i j)%C = mphi r t i j.
  Proof.
    intros Hi Hj. apply (clim_unique (fun m => RtoC (INR (S r)) * csum (S m) (fun k => RtoC (t ^ k) * mcoef (S r) i j k)
       + RtoC t * csum m (fun k => RtoC (t ^ k) * (RtoC (INR (S k)) * mcoef (S r) i j (S k))))%C).
    - apply clim_plus; apply clim_scal; [apply (clim_S (fun m => csum m (fun k => RtoC (t ^ k) * mcoef (S r) i j k)%C)); apply mphi_lim|apply mphid_lim]; assumption.
    - apply (clim_ext (fun m => csum (S m) (fun k => RtoC (t ^ k) * mcoef r i j k)%C)).
      + intros m.
        replace (RtoC t * csum m (fun k => RtoC (t ^ k) * (RtoC (INR (S k)) * mcoef (S r) i j (S k))))%C
          with (csum (S m) (fun k => RtoC (t ^ k) * (RtoC (INR k) * mcoef (S r) i j k)))%C.
        * rewrite <- csum_scal, <- csum_plus. apply csum_ext. intros k _. unfold mcoef.
          replace (k + S r)%nat with (S (k + r)) by lia.
          replace (/ INR (fact (k + r))) with ((INR (S r) + INR k) * / INR (fact (S (k + r)))).
          -- rewrite RtoC_mult, RtoC_plus. ring.
          -- change (fact (S (k + r))) with (S (k + r) * fact (k + r))%nat. rewrite mult_INR, <- plus_INR. replace (S r + k)%nat with (S (k + r)) by lia.
             field. split; [apply INR_fact_neq_0|apply not_0_INR; lia].
        * rewrite csum_shift. change (INR 0) with 0. rewrite <- csum_scal.
          transitivity (csum m (fun k => RtoC (t ^ S k) * (RtoC (INR (S k)) * mcoef (S r) i j (S k))))%C; [ring|].
          apply csum_ext. intros k _. cbn [pow]. rewrite (RtoC_mult t). ring.
      + apply (clim_S (fun m => csum m (fun k => RtoC (t ^ k) * mcoef r i j k)%C)). apply mphi_lim; assumption.
  Qed.
  (** [exp(tL)' = L exp(tL)]. *)
  Lemma mphid_0 t i j : (i < n)%nat -> (j < n)%nat -> mphid 0 t i j = mprod n L (mphi 0 t) i j.
  Proof.
    intros Hi Hj. apply (clim_unique (fun m => csum m (fun k => RtoC (t ^ k) * (RtoC (INR (S k)) * mcoef 0 i j (S k)))%C)); [apply mphid_lim; assumption|].
    unfold mprod. apply (clim_ext (fun m => csum n (fun l => L i l * csum m (fun k => RtoC (t ^ k) * mcoef 0 l j k)))%C).
    - intros m. transitivity (csum n (fun l => csum m (fun k => L i l * (RtoC (t ^ k) * mcoef 0 l j k))))%C; [apply csum_ext; intros l _; rewrite csum_scal; reflexivity|].
      rewrite csum_swap. apply csum_ext. intros k _. unfold mcoef. cbn [mpow]. unfold mprod. rewrite <- !csum_scal. apply csum_ext. intros l _.
      rewrite !Nat.add_0_r. change (fact (S k)) with (S k * fact k)%nat. rewrite mult_INR, Rinv_mult.
      rewrite RtoC_mult. assert (E : (RtoC (INR (S k)) * RtoC (/ INR (S k)) = 1)%C) by (rewrite <- RtoC_mult, Rinv_r by (apply not_0_INR; lia); reflexivity).
      transitivity ((RtoC (INR (S k)) * RtoC (/ INR (S k))) * (RtoC (t ^ k) * (RtoC (/ INR (fact k)) * (L i l * mpow n L k l j))))%C; [rewrite E; ring|ring].
    - apply (clim_csum n (fun m l => L i l * csum m (fun k => RtoC (t ^ k) * mcoef 0 l j k))%C (fun l => L i l * mphi 0 t l j)%C).
      intros l Hl. apply clim_scal. apply mphi_lim; assumption.
  Qed.

  (** ** Matrices given by the exponential series form a flow. *)
  Lemma zero_psi P : is_psi n 0 (mtimes (RtoC 0) L) P -> meq n P mident.
  Proof.
    intros H. assert (G := mphi_psi 0 0). transitivity (mtimes (RtoC (INR (fact 0))) (mphi 0 0)); [apply (psi_unique _ _ _ _ _ H G)|].
    intros i j Hi Hj. unfold mtimes. rewrite (mphi_rec 0 0 i j Hi Hj). cbn [fact INR]. rewrite Rinv_1. ring.
  Qed.
  Theorem series_flow (Ex : R -> cmat) : (forall t, is_psi n 0 (mtimes (RtoC t) L) (Ex t)) -> matflow n L Ex.
  Proof.
    intros HE. assert (EE : forall t, meq n (Ex t) (mphi 0 t)).
    { intros t. transitivity (mtimes (RtoC (INR (fact 0))) (mphi 0 t)); [apply (psi_unique _ _ _ _ _ (HE t) (mphi_psi 0 t))|].
      intros i j _ _. unfold mtimes. cbn [fact INR]. ring. }
    assert (D : forall t i j, (i < n)%nat -> (j < n)%nat -> is_Cder (fun t => Ex t i j) t (mprod n L (Ex t) i j)).
    { intros t i j Hi Hj. apply (is_Cder_eq (fun t => mphi 0 t i j) _ t (mphid 0 t i j)); [intros s; symmetry; apply EE; assumption| |apply mphi_der; assumption].
      rewrite mphid_0 by assumption. unfold mprod. apply csum_ext. intros l Hl. rewrite (EE t l j Hl Hj). reflexivity. }
    split; [apply zero_psi, HE| |exact D].
    intros s t i j Hi Hj. destruct (psi_exists n 1 (mtimes (RtoC s) L)) as [P1 HP1].
    assert (G := forced_matrix n L (fun _ => RtoC 0) (fun s i => Ex (t + s) i j)).
    rewrite (Rplus_comm s t). rewrite (G) with (e := Ex s) (P1 := P1); [|intros r k Hk|exact Hi|apply HE|exact HP1].
    - assert (Z : mdot n P1 (fun _ => RtoC 0) i = RtoC 0) by (unfold mdot; apply csum_0; intros; ring). rewrite Z, Rplus_0_r.
      unfold mprod, mdot. ring.
    - rewrite Cplus_0_r. apply (is_Cder_shift (fun s => Ex s k j)). apply D; assumption.
  Qed.

  (** ** The series satisfy the equations of the phi functions. *)
  Definition mPHI (k : nat) (s : R) : cvec -> cvec := mdot n (mphi k s).
  Lemma mphi_bound k T : exists B, 0 <= B /\ forall s i j, Rabs s <= T -> (i < n)%nat -> (j < n)%nat -> Cmod (mphi k s i j) <= B.
  Proof.
    destruct (mat_bounded n L) as (X & HX & HL). exists (exp (T * X)). split; [left; apply exp_pos|]. intros s i j Hs Hi Hj.
    assert (P := Rabs_pos s).
    assert (G : rown n (mtimes (RtoC (INR (fact k))) (mphi k s)) i <= exp (T * X)).
    { apply (psi_norm n (mtimes (RtoC s) L) (T * X)) with (r := k); [apply Rmult_le_pos; lra| |apply mphi_psi|exact Hi].
      intros l Hl. rewrite rown_times, Cmod_R. apply Rmult_le_compat; [exact P|apply rown_nonneg|exact Hs|apply HL; exact Hl]. }
    rewrite rown_times, Cmod_R, Rabs_pos_eq in G by apply pos_INR.
    assert (E := entry_rown n (mphi k s) i j Hj). assert (F : 1 <= INR (fact k)) by (change 1 with (INR 1); apply le_INR; assert (Q := lt_O_fact k); lia).
    assert (R0 := rown_nonneg n (mphi k s) i). nra.
  Qed.
  Theorem series_phi_ops T : 0 <= T -> phi_ops n L T mPHI.
  Proof.
    intros HT. split.
    - intros k s. split.
      + intros v w i Hi. apply (lin_add _ _ (mdot_linear n (mphi k s))). exact Hi.
      + intros c v i Hi. apply (lin_scal _ _ (mdot_linear n (mphi k s))). exact Hi.
    - intros k v s i Hi.
      assert (E : (mdot n L (rscal (s ^ S k) (mPHI (S k) s v)) i + RtoC (s ^ k / INR (fact k)) * v i)%C
                = (RtoC (s ^ k) * mPHI k s v i)%C).
      { unfold mPHI. assert (X : mdot n (mphi k s) v i = (RtoC (/ INR (fact k)) * v i + RtoC s * mdot n L (mdot n (mphi (S k) s) v) i)%C).
        { unfold mdot at 1. transitivity (csum n (fun j => RtoC (/ INR (fact k)) * (mident i j * v j) + RtoC s * (mprod n L (mphi (S k) s) i j * v j)))%C.
          - apply csum_ext. intros j Hj. rewrite (mphi_rec k s i j Hi Hj). ring.
          - rewrite csum_plus, !csum_scal. f_equal; f_equal.
            + apply csum_mident. exact Hi.
            + unfold mdot, mprod. transitivity (csum n (fun j => csum n (fun l => L i l * (mphi (S k) s l j * v j))))%C.
              * apply csum_ext. intros j _. rewrite Cmult_comm, <- csum_scal. apply csum_ext. intros; ring.
              * rewrite csum_swap. apply csum_ext. intros l _. rewrite csum_scal. reflexivity. }
        assert (Y : mdot n L (rscal (s ^ S k) (mdot n (mphi (S k) s) v)) i = (RtoC (s ^ S k) * mdot n L (mdot n (mphi (S k) s) v) i)%C)
          by exact (lin_scal _ _ (mdot_linear n L) (RtoC (s ^ S k)) (mdot n (mphi (S k) s) v) i Hi).
        rewrite X, Y. cbn [pow]. unfold Rdiv. rewrite !RtoC_mult. ring. }
      rewrite E. unfold mPHI.
      apply (is_Cder_eq (fun s => RtoC (s ^ S k) * mdot n (mphi (S k) s) v i)%C _ s
               (RtoC (INR (S k) * s ^ k) * mdot n (mphi (S k) s) v i + RtoC (s ^ S k) * mdot n (mphid (S k) s) v i)%C); [reflexivity| |].
      + unfold mdot. rewrite <- !csum_scal, <- csum_plus. apply csum_ext. intros j Hj. rewrite <- (mphid_rec k s i j Hi Hj).
        cbn [pow]. rewrite !RtoC_mult. ring.
      + apply (is_Cder_mult (fun s => RtoC (s ^ S k)) (fun s => mdot n (mphi (S k) s) v i)).
        * apply (is_Cder_R (fun s => s ^ S k)). apply is_derive_Reals. replace (INR (S k) * s ^ k) with (INR (S k) * s ^ pred (S k)) by reflexivity. apply derivable_pt_lim_pow.
        * assert (D : is_Cder (fun s => mdot n (mphi (S k) s) v i) s (mdot n (mphid (S k) s) v i + mdot n (mphi (S k) s) (fun _ => RtoC 0) i)%C).
          { apply (is_Cder_mdot n (mphi (S k)) (mphid (S k)) (fun _ => v) (fun _ _ => RtoC 0)); intros j Hj; [apply mphi_der; assumption|apply is_Cder_const]. }
          assert (Z : mdot n (mphi (S k) s) (fun _ => RtoC 0) i = RtoC 0) by (unfold mdot; apply csum_0; intros; ring).
          rewrite Z, Cplus_0_r in D. exact D.
    - intros k Hk. destruct (mphi_bound (S k) T) as (B & HB & H). destruct (matrix_bound n L) as (X & HX & HL).
      exists (INR n * (INR n * (X * B))). split; [repeat (apply Rmult_le_pos; [apply pos_INR|]); apply Rmult_le_pos; assumption|].
      intros s Hs v x Hx Hv i Hi.
      assert (E : csub (mPHI k s v) (rscal (/ INR (fact k)) v) i = (RtoC s * mdot n (mprod n L (mphi (S k) s)) v i)%C).
      { unfold csub, rscal, cscal, mPHI. unfold mdot at 1.
        rewrite (csum_ext n _ (fun j => RtoC (/ INR (fact k)) * (mident i j * v j) + RtoC s * (mprod n L (mphi (S k) s) i j * v j))%C)
          by (intros j Hj; rewrite (mphi_rec k s i j Hi Hj); ring).
        rewrite csum_plus, !csum_scal.
        rewrite (csum_mident n i v Hi). unfold mdot. ring. }
      rewrite E, Cmod_mult, Cmod_R, Rabs_pos_eq by lra.
      assert (G : opn n (mdot n (mprod n L (mphi (S k) s))) (INR n * (INR n * (X * B)))).
      { apply opn_mdot; [apply Rmult_le_pos; [apply pos_INR|apply Rmult_le_pos; assumption]|]. intros a b Ha Hb. unfold mprod.
        apply csum_norm_const. intros l Hl. rewrite Cmod_mult. apply Rmult_le_compat; try apply Cmod_ge_0; [apply HL; assumption|].
        apply H; [rewrite Rabs_pos_eq; lra|assumption|assumption]. }
      specialize (G v x Hx Hv i Hi). apply Rle_trans with (s * (INR n * (INR n * (X * B)) * x)); [apply Rmult_le_compat_l; lra|]. right. ring.
  Qed.
End Mat.
