(** * The functions phi_k, by their integrals

    [phi k z] is the integral over [0,1] of [exp((1-t) z) t^(k-1) / (k-1)!], taken separately for
    the real and imaginary part. Nothing here mentions the model. *)

From Coq Require Import Reals Lra Lia FunctionalExtensionality Arith.
From Coquelicot Require Import Coquelicot.
From Verif Require Import Scalars Arrays CInst.
Local Open Scope R_scope.

(** ** Integrals and derivatives of complex functions of a real variable *)
Definition Cint (f : R -> C) (a b : R) : C :=
  (RInt (fun t => fst (f t)) a b, RInt (fun t => snd (f t)) a b).
Definition is_Cint (f : R -> C) (a b : R) (l : C) : Prop :=
  is_RInt (fun t => fst (f t)) a b (fst l) /\ is_RInt (fun t => snd (f t)) a b (snd l).
Definition is_Cder (f : R -> C) (t : R) (l : C) : Prop :=
  is_derive (fun t => fst (f t)) t (fst l) /\ is_derive (fun t => snd (f t)) t (snd l).
Definition Ccont (f : R -> C) : Prop :=
  forall t, continuous (fun t => fst (f t)) t /\ continuous (fun t => snd (f t)) t.

(** Powers. *)
Fixpoint cpow (z : C) (n : nat) : C := match n with O => RtoC 1 | S n => (z * cpow z n)%C end.

(** ** phi functions *)
Definition phi (k : nat) (z : C) : C :=
  match k with
  | O => Cexp z
  | S k => Cint (fun t => Cexp (RtoC (1 - t) * z) * RtoC (t ^ k / INR (fact k)))%C 0 1
  end.

(** ** Facts *)
Lemma is_Cint_unique f a b l : is_Cint f a b l -> Cint f a b = l.
Proof.
  intros [H1 H2]. unfold Cint. rewrite (is_RInt_unique _ _ _ _ H1), (is_RInt_unique _ _ _ _ H2).
  destruct l; reflexivity.
Qed.
Lemma Ccont_int f a b : Ccont f -> is_Cint f a b (Cint f a b).
Proof.
  intros H. split; cbn; apply (@RInt_correct R_CompleteNormedModule); apply (@ex_RInt_continuous R_CompleteNormedModule);
    intros z _; apply H.
Qed.
Lemma is_Cint_ext f g a b l : (forall t, f t = g t) -> is_Cint f a b l -> is_Cint g a b l.
Proof. intros H. replace g with f; [auto|]. apply functional_extensionality; exact H. Qed.
Lemma is_Cint_plus f g a b l m : is_Cint f a b l -> is_Cint g a b m ->
  is_Cint (fun t => f t + g t)%C a b (l + m)%C.
Proof. intros [H1 H2] [H3 H4]. split; cbn; apply (@is_RInt_plus R_NormedModule); assumption. Qed.
Lemma is_Cint_scal c f a b l : is_Cint f a b l -> is_Cint (fun t => c * f t)%C a b (c * l)%C.
Proof.
  intros [H1 H2]. split; cbn.
  - apply (@is_RInt_minus R_NormedModule); apply (@is_RInt_scal R_NormedModule); assumption.
  - apply (@is_RInt_plus R_NormedModule); apply (@is_RInt_scal R_NormedModule); assumption.
Qed.
Lemma is_Cint_0 a b : is_Cint (fun _ => RtoC 0) a b 0.
Proof.
  assert (G := @is_RInt_const R_NormedModule a b 0). change (scal (b - a) 0) with ((b - a) * 0) in G.
  rewrite Rmult_0_r in G. split; exact G.
Qed.
Lemma is_Cint_csum n (f : nat -> R -> C) a b l : (forall j, (j < n)%nat -> is_Cint (f j) a b (l j)) ->
  is_Cint (fun t => csum n (fun j => f j t)) a b (csum n l).
Proof.
  induction n as [|n IH]; intros H; cbn [csum]; [apply is_Cint_0|].
  apply is_Cint_plus; [apply IH; intros; apply H; lia|apply H; lia].
Qed.
Lemma is_Cder_cont f : (forall t, exists l, is_Cder f t l) -> Ccont f.
Proof.
  intros H t. destruct (H t) as [l [H1 H2]].
  split; apply (@ex_derive_continuous _ R_NormedModule); eexists; eassumption.
Qed.
Lemma is_Cint_der f df a b : (forall t, is_Cder f t (df t)) -> Ccont df -> is_Cint df a b (f b - f a)%C.
Proof.
  intros H Hc. split; cbn.
  - apply (is_RInt_derive (fun t => fst (f t)) (fun t => fst (df t))); intros; [apply H|apply Hc].
  - apply (is_RInt_derive (fun t => snd (f t)) (fun t => snd (df t))); intros; [apply H|apply Hc].
Qed.

Lemma Cmod_sqr (a : C) : Cmod a * Cmod a = fst a * fst a + snd a * snd a.
Proof.
  unfold Cmod. rewrite sqrt_sqrt; [ring|]. nra.
Qed.
Lemma Cmod_dot (a b : C) : fst a * fst b + snd a * snd b <= Cmod a * Cmod b.
Proof.
  apply Rsqr_incr_0_var; [|apply Rmult_le_pos; apply Cmod_ge_0]. unfold Rsqr.
  replace (Cmod a * Cmod b * (Cmod a * Cmod b)) with ((Cmod a * Cmod a) * (Cmod b * Cmod b)) by ring.
  rewrite !Cmod_sqr. pose proof (Rle_0_sqr (fst a * snd b - snd a * fst b)) as H. unfold Rsqr in H. lra.
Qed.
Lemma Cint_norm f g a b l m : a <= b -> (forall t, a <= t <= b -> Cmod (f t) <= g t) ->
  is_Cint f a b l -> is_RInt g a b m -> Cmod l <= m.
Proof.
  intros Hab H [H1 H2] Hg.
  assert (Hs : is_RInt (fun t => fst l * fst (f t) + snd l * snd (f t)) a b (fst l * fst l + snd l * snd l)).
  { apply (@is_RInt_plus R_NormedModule); apply (@is_RInt_scal R_NormedModule); assumption. }
  assert (Hm : is_RInt (fun t => Cmod l * g t) a b (Cmod l * m)).
  { apply (@is_RInt_scal R_NormedModule); assumption. }
  assert (L : Cmod l * Cmod l <= Cmod l * m).
  { rewrite Cmod_sqr. apply (is_RInt_le _ _ _ _ _ _ Hab Hs Hm). intros t Ht.
    eapply Rle_trans; [apply Cmod_dot|]. apply Rmult_le_compat_l; [apply Cmod_ge_0|apply H; lra]. }
  destruct (Req_dec (Cmod l) 0) as [E|E].
  - rewrite E. assert (G : is_RInt (fun _ => 0) a b ((b - a) * 0)) by apply (@is_RInt_const R_NormedModule).
    replace 0 with ((b - a) * 0) by ring. apply (is_RInt_le _ _ _ _ _ _ Hab G Hg).
    intros t Ht. eapply Rle_trans; [apply Cmod_ge_0|apply H; lra].
  - assert (0 < Cmod l) by (pose proof (Cmod_ge_0 l); lra). nra.
Qed.

Lemma is_Cder_plus f g t l m : is_Cder f t l -> is_Cder g t m -> is_Cder (fun t => f t + g t)%C t (l + m)%C.
Proof. intros [H1 H2] [H3 H4]. split; cbn; apply (@is_derive_plus _ R_NormedModule); assumption. Qed.
Lemma is_Cder_mult f g t l m : is_Cder f t l -> is_Cder g t m ->
  is_Cder (fun t => f t * g t)%C t (l * g t + f t * m)%C.
Proof.
  intros [H1 H2] [H3 H4]. split; cbn.
  - replace (fst l * fst (g t) - snd l * snd (g t) + (fst (f t) * fst m - snd (f t) * snd m))
      with (minus (fst l * fst (g t) + fst (f t) * fst m) (snd l * snd (g t) + snd (f t) * snd m))
      by (unfold minus, plus, opp; cbn; ring).
    apply (@is_derive_minus _ R_NormedModule);
      apply (is_derive_mult (K := R_AbsRing)); auto; intros; apply Rmult_comm.
  - replace (fst l * snd (g t) + snd l * fst (g t) + (fst (f t) * snd m + snd (f t) * fst m))
      with (plus (fst l * snd (g t) + fst (f t) * snd m) (snd l * fst (g t) + snd (f t) * fst m))
      by (unfold plus; cbn; ring).
    apply (@is_derive_plus _ R_NormedModule);
      apply (is_derive_mult (K := R_AbsRing)); auto; intros; apply Rmult_comm.
Qed.
Lemma is_Cder_const c t : is_Cder (fun _ => c) t 0.
Proof. split; cbn; apply (@is_derive_const _ R_NormedModule). Qed.
Lemma is_Cder_R f t l : is_derive f t l -> is_Cder (fun t => RtoC (f t)) t (RtoC l).
Proof. intros H. split; cbn; [exact H|apply (@is_derive_const _ R_NormedModule)]. Qed.
Lemma is_Cder_exp (a b : C) t : is_Cder (fun t => Cexp (a + RtoC t * b))%C t (b * Cexp (a + RtoC t * b))%C.
Proof.
  split; destruct a as [a1 a2], b as [b1 b2]; unfold Cexp, Cplus, Cmult, RtoC; cbn [fst snd];
    (auto_derive; [auto|unfold Rminus; ring]).
Qed.
Lemma is_Cder_eq f g t l m : (forall t, f t = g t) -> l = m -> is_Cder f t l -> is_Cder g t m.
Proof. intros H ->. replace g with f; [auto|]. apply functional_extensionality; exact H. Qed.

Lemma INR_fact_neq k : INR (fact k) <> 0.
Proof. apply INR_fact_neq_0. Qed.

(** The integrand of [phi]. *)
Definition phi_f (k : nat) (z : C) (t : R) : C :=
  (Cexp (RtoC (1 - t) * z) * RtoC (t ^ k / INR (fact k)))%C.
Lemma exp_1t (z : C) t : (RtoC (1 - t) * z = z + RtoC t * (- z))%C.
Proof. rewrite RtoC_minus. ring. Qed.
Lemma exp_1t_der z t : is_Cder (fun t => Cexp (RtoC (1 - t) * z))%C t (- z * Cexp (RtoC (1 - t) * z))%C.
Proof.
  apply (is_Cder_eq (fun s => Cexp (z + RtoC s * - z))%C _ t (- z * Cexp (z + RtoC t * - z))%C);
    [intros s; rewrite exp_1t; reflexivity|rewrite exp_1t; reflexivity|apply is_Cder_exp].
Qed.
Lemma pow_der k t : is_derive (fun t => t ^ S k / INR (fact (S k))) t (t ^ k / INR (fact k)).
Proof.
  assert (Hk : INR (S k) <> 0) by (apply not_0_INR; lia). assert (Hf := INR_fact_neq k).
  assert (E : INR (fact (S k)) = INR (S k) * INR (fact k)) by (rewrite fact_simpl; apply mult_INR).
  remember (INR (fact (S k))) as d. remember (INR (fact k)) as e.
  assert (Hd : d <> 0) by (rewrite E; apply Rmult_integral_contrapositive; auto).
  assert (G : is_derive (fun t => t ^ S k) t (INR (S k) * t ^ k)).
  { replace (INR (S k) * t ^ k) with (INR (S k) * 1 * t ^ pred (S k)) by (cbn [pred]; ring).
    apply is_derive_pow. apply (@is_derive_id R_AbsRing). }
  replace (t ^ k / e) with (/ d * (INR (S k) * t ^ k)) by (rewrite E; field; auto).
  apply (is_derive_ext (fun t => / d * t ^ S k)); [intros s; unfold Rdiv; apply Rmult_comm|].
  apply is_derive_scal. exact G.
Qed.
Lemma phi_f_der k z t : is_Cder (phi_f (S k) z) t (- z * phi_f (S k) z t + phi_f k z t)%C.
Proof.
  eapply is_Cder_eq; [reflexivity| |apply is_Cder_mult; [apply exp_1t_der|apply is_Cder_R; apply pow_der]].
  unfold phi_f. ring.
Qed.
Lemma phi_f_der0 z t : is_Cder (phi_f 0 z) t (- z * phi_f 0 z t)%C.
Proof.
  apply (is_Cder_eq (fun t => Cexp (RtoC (1 - t) * z) * 1)%C _ t
           (- z * Cexp (RtoC (1 - t) * z) * 1 + Cexp (RtoC (1 - t) * z) * 0)%C).
  - intros s. unfold phi_f. cbn. replace (1 / 1) with 1 by field. reflexivity.
  - unfold phi_f. cbn. replace (1 / 1) with 1 by field. ring.
  - apply (is_Cder_mult (fun t => Cexp (RtoC (1 - t) * z))%C (fun _ => RtoC 1));
      [apply exp_1t_der|apply is_Cder_const].
Qed.
Lemma phi_f_cont k z : Ccont (phi_f k z).
Proof.
  apply is_Cder_cont. intros t. destruct k; eexists; [apply phi_f_der0|apply phi_f_der].
Qed.
Lemma phi_int k z : is_Cint (phi_f k z) 0 1 (phi (S k) z).
Proof. apply Ccont_int. apply phi_f_cont. Qed.

Lemma Ccont_plus f g : Ccont f -> Ccont g -> Ccont (fun t => f t + g t)%C.
Proof.
  intros H1 H2 t. destruct (H1 t), (H2 t). split; cbn; apply (@continuous_plus _ _ R_NormedModule); assumption.
Qed.
Lemma Ccont_mult f g : Ccont f -> Ccont g -> Ccont (fun t => f t * g t)%C.
Proof.
  intros H1 H2 t. destruct (H1 t), (H2 t).
  split; cbn; [apply (@continuous_minus _ _ R_NormedModule)|apply (@continuous_plus _ _ R_NormedModule)];
    apply (@continuous_mult _ R_AbsRing); assumption.
Qed.
Lemma Ccont_const c : Ccont (fun _ => c).
Proof. intros t. split; cbn; apply continuous_const. Qed.
Lemma Ccont_exp (a b : C) : Ccont (fun t => Cexp (a + RtoC t * b))%C.
Proof. apply is_Cder_cont. intros t. eexists. apply is_Cder_exp. Qed.
Lemma Ccont_ext f g : (forall t, f t = g t) -> Ccont f -> Ccont g.
Proof. intros H. replace g with f; [auto|]. apply functional_extensionality; exact H. Qed.

(** Recurrence and value at zero. *)
Theorem phi_rec k (z : C) : (z * phi (S k) z = phi k z - RtoC (/ INR (fact k)))%C.
Proof.
  destruct k as [|k].
  - assert (H : is_Cint (fun t => - z * phi_f 0 z t)%C 0 1 (phi_f 0 z 1 - phi_f 0 z 0)%C).
    { apply is_Cint_der; [apply phi_f_der0|]. apply Ccont_mult; [apply Ccont_const|apply phi_f_cont]. }
    assert (H' : is_Cint (fun t => - z * phi_f 0 z t)%C 0 1 (- z * phi 1 z)%C).
    { apply is_Cint_scal. apply phi_int. }
    apply is_Cint_unique in H. apply is_Cint_unique in H'. rewrite H in H'. clear H.
    assert (E : (z * phi 1 z = - (- z * phi 1 z))%C) by ring. rewrite E, <- H'. unfold phi_f.
    replace (RtoC (1 - 1) * z)%C with (RtoC 0) by (rewrite RtoC_minus; ring).
    replace (RtoC (1 - 0) * z)%C with z by (rewrite RtoC_minus; ring).
    rewrite Cexp_0. cbn [pow fact INR phi]. replace (1 / 1) with 1 by field. replace (/ 1) with 1 by field. ring.
  - assert (H : is_Cint (fun t => - z * phi_f (S k) z t + phi_f k z t)%C 0 1 (phi_f (S k) z 1 - phi_f (S k) z 0)%C).
    { apply is_Cint_der; [intros t; apply phi_f_der|]. apply Ccont_plus; [apply Ccont_mult; [apply Ccont_const|]|]; apply phi_f_cont. }
    assert (H' : is_Cint (fun t => - z * phi_f (S k) z t + phi_f k z t)%C 0 1 (- z * phi (S (S k)) z + phi (S k) z)%C).
    { apply is_Cint_plus; [apply is_Cint_scal|]; apply phi_int. }
    apply is_Cint_unique in H. apply is_Cint_unique in H'. rewrite H in H'. clear H.
    assert (E : (z * phi (S (S k)) z = phi (S k) z - (- z * phi (S (S k)) z + phi (S k) z))%C) by ring.
    rewrite E, <- H'. unfold phi_f.
    replace (RtoC (1 - 1) * z)%C with (RtoC 0) by (rewrite RtoC_minus; ring).
    rewrite Cexp_0, pow1, pow_i by lia. replace (0 / INR (fact (S k))) with 0 by (field; apply INR_fact_neq).
    replace (1 / INR (fact (S k))) with (/ INR (fact (S k))) by (field; apply INR_fact_neq).
    ring.
Qed.

Theorem phi_0 k : phi k 0 = RtoC (/ INR (fact k)).
Proof.
  assert (H := phi_rec k 0). rewrite Cmult_0_l in H.
  replace (RtoC (/ INR (fact k))) with (phi k 0 - (phi k 0 - RtoC (/ INR (fact k))))%C by ring.
  rewrite <- H. ring.
Qed.

(** Closed forms away from zero. *)
Lemma phi1_eq (z : C) : z <> 0 -> phi 1 z = ((Cexp z - 1) / z)%C.
Proof.
  intros Hz. assert (H := phi_rec 0 z). cbn [phi fact INR] in H. change (phi 1 z) with (phi 1 z) in *.
  fold (phi 1 z) in H. 
  replace (/ 1)%R with 1 in H by field. 
  assert (E : phi 1 z = (z * phi 1 z / z)%C) by (field; exact Hz). rewrite E.
  change (z * phi 1 z = Cexp z - 1)%C in H. rewrite H. reflexivity.
Qed.
