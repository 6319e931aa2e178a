(** * Solutions of u' = F(u) exist on short intervals, and are unique

    Picard iteration for vectors of [n] complex numbers and a function [F] that is bounded and Lipschitz near the initial
    value. *)

From Coq Require Import ZArith List Bool Reals Lra Lia.
From Coquelicot Require Import Hierarchy Derive AutoDerive Continuity RInt RInt_analysis Rcomplements Lim_seq Rbar Complex.
From Verif Require Import Scalars CInst SpecRK SchemeIFReal SpecPhi SpecPoly ContourReal PropsETD ContourMatrix MatrixFlow Asym Solution OrderWords OrderLocal Fourier Polynomial.
Import ListNotations.
Local Open Scope R_scope.

Lemma lipschitz_continuous (f : R -> R) A : (forall s t, Rabs (f s - f t) <= A * Rabs (s - t)) -> forall t, continuous f t.
Proof.
  intros H t. apply continuity_pt_filterlim. intros eps Heps. exists (eps / (Rabs A + 1)). assert (HA := Rabs_pos A).
  split; [apply Rdiv_lt_0_compat; lra|]. intros s [_ Hs]. unfold dist in *. cbn in *. unfold R_dist in *.
  eapply Rle_lt_trans; [apply H|]. assert (A <= Rabs A) by apply Rle_abs. assert (P := Rabs_pos (s - t)).
  apply Rle_lt_trans with ((Rabs A + 1) * Rabs (s - t)); [apply Rmult_le_compat_r; lra|].
  replace eps with ((Rabs A + 1) * (eps / (Rabs A + 1))) at 1 by (field; lra). apply Rmult_lt_compat_l; lra.
Qed.

(** Antiderivatives. *)
Definition prim (t0 : R) (f : R -> C) (t : R) : C := (RInt (fun s => fst (f s)) t0 t, RInt (fun s => snd (f s)) t0 t).
Lemma prim_0 t0 f : prim t0 f t0 = RtoC 0.
Proof. unfold prim. rewrite !RInt_point. reflexivity. Qed.
Lemma prim_der t0 f A : (forall s t, Cmod (f s - f t)%C <= A * Rabs (s - t)) -> forall t, is_Cder (prim t0 f) t (f t).
Proof.
  intros H t.
  assert (C1 : forall s, continuous (fun s => fst (f s)) s).
  { apply (lipschitz_continuous _ A). intros s r. eapply Rle_trans; [|apply H]. assert (X := Rmax_Cmod (f s - f r)%C). assert (Y := Rmax_l (Rabs (fst (f s - f r)%C)) (Rabs (snd (f s - f r)%C))). unfold Rminus in *. cbn [Cminus Cplus Copp fst snd] in *. lra. }
  assert (C2 : forall s, continuous (fun s => snd (f s)) s).
  { apply (lipschitz_continuous _ A). intros s r. eapply Rle_trans; [|apply H]. assert (X := Rmax_Cmod (f s - f r)%C). assert (Y := Rmax_r (Rabs (fst (f s - f r)%C)) (Rabs (snd (f s - f r)%C))). unfold Rminus in *. cbn [Cminus Cplus Copp fst snd] in *. lra. }
  split; cbn [prim fst snd].
  - apply (is_derive_RInt (fun s => fst (f s)) (fun x => RInt (fun s => fst (f s)) t0 x) t0 t); [|apply C1].
    exists (mkposreal 1 Rlt_0_1). intros y _. apply (RInt_correct (V := R_CompleteNormedModule)). apply (ex_RInt_continuous (V := R_CompleteNormedModule)). intros z _. apply C1.
  - apply (is_derive_RInt (fun s => snd (f s)) (fun x => RInt (fun s => snd (f s)) t0 x) t0 t); [|apply C2].
    exists (mkposreal 1 Rlt_0_1). intros y _. apply (RInt_correct (V := R_CompleteNormedModule)). apply (ex_RInt_continuous (V := R_CompleteNormedModule)). intros z _. apply C2.
Qed.

(** Limits of sequences whose increments halve. *)
Lemma half_pow_pos k : 0 < (/ 2) ^ k.
Proof. apply pow_lt. lra. Qed.
Lemma le_limit x y A : 0 <= A -> (forall k, x <= y + A * (/ 2) ^ k) -> x <= y.
Proof.
  intros HA H. apply Rnot_lt_le. intros Hlt. destruct (Req_dec A 0) as [->|HA0]; [specialize (H 0%nat); lra|].
  assert (HL : Rabs (/ 2) < 1) by (rewrite Rabs_pos_eq; lra).
  destruct (pow_lt_1_zero (/ 2) HL ((x - y) / A)) as [N HN]; [apply Rdiv_lt_0_compat; lra|].
  specialize (HN N (le_n N)). rewrite Rabs_pos_eq in HN by (left; apply half_pow_pos). specialize (H N).
  assert (A * (/ 2) ^ N < A * ((x - y) / A)) by (apply Rmult_lt_compat_l; lra). replace (A * ((x - y) / A)) with (x - y) in * by (field; lra). lra.
Qed.
Lemma halving_limit (a : nat -> R) : (forall k, Rabs (a (S k) - a k) <= (/ 2) ^ k) -> forall k, Rabs (a k - real (Lim_seq a)) <= 2 * (/ 2) ^ k.
Proof.
  intros H.
  assert (St : forall k j, Rabs (a (k + j)%nat - a k) <= 2 * (/ 2) ^ k - 2 * (/ 2) ^ (k + j)).
  { intros k j. induction j as [|j IH]; [rewrite Nat.add_0_r; unfold Rminus; rewrite !Rplus_opp_r, Rabs_R0; lra|].
    rewrite Nat.add_succ_r. specialize (H (k + j)%nat). cbn [pow]. assert (X := Rabs_triang (a (S (k + j)) - a (k + j)%nat) (a (k + j)%nat - a k)).
    replace (a (S (k + j)) - a (k + j)%nat + (a (k + j)%nat - a k)) with (a (S (k + j)) - a k) in X by ring. lra. }
  assert (Cy : Cauchy_crit a).
  { intros eps Heps. assert (HL : Rabs (/ 2) < 1) by (rewrite Rabs_pos_eq; lra). destruct (pow_lt_1_zero (/ 2) HL (eps / 4)) as [N HN]; [lra|].
    specialize (HN N (le_n N)). rewrite Rabs_pos_eq in HN by (left; apply half_pow_pos).
    exists N. intros p q Hp Hq. unfold R_dist.
    assert (X := St N (p - N)%nat). assert (Y := St N (q - N)%nat). replace (N + (p - N))%nat with p in X by lia. replace (N + (q - N))%nat with q in Y by lia.
    assert (Zp := half_pow_pos p). assert (Zq := half_pow_pos q). assert (T := Rabs_triang (a p - a N) (a N - a q)). replace (a p - a N + (a N - a q)) with (a p - a q) in T by ring.
    rewrite (Rabs_minus_sym (a N)) in T. lra. }
  destruct (Rcomplete.R_complete a Cy) as [l Hl]. apply is_lim_seq_Reals in Hl. rewrite (is_lim_seq_unique _ _ Hl). cbn [real]. intros k.
  apply is_lim_seq_Reals in Hl. apply Rnot_lt_le. intros Hlt. set (d := Rabs (a k - l) - 2 * (/ 2) ^ k) in *. assert (Hd : 0 < d) by (unfold d; lra).
  destruct (Hl d Hd) as [N HN]. specialize (HN (k + N)%nat ltac:(lia)). unfold R_dist in HN. assert (X := St k N). assert (Z := half_pow_pos (k + N)).
  assert (T := Rabs_triang (a k - a (k + N)%nat) (a (k + N)%nat - l)). replace (a k - a (k + N)%nat + (a (k + N)%nat - l)) with (a k - l) in T by ring.
  rewrite (Rabs_minus_sym (a k) (a (k + N)%nat)) in T. unfold d in HN. lra.
Qed.

Section Picard.
  Variable n : nat.
  Variable F : cvec -> cvec.
  Variable v0 : cvec.
  Variables M Lp t0 T : R.
  Hypothesis HM : 0 <= M.
  Hypothesis HL : 0 <= Lp.
  Hypothesis HT : 0 < T.
  Hypothesis Hball : forall v, vle n (csub v v0) 1 -> vle n (F v) M.
  Hypothesis Hlip : forall v w x, 0 <= x -> vle n (csub v v0) 1 -> vle n (csub w v0) 1 -> vle n (csub v w) x -> vle n (csub (F v) (F w)) (Lp * x).
  Hypothesis HMT : 2 * M * T <= / 2.
  Hypothesis HLT : 2 * Lp * T <= / 2.
  Let t1 := t0 + T.

  (** Times are clipped to the interval. *)
  Definition clip (s : R) : R := Rmax t0 (Rmin s t1).
  Lemma clip_in s : t0 <= clip s <= t1.
  Proof. unfold clip, t1. split; [apply Rmax_l|]. apply Rmax_lub; [lra|apply Rmin_r]. Qed.
  Lemma clip_id s : t0 <= s <= t1 -> clip s = s.
  Proof. intros H. unfold clip. rewrite Rmin_left by lra. apply Rmax_right. lra. Qed.
  Lemma clip_lip s t : Rabs (clip s - clip t) <= Rabs (s - t).
  Proof.
    unfold clip, Rmax, Rmin. unfold t1. repeat destruct Rle_dec; apply Rabs_le; (destruct (Rle_dec t s); [rewrite (Rabs_pos_eq (s - t)) by lra|rewrite (Rabs_left (s - t)) by lra]; lra).
  Qed.

  Definition ok (u : R -> cvec) : Prop :=
    (forall t, t0 <= t <= t1 -> vle n (csub (u t) v0) 1) /\
    (forall s t, t0 <= s <= t1 -> t0 <= t <= t1 -> vle n (csub (u s) (u t)) (2 * M * Rabs (s - t))).
  Definition Phi (u : R -> cvec) (t : R) : cvec := fun i => (v0 i + prim t0 (fun s => F (u (clip s)) i) t)%C.
  Lemma Phi_der u i t : ok u -> (i < n)%nat -> is_Cder (fun s => Phi u s i) t (F (u (clip t)) i).
  Proof.
    intros [H1 H2] Hi. unfold Phi. apply (is_Cder_eq (fun t => v0 i + prim t0 (fun s => F (u (clip s)) i) t)%C _ t (0 + F (u (clip t)) i)%C); [reflexivity|ring|].
    apply is_Cder_plus; [apply is_Cder_const|]. apply (prim_der t0 (fun s => F (u (clip s)) i) (Lp * (2 * M))). intros s r.
    assert (X := Hlip (u (clip s)) (u (clip r)) (2 * M * Rabs (s - r))).
    assert (P : 0 <= 2 * M * Rabs (s - r)) by (apply Rmult_le_pos; [lra|apply Rabs_pos]).
    specialize (X P (H1 _ (clip_in s)) (H1 _ (clip_in r))). replace (Lp * (2 * M) * Rabs (s - r)) with (Lp * (2 * M * Rabs (s - r))) by ring. apply X; [|exact Hi].
    eapply vle_mono; [apply H2; apply clip_in|]. apply Rmult_le_compat_l; [lra|apply clip_lip].
  Qed.
  Lemma Phi_t0 u : veq (below n) (Phi u t0) v0.
  Proof. intros i _. unfold Phi. rewrite prim_0. ring. Qed.
  Lemma Phi_ok u : ok u -> ok (Phi u).
  Proof.
    intros Hu.
    assert (H : forall s t, t0 <= s <= t1 -> t0 <= t <= t1 -> vle n (csub (Phi u s) (Phi u t)) (2 * M * Rabs (s - t))).
    { intros s t Hs Ht i Hi. unfold csub. apply (along_lip t0 t1 (fun t => Phi u t i) (fun t => F (u (clip t)) i)); [| |exact Hs|exact Ht].
      - intros r _. apply Phi_der; assumption.
      - intros r _. apply Hball; [apply Hu; apply clip_in|exact Hi]. }
    split; [|exact H]. intros t Ht i Hi. assert (X := H t t0 Ht ltac:(unfold t1; lra) i Hi). unfold csub in *. rewrite (Phi_t0 u i Hi) in X.
    eapply Rle_trans; [exact X|]. apply Rle_trans with (2 * M * T); [|lra]. apply Rmult_le_compat_l; [lra|]. rewrite Rabs_pos_eq; unfold t1 in Ht; lra.
  Qed.
  Lemma Phi_contr u w x : 0 <= x -> ok u -> ok w -> (forall t, t0 <= t <= t1 -> vle n (csub (u t) (w t)) x) ->
    forall t, t0 <= t <= t1 -> vle n (csub (Phi u t) (Phi w t)) (x / 2).
  Proof.
    intros Hx Hu Hw H t Ht i Hi.
    assert (X := along_lip t0 t1 (fun t => Phi u t i - Phi w t i)%C (fun t => F (u (clip t)) i - F (w (clip t)) i)%C (Lp * x)).
    assert (Y := X (fun r _ => is_Cder_minus _ _ _ _ _ (Phi_der u i r Hu Hi) (Phi_der w i r Hw Hi))). clear X.
    assert (B : forall r, t0 <= r <= t1 -> Cmod (F (u (clip r)) i - F (w (clip r)) i)%C <= Lp * x).
    { intros r _. apply (Hlip (u (clip r)) (w (clip r)) x Hx); [apply Hu, clip_in|apply Hw, clip_in|apply H, clip_in|exact Hi]. }
    assert (It0 : t0 <= t0 <= t1) by (unfold t1; lra).
    specialize (Y B t t0 Ht It0). cbn beta in Y. rewrite (Phi_t0 u i Hi), (Phi_t0 w i Hi) in Y. unfold csub.
    replace (Phi u t i - Phi w t i - (v0 i - v0 i))%C with (Phi u t i - Phi w t i)%C in Y by ring. eapply Rle_trans; [exact Y|].
    replace (2 * (Lp * x) * Rabs (t - t0)) with (2 * Lp * Rabs (t - t0) * x) by ring. replace (x / 2) with (/ 2 * x) by field. apply Rmult_le_compat_r; [exact Hx|].
    apply Rle_trans with (2 * Lp * T); [|exact HLT]. apply Rmult_le_compat_l; [lra|]. rewrite Rabs_pos_eq; unfold t1 in Ht; lra.
  Qed.

  Fixpoint iter (k : nat) : R -> cvec := match k with O => fun _ => v0 | S k => Phi (iter k) end.
  Lemma iter_ok k : ok (iter k).
  Proof.
    induction k as [|k IH]; cbn [iter]; [|apply Phi_ok, IH]. split.
    - intros t _. eapply vle_mono; [apply vle_eq_0; reflexivity|lra].
    - intros s t _ _. eapply vle_mono; [apply vle_eq_0; reflexivity|]. apply Rmult_le_pos; [lra|apply Rabs_pos].
  Qed.
  Lemma iter_step k t : t0 <= t <= t1 -> vle n (csub (iter (S k) t) (iter k t)) ((/ 2) ^ k).
  Proof.
    revert t. induction k as [|k IH]; intros t Ht; [apply (iter_ok 1); exact Ht|].
    replace ((/ 2) ^ S k) with ((/ 2) ^ k / 2) by (cbn [pow]; field). change (iter (S (S k)) t) with (Phi (iter (S k)) t). change (iter (S k) t) with (Phi (iter k) t).
    apply Phi_contr; [left; apply half_pow_pos|apply iter_ok|apply iter_ok|exact IH|exact Ht].
  Qed.
  Definition lim (t : R) : cvec := fun i => (real (Lim_seq (fun k => fst (iter k t i))), real (Lim_seq (fun k => snd (iter k t i)))).
  Lemma lim_close k t : t0 <= t <= t1 -> vle n (csub (iter k t) (lim t)) (4 * (/ 2) ^ k).
  Proof.
    intros Ht i Hi.
    assert (B : forall k, Rabs (fst (iter (S k) t i) - fst (iter k t i)) <= (/ 2) ^ k /\ Rabs (snd (iter (S k) t i) - snd (iter k t i)) <= (/ 2) ^ k).
    { intros j. assert (X := iter_step j t Ht i Hi). unfold csub in X. assert (Y := Rmax_Cmod (iter (S j) t i - iter j t i)%C).
      set (a := iter (S j) t i) in *. set (b := iter j t i) in *. clearbody a b.
      assert (Z1 := Rmax_l (Rabs (fst (a - b)%C)) (Rabs (snd (a - b)%C))). assert (Z2 := Rmax_r (Rabs (fst (a - b)%C)) (Rabs (snd (a - b)%C))).
      change (fst (a - b)%C) with (fst a - fst b) in *. change (snd (a - b)%C) with (snd a - snd b) in *. lra. }
    assert (X1 := halving_limit (fun k => fst (iter k t i)) (fun k => proj1 (B k)) k). assert (X2 := halving_limit (fun k => snd (iter k t i)) (fun k => proj2 (B k)) k).
    unfold csub. assert (Y := Cmod_parts (iter k t i - lim t i)%C). unfold lim in *.
    set (a := iter k t i) in *. clearbody a. cbn [Cminus Cplus Copp fst snd] in *. unfold Rminus in *. lra.
  Qed.
  Lemma lim_ok : ok lim.
  Proof.
    split.
    - intros t Ht i Hi. unfold csub. apply (le_limit _ _ 4); [lra|]. intros k. assert (X := lim_close k t Ht i Hi). assert (Y := proj1 (iter_ok k) t Ht i Hi). unfold csub in *.
      rewrite <- Cmod_opp in X. assert (T' := Cmod_triangle (- (iter k t i - lim t i))%C (iter k t i - v0 i)%C).
      replace (- (iter k t i - lim t i) + (iter k t i - v0 i))%C with (lim t i - v0 i)%C in T' by ring. lra.
    - intros s t Hs Ht i Hi. unfold csub. apply (le_limit _ _ 8); [lra|]. intros k. assert (Xs := lim_close k s Hs i Hi). assert (Xt := lim_close k t Ht i Hi).
      assert (Y := proj2 (iter_ok k) s t Hs Ht i Hi). unfold csub in *. rewrite <- Cmod_opp in Xs.
      assert (T1 := Cmod_triangle (- (iter k s i - lim s i) + (iter k s i - iter k t i))%C (iter k t i - lim t i)%C).
      assert (T2 := Cmod_triangle (- (iter k s i - lim s i))%C (iter k s i - iter k t i)%C).
      replace (- (iter k s i - lim s i) + (iter k s i - iter k t i) + (iter k t i - lim t i))%C with (lim s i - lim t i)%C in T1 by ring. lra.
  Qed.
  Lemma lim_fix t : t0 <= t <= t1 -> veq (below n) (lim t) (Phi lim t).
  Proof.
    intros Ht. apply vle_0_eq. intros i Hi. apply (le_limit _ _ 4); [lra|]. intros k.
    assert (P := half_pow_pos k).
    assert (X := lim_close (S k) t Ht i Hi).
    assert (Y := Phi_contr (iter k) lim (4 * (/ 2) ^ k) ltac:(lra) (iter_ok k) lim_ok (fun t Ht => lim_close k t Ht) t Ht i Hi).
    unfold csub in *. cbn [iter pow] in X. rewrite <- Cmod_opp in X.
    assert (T' := Cmod_triangle (- (Phi (iter k) t i - lim t i))%C (Phi (iter k) t i - Phi lim t i)%C).
    replace (- (Phi (iter k) t i - lim t i) + (Phi (iter k) t i - Phi lim t i))%C with (lim t i - Phi lim t i)%C in T' by ring. lra.
  Qed.

  Theorem picard : exists u, veq (below n) (u t0) v0 /\ (forall t, t0 <= t <= t1 -> vle n (csub (u t) v0) 1) /\
    forall t i, t0 <= t <= t1 -> (i < n)%nat -> is_Cder (fun s => u s i) t (F (u t) i).
  Proof.
    exists (Phi lim). split; [apply Phi_t0|]. split; [apply (Phi_ok lim lim_ok)|]. intros t i Ht Hi.
    assert (D := Phi_der lim i t lim_ok Hi). rewrite (clip_id t Ht) in D.
    replace (F (Phi lim t) i) with (F (lim t) i); [exact D|].
    assert (X := Hlip (lim t) (Phi lim t) 0 (Rle_refl 0) (proj1 lim_ok t Ht) (proj1 (Phi_ok lim lim_ok) t Ht) (vle_eq_0 n _ _ (lim_fix t Ht))).
    rewrite Rmult_0_r in X. exact (vle_0_eq n _ _ X i Hi).
  Qed.
End Picard.

(** ** Polynomial right-hand sides *)
Section Polynomials.
  Variable n : nat.
  Variable L : nat -> nat -> C.
  Variable E : nat -> pexp.
  Variable N : cvec -> cvec.
  Hypothesis HN : forall v i, (i < n)%nat -> N v i = pev n (E i) v.
  Let F (v : cvec) : cvec := fun i => (mdot n L v i + N v i)%C.
  Lemma F_rhs v i : (i < n)%nat -> F v i = pev n (rhs n L E i) v.
  Proof. intros Hi. unfold F. symmetry. apply (rhs_ev n L E N HN). exact Hi. Qed.
  Lemma F_bound K : 0 <= K -> exists M, 0 <= M /\ forall v, vle n v K -> vle n (F v) M.
  Proof.
    intros HK. destruct (fin_bound n (fun i M => forall v, vle n v K -> Cmod (F v i) <= M)) as (M & HM & G).
    - intros i B B' H HB v Hv. specialize (H v Hv). lra.
    - intros i Hi. destruct (pev_bound n (rhs n L E i) K HK) as (B & HB & G). exists B. split; [exact HB|]. intros v Hv. rewrite F_rhs by exact Hi. apply G, Hv.
    - exists M. split; [exact HM|]. intros v Hv i Hi. apply G; assumption.
  Qed.
  Lemma F_lip K : 0 <= K -> exists M, 0 <= M /\ forall v w x, 0 <= x -> vle n v K -> vle n w K -> vle n (csub v w) x -> vle n (csub (F v) (F w)) (M * x).
  Proof.
    intros HK. destruct (fin_bound n (fun i M => forall v w x, 0 <= x -> vle n v K -> vle n w K -> vle n (csub v w) x -> Cmod (F v i - F w i)%C <= M * x)) as (M & HM & G).
    - intros i B B' H HB v w x Hx Hv Hw Hd. specialize (H v w x Hx Hv Hw Hd). assert (B * x <= B' * x) by (apply Rmult_le_compat_r; lra). lra.
    - intros i Hi. destruct (pev_lip n (rhs n L E i) K HK) as (B & HB & G). exists B. split; [exact HB|]. intros v w x Hx Hv Hw Hd. rewrite !F_rhs by exact Hi. apply G; assumption.
    - exists M. split; [exact HM|]. intros v w x Hx Hv Hw Hd i Hi. unfold csub. apply G; assumption.
  Qed.

  Theorem polynomial_exists t0 v0 : exists T u, 0 < T /\ veq (below n) (u t0) v0 /\
    forall t i, t0 <= t <= t0 + T -> (i < n)%nat -> is_Cder (fun s => u s i) t (mdot n L (u t) i + N (u t) i)%C.
  Proof.
    destruct (vle_exists n v0) as (K & HK & Hv0).
    destruct (F_bound (K + 1) ltac:(lra)) as (M & HM & GM). destruct (F_lip (K + 1) ltac:(lra)) as (Lp & HLp & GL).
    assert (B : forall v, vle n (csub v v0) 1 -> vle n v (K + 1)).
    { intros v Hv i Hi. specialize (Hv i Hi). specialize (Hv0 i Hi). unfold csub in Hv. assert (X := Cmod_triangle (v i - v0 i)%C (v0 i)).
      replace (v i - v0 i + v0 i)%C with (v i) in X by ring. lra. }
    set (T := / (4 * (M + Lp + 1))). assert (HT : 0 < T) by (apply Rinv_0_lt_compat; lra).
    assert (HMT : 2 * M * T <= / 2).
    { unfold T. apply (Rmult_le_reg_r (4 * (M + Lp + 1))); [lra|]. rewrite Rmult_assoc, Rinv_l by lra. lra. }
    assert (HLT : 2 * Lp * T <= / 2).
    { unfold T. apply (Rmult_le_reg_r (4 * (M + Lp + 1))); [lra|]. rewrite Rmult_assoc, Rinv_l by lra. lra. }
    destruct (picard n F v0 M Lp t0 T HM HLp HT (fun v Hv => GM v (B v Hv)) (fun v w x Hx Hv Hw Hd => GL v w x Hx (B v Hv) (B w Hw) Hd) HMT HLT) as (u & H1 & _ & H3).
    exists T, u. split; [exact HT|]. split; [exact H1|exact H3].
  Qed.

  Theorem polynomial_unique t0 t1 u w : t0 < t1 ->
    (forall t i, t0 <= t <= t1 -> (i < n)%nat -> is_Cder (fun s => u s i) t (mdot n L (u t) i + N (u t) i)%C) ->
    (forall t i, t0 <= t <= t1 -> (i < n)%nat -> is_Cder (fun s => w s i) t (mdot n L (w t) i + N (w t) i)%C) ->
    veq (below n) (u t0) (w t0) -> forall t, t0 <= t <= t1 -> veq (below n) (u t) (w t).
  Proof.
    intros Ht Hu Hw H0. destruct (u_bounded n L N t0 t1 Ht u Hu) as (Ku & HKu & Bu). destruct (u_bounded n L N t0 t1 Ht w Hw) as (Kw & HKw & Bw).
    set (K := Ku + Kw). destruct (F_lip K ltac:(unfold K; lra)) as (Lp & HLp & GL).
    assert (Bu' : forall t, t0 <= t <= t1 -> vle n (u t) K) by (intros t H; eapply vle_mono; [apply Bu; exact H|unfold K; lra]).
    assert (Bw' : forall t, t0 <= t <= t1 -> vle n (w t) K) by (intros t H; eapply vle_mono; [apply Bw; exact H|unfold K; lra]).
    set (T := / (4 * (Lp + 1))). assert (HT : 0 < T) by (apply Rinv_0_lt_compat; lra).
    assert (HLT : 2 * Lp * T <= / 2) by (unfold T; apply (Rmult_le_reg_r (4 * (Lp + 1))); [lra|]; rewrite Rmult_assoc, Rinv_l by lra; lra).
    assert (Half : forall a b x, t0 <= a -> a <= b -> b <= t1 -> b - a <= T -> 0 <= x -> veq (below n) (u a) (w a) -> (forall t, a <= t <= b -> vle n (csub (u t) (w t)) x) ->
                     forall t, a <= t <= b -> vle n (csub (u t) (w t)) (x / 2)).
    { intros a b x Ha Hab Hb HbT Hx Ea Hd t Hat i Hi. unfold csub.
      assert (Y := along_lip a b (fun t => u t i - w t i)%C (fun t => F (u t) i - F (w t) i)%C (Lp * x)).
      assert (D : forall r, a <= r <= b -> is_Cder (fun t => u t i - w t i)%C r (F (u r) i - F (w r) i)%C).
      { intros r Hr. apply (is_Cder_minus (fun t => u t i) (fun t => w t i)); [apply Hu|apply Hw]; (lra || exact Hi). }
      assert (B : forall r, a <= r <= b -> Cmod (F (u r) i - F (w r) i)%C <= Lp * x).
      { intros r Hr. apply (GL (u r) (w r) x Hx); [apply Bu'; lra|apply Bw'; lra|apply Hd; exact Hr|exact Hi]. }
      specialize (Y D B t a Hat ltac:(lra)). cbn beta in Y. rewrite (Ea i Hi) in Y.
      replace (u t i - w t i - (w a i - w a i))%C with (u t i - w t i)%C in Y by ring. eapply Rle_trans; [exact Y|].
      replace (2 * (Lp * x) * Rabs (t - a)) with (2 * Lp * Rabs (t - a) * x) by ring. replace (x / 2) with (/ 2 * x) by field. apply Rmult_le_compat_r; [exact Hx|].
      apply Rle_trans with (2 * Lp * T); [|exact HLT]. apply Rmult_le_compat_l; [lra|]. rewrite Rabs_pos_eq; lra. }
    assert (Step : forall a b, t0 <= a -> a <= b -> b <= t1 -> b - a <= T -> veq (below n) (u a) (w a) -> forall t, a <= t <= b -> veq (below n) (u t) (w t)).
    { intros a b Ha Hab Hb HbT Ea.
      assert (HX : forall k t, a <= t <= b -> vle n (csub (u t) (w t)) (K * 2 * (/ 2) ^ k)).
      { induction k as [|k IH]; intros t Hat.
        - cbn [pow]. intros i Hi. assert (X := Bu' t ltac:(lra) i Hi). assert (Y := Bw' t ltac:(lra) i Hi). unfold csub. eapply Rle_trans; [apply Cmod_triangle|]. rewrite Cmod_opp. lra.
        - replace (K * 2 * (/ 2) ^ S k) with (K * 2 * (/ 2) ^ k / 2) by (cbn [pow]; field). apply (Half a b); try assumption.
          assert (P := half_pow_pos k). apply Rmult_le_pos; [unfold K; lra|lra]. }
      intros t Hat. apply vle_0_eq. intros i Hi. apply (le_limit _ _ (K * 2)); [unfold K; lra|]. intros k. rewrite Rplus_0_l. apply HX; assumption. }
    assert (All : forall k t, t0 <= t <= t1 -> t <= t0 + INR k * T -> veq (below n) (u t) (w t)).
    { induction k as [|k IH]; intros t Hin Hk.
      - cbn [INR] in Hk. replace t with t0 by lra. exact H0.
      - rewrite S_INR in Hk. destruct (Rle_dec t (t0 + INR k * T)) as [Hl|Hl]; [apply IH; assumption|].
        assert (Pk : 0 <= INR k * T) by (apply Rmult_le_pos; [apply pos_INR|lra]).
        apply (Step (t0 + INR k * T) t); try lra. apply IH; lra. }
    intros t Hin. destruct (archimed_cor1 (T / (t1 - t0 + 1))) as (k & Hk & Hk0); [apply Rdiv_lt_0_compat; lra|].
    apply (All k t Hin). assert (Pk : 0 < INR k) by (apply lt_0_INR; exact Hk0).
    assert (X : / INR k * (INR k * (t1 - t0 + 1)) < T / (t1 - t0 + 1) * (INR k * (t1 - t0 + 1))) by (apply Rmult_lt_compat_r; [apply Rmult_lt_0_compat; lra|exact Hk]).
    replace (/ INR k * (INR k * (t1 - t0 + 1))) with (t1 - t0 + 1) in X by (field; lra). replace (T / (t1 - t0 + 1) * (INR k * (t1 - t0 + 1))) with (INR k * T) in X by (field; lra). lra.
  Qed.
End Polynomials.
