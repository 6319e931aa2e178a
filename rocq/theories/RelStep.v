(** * One-step calls of all sixteen strategies preserve relations between states

    Two solver objects of the same strategy, for the same problem, are called with the same step
    sizes and related arrays. If the relation survives the array operations of the stages, the
    coefficient arrays, and the nonlinear function, then the objects stay related: same
    exceptions, related results, related caches. Stale caches and interrupted calls are included:
    nothing is assumed about the order of calls. *)

From Coq Require Import ZArith List Bool Lia.
From Verif Require Import Scalars Control ControlRel Arrays SchemeBase SchemeIF SchemeETD4 SchemeETD5 Solvers SchemeFamily.
Import ListNotations.
Local Open Scope m_scope.
Local Open Scope arr_scope.

Set Implicit Arguments.

(** ** Related computations *)
Section Computations.
  Variables S W1 W2 : Type.
  Variable RS : S -> S -> Prop.
  Variable RW : W1 -> W2 -> Prop.

  Definition relM X1 X2 (RX : X1 -> X2 -> Prop) (m1 : M S W1 X1) (m2 : M S W2 X2) : Prop :=
    forall s1 w1 s2 w2, RS s1 s2 -> RW w1 w2 ->
    let '(r1, s1', w1') := m1 s1 w1 in
    let '(r2, s2', w2') := m2 s2 w2 in
    match r1, r2 with inl e, inl e' => e = e' | inr x, inr y => RX x y | _, _ => False end /\ RS s1' s2' /\ RW w1' w2'.

  Lemma rel_ret X1 X2 (RX : X1 -> X2 -> Prop) x y : RX x y -> relM RX (ret x) (ret y).
  Proof. intros H s1 w1 s2 w2 HS HW. cbn. auto. Qed.
  Lemma rel_bind X1 X2 Y1 Y2 (RX : X1 -> X2 -> Prop) (RY : Y1 -> Y2 -> Prop) m1 m2 (f1 : X1 -> M S W1 Y1) (f2 : X2 -> M S W2 Y2) :
    relM RX m1 m2 -> (forall x y, RX x y -> relM RY (f1 x) (f2 y)) -> relM RY (bind m1 f1) (bind m2 f2).
  Proof.
    intros Hm Hf s1 w1 s2 w2 HS HW. unfold bind. specialize (Hm s1 w1 s2 w2 HS HW).
    destruct (m1 s1 w1) as [[r1 t1] v1], (m2 s2 w2) as [[r2 t2] v2]. destruct Hm as (H1 & H2 & H3).
    destruct r1 as [e|x], r2 as [e'|y]; try contradiction; [auto|]. apply (Hf x y H1 t1 v1 t2 v2 H2 H3).
  Qed.
  Lemma rel_get X (f : S -> X) (RX : X -> X -> Prop) : (forall a b, RS a b -> RX (f a) (f b)) -> relM RX (get f) (get f).
  Proof. intros H s1 w1 s2 w2 HS HW. cbn. auto. Qed.
  Lemma rel_upd (f g : S -> S) : (forall a b, RS a b -> RS (f a) (g b)) -> relM (fun _ _ => True) (upd f) (upd g).
  Proof. intros H s1 w1 s2 w2 HS HW. cbn. auto. Qed.
  Lemma rel_call V Y (RV : V -> V -> Prop) (RY : Y -> Y -> Prop) (nl1 : V -> W1 -> (exn + Y) * W1) (nl2 : V -> W2 -> (exn + Y) * W2) :
    (forall a b w w', RV a b -> RW w w' ->
       match fst (nl1 a w), fst (nl2 b w') with inl e, inl e' => e = e' | inr x, inr y => RY x y | _, _ => False end /\
       RW (snd (nl1 a w)) (snd (nl2 b w'))) ->
    forall a b, RV a b -> relM RY (call nl1 a) (call nl2 b).
  Proof.
    intros H a b Hab s1 w1 s2 w2 HS HW. unfold call. specialize (H a b w1 w2 Hab HW).
    destruct (nl1 a w1) as [r1 v1], (nl2 b w2) as [r2 v2]. cbn [fst snd] in H. destruct H. auto.
  Qed.
End Computations.

Section Strategies.
  Variable F : tops.
  Variable A : aops F.
  Variables W1 W2 : Type.
  Variable RW : W1 -> W2 -> Prop.
  Notation vec := (vec A).
  Notation mat := (mat A).
  Variable p : problem A unit.
  Variable nl1 : vec -> W1 -> (exn + vec) * W1.
  Variable nl2 : vec -> W2 -> (exn + vec) * W2.
  Notation p1 := (with_nl p nl1).
  Notation p2 := (with_nl p nl2).
  Notation dot := (emdot A (p_size p)).

  (** States and error vectors are related by [P]; the arrays of the diagonalized strategies, which
      hold coordinates in the eigenbasis, by [Q]. *)
  Variables P Q : vec -> vec -> Prop.
  (** 1-D coefficients, matrix coefficients, and 1-D coefficients in the eigenbasis. *)
  Variables (okd : vec -> Prop) (okm : mat -> Prop) (okz : vec -> Prop).

  Record closed (R : vec -> vec -> Prop) : Prop := {
    cl_zero : R (fun _ => lit A 0) (fun _ => lit A 0);
    cl_add : forall a b c d, R a b -> R c d -> R (a +v c) (b +v d);
    cl_sub : forall a b c d, R a b -> R c d -> R (a -v c) (b -v d);
    cl_neg : forall a b, R a b -> R (vneg a) (vneg b);
    cl_scal : forall h a b, R a b -> R (h *s a) (h *s b);
    cl_div : forall h a b, R a b -> R (a /s h) (b /s h) }.
  Record coeffs (R : vec -> vec -> Prop) (ok : vec -> Prop) : Prop := {
    co_mul : forall c a b, ok c -> R a b -> R (c *v a) (c *v b);
    co_scal : forall h c, ok c -> ok (h *s c) }.

  Hypothesis HP : closed P.
  Hypothesis HQ : closed Q.
  Hypothesis Hd : coeffs P okd.
  Hypothesis Hz : coeffs Q okz.
  Hypothesis Hm : forall c a b, okm c -> P a b -> P (dot c a) (dot c b).
  Hypothesis H_in : forall a b, P a b -> Q (dot (p_Sinv p) a) (dot (p_Sinv p) b).
  Hypothesis H_out : forall a b, Q a b -> P (dot (p_S p) a) (dot (p_S p) b).
  Hypothesis Hnl : forall a b w w', P a b -> RW w w' ->
    match fst (nl1 a w), fst (nl2 b w') with inl e, inl e' => e = e' | inr x, inr y => P x y | _, _ => False end /\
    RW (snd (nl1 a w)) (snd (nl2 b w')).

  (** All coefficients of a record are admissible. *)
  Definition ok_if X (ok : X -> Prop) (c : if_coefs X) : Prop := ok (if_EL c) /\ ok (if_EL2 c).
  Definition ok_etd4 X (ok : X -> Prop) (c : etd4_coefs X) : Prop :=
    Forall ok [e4_EL c; e4_EL2 c; e4_a21 c; e4_a31 c; e4_a32 c; e4_a41 c; e4_a43 c; e4_b1 c; e4_b2 c; e4_b4 c].
  Definition ok_etd5 X (ok : X -> Prop) (c : etd5_coefs X) : Prop :=
    Forall ok [e5_EL14 c; e5_EL12 c; e5_EL34 c; e5_EL c; e5_a21 c; e5_a31 c; e5_a32 c; e5_a41 c; e5_a43 c; e5_a51 c; e5_a52 c; e5_a54 c;
               e5_a61 c; e5_a62 c; e5_a63 c; e5_a65 c; e5_b1 c; e5_b3 c; e5_b4 c; e5_b5 c; e5_b6 c].
  Definition ok_dp (c : dp_coefs vec (T F)) : Prop :=
    Forall okd [dp_EL15 c; dp_EL310 c; dp_EL45 c; dp_EL89 c; dp_EL c; dp_a21 c; dp_a31 c; dp_a32 c; dp_a41 c; dp_a42 c; dp_a43 c;
                dp_a51 c; dp_a52 c; dp_a53 c; dp_a54 c; dp_a61 c; dp_a62 c; dp_a63 c; dp_a64 c; dp_a65 c;
                dp_a71 c; dp_a73 c; dp_a74 c; dp_a75 c; dp_r1 c; dp_r3 c; dp_r4 c; dp_r5 c].
  Definition cs_ok (k : cs_kind) : cs_K A k -> Prop :=
    match k with
    | IF4d => ok_if okd | IF4n => ok_if okm | ETD4d => ok_etd4 okd | ETD4n => ok_etd4 okm | ETD5d => ok_etd5 okd | ETD5n => ok_etd5 okm
    end.
  Definition as_ok (k : as_kind) : as_K A k -> Prop :=
    match k with
    | IF34d => ok_if okd | IF34n => ok_if okm | IF34z => ok_if okz | IF45DPd => ok_dp
    | ETD34d => ok_etd4 okd | ETD34n => ok_etd4 okm | ETD34z => ok_etd4 okz
    | ETD35d => ok_etd5 okd | ETD35n => ok_etd5 okm | ETD35z => ok_etd5 okz
    end.

  (** Related caches. *)
  Section State.
    Variables K X : Type.
    Variable okK : K -> Prop.
    Variable RX : X -> X -> Prop.
    Record rel_st (s1 s2 : sst (T F) K X) : Prop := {
      rs_h : h_coeff s1 = h_coeff s2;
      rs_i : n1_init s1 = n1_init s2;
      rs_k : coefs s1 = coefs s2;
      rs_ok : okK (coefs s2);
      rs_m : RX (mem s1) (mem s2) }.
    Notation rm := (relM rel_st RW).

    Lemma rel_coefs : rm (fun a b => a = b /\ okK b) (get coefs) (get coefs).
    Proof. apply rel_get. intros a b [H1 H2 H3 H4 H5]. auto. Qed.
    Lemma rel_init : rm eq (get n1_init) (get n1_init).
    Proof. apply rel_get. intros a b [H1 H2 H3 H4 H5]. auto. Qed.
    Lemma rel_mem : rm RX (get mem) (get mem).
    Proof. apply rel_get. intros a b [H1 H2 H3 H4 H5]. auto. Qed.
    Lemma rel_set_mem x y : RX x y -> rm (fun _ _ => True) (upd (set_mem x)) (upd (set_mem y)).
    Proof. intros H. apply rel_upd. intros a b [H1 H2 H3 H4 H5]. split; auto. Qed.
    Lemma rel_set_init v : rm (fun _ _ => True) (upd (set_init v)) (upd (set_init v)).
    Proof. apply rel_upd. intros a b [H1 H2 H3 H4 H5]. split; auto. Qed.
    Lemma rel_reset a b : rel_st a b -> rel_st (s_reset F K X a) (s_reset F K X b).
    Proof. intros [H1 H2 H3 H4 H5]. split; auto. Qed.

    Variable uc : T F -> K -> (exn + unit) * K.
    Hypothesis Huc : forall h c, okK c -> okK (snd (uc h c)).
    Lemma rel_update h : rm (fun _ _ => True) (s_update_coeffs F W1 K X uc h) (s_update_coeffs F W2 K X uc h).
    Proof.
      intros s1 w1 s2 w2 [H1 H2 H3 H4 H5] HW. unfold s_update_coeffs. rewrite H1. destruct (same_h F h (h_coeff s2)).
      - split; [exact I|]. split; [split; auto|exact HW].
      - cbv zeta. cbn [coefs set_h]. rewrite H3. assert (Q1 := Huc h H4). destruct (uc h (coefs s2)) as [r c].
        split; [destruct r; auto|]. split; [|exact HW]. split; cbn [h_coeff n1_init coefs mem set_h set_coefs]; auto.
    Qed.
    Lemma rel_cs_update init1 init2 st1 st2 :
      (forall u v, P u v -> rm (fun _ _ => True) (init1 u) (init2 v)) ->
      (forall u v h, P u v -> rm P (st1 u h) (st2 v h)) ->
      forall u v h, P u v -> rm P (cs_update_stages F vec W1 K X uc init1 st1 u h) (cs_update_stages F vec W2 K X uc init2 st2 v h).
    Proof.
      intros HI HS u v h Huv. unfold cs_update_stages. eapply rel_bind; [apply rel_update|]. intros _ _ _.
      eapply rel_bind; [apply rel_init|]. intros b b' <-. apply (rel_bind (RX := fun _ _ : unit => True)); [|intros _ _ _; apply HS; exact Huv].
      destruct b; [apply rel_ret; exact I|]. eapply rel_bind; [apply HI; exact Huv|]. intros _ _ _. apply rel_set_init.
    Qed.
    Lemma rel_as_update (E : vec -> vec -> Prop) init1 init2 st1 st2 :
      (forall u v, P u v -> rm (fun _ _ => True) (init1 u) (init2 v)) ->
      (forall a u v h, P u v -> rm (fun x y => P (fst x) (fst y) /\ E (snd x) (snd y)) (st1 a u h) (st2 a v h)) ->
      forall a u v h, P u v -> rm (fun x y => P (fst x) (fst y) /\ E (snd x) (snd y))
        (as_update_stages F vec W1 K X uc init1 st1 a u h) (as_update_stages F vec W2 K X uc init2 st2 a v h).
    Proof.
      intros HI HS a u v h Huv. unfold as_update_stages. eapply rel_bind; [apply rel_update|]. intros _ _ _.
      eapply rel_bind; [apply rel_init|]. intros b b' <-. apply (rel_bind (RX := fun _ _ : unit => True)); [|intros _ _ _; apply HS; exact Huv].
      destruct b; [apply rel_ret; exact I|]. eapply rel_bind; [apply HI; exact Huv|]. intros _ _ _. apply rel_set_init.
    Qed.
  End State.

  Definition r1 (a b : mem1 vec) : Prop := P (m1_NL1 a) (m1_NL1 b).
  Definition r2 (a b : mem2 vec) : Prop := P (m2_NL1 a) (m2_NL1 b) /\ P (m2_NLn a) (m2_NLn b).
  Definition r3 (a b : mem3 vec) : Prop := Q (m3_NL1 a) (m3_NL1 b) /\ Q (m3_NLn a) (m3_NLn b) /\ Q (m3_v a) (m3_v b).
  Definition r4 (a b : mem4 vec) : Prop := Q (m4_NL1 a) (m4_NL1 b) /\ Q (m4_v a) (m4_v b).

  Ltac oks :=
    repeat match goal with
    | H : _ /\ _ |- _ => destruct H
    | H : cs_ok _ _ |- _ => cbn [cs_ok] in H
    | H : as_ok _ _ |- _ => cbn [as_ok] in H
    | H : ok_if _ _ |- _ => destruct H
    | H : ok_etd4 _ _ |- _ => unfold ok_etd4 in H
    | H : ok_etd5 _ _ |- _ => unfold ok_etd5 in H
    | H : ok_dp _ |- _ => unfold ok_dp in H
    | H : Forall _ (_ :: _) |- _ => inversion_clear H
    | H : Forall _ [] |- _ => clear H
    | H : r1 _ _ |- _ => unfold r1 in H
    | H : r2 _ _ |- _ => destruct H
    | H : r3 _ _ |- _ => destruct H as (? & ? & ?)
    | H : r4 _ _ |- _ => destruct H
    end.
  Ltac solveP :=
    cbn [m1_NL1 m2_NL1 m2_NLn m3_NL1 m3_NLn m3_v m4_NL1 m4_v fst snd];
    repeat (assumption || (match goal with
    | |- True => exact I
    | |- _ /\ _ => split
    | |- r1 _ _ => unfold r1; cbn [m1_NL1]
    | |- r2 _ _ => split; cbn [m2_NL1 m2_NLn]
    | |- r3 _ _ => unfold r3; cbn [m3_NL1 m3_NLn m3_v]
    | |- r4 _ _ => split; cbn [m4_NL1 m4_v]
    | |- P (if ?a then _ else _) (if ?a then _ else _) => destruct a
    | |- Q (if ?a then _ else _) (if ?a then _ else _) => destruct a
    | |- P (_ +v _) (_ +v _) => apply (cl_add HP)
    | |- P (_ -v _) (_ -v _) => apply (cl_sub HP)
    | |- P (vneg _) (vneg _) => apply (cl_neg HP)
    | |- P (_ *s _) (_ *s _) => apply (cl_scal HP)
    | |- P (_ *z _) (_ *z _) => apply (cl_scal HP)
    | |- P (_ /z _) (_ /z _) => apply (cl_div HP)
    | |- P (?c *v _) (?c *v _) => apply (co_mul Hd)
    | |- P (dot (p_S p) _) (dot (p_S p) _) => apply H_out
    | |- P (dot ?c _) (dot ?c _) => apply Hm
    | |- okd (_ *s _) => apply (co_scal Hd)
    | |- okz (_ *s _) => apply (co_scal Hz)
    | |- Q (_ +v _) (_ +v _) => apply (cl_add HQ)
    | |- Q (_ -v _) (_ -v _) => apply (cl_sub HQ)
    | |- Q (vneg _) (vneg _) => apply (cl_neg HQ)
    | |- Q (_ *s _) (_ *s _) => apply (cl_scal HQ)
    | |- Q (_ *z _) (_ *z _) => apply (cl_scal HQ)
    | |- Q (_ /z _) (_ /z _) => apply (cl_div HQ)
    | |- Q (?c *v _) (?c *v _) => apply (co_mul Hz)
    | |- Q (dot (p_Sinv p) _) (dot (p_Sinv p) _) => apply H_in
    end)).
  Ltac stepM :=
    match goal with
    | |- relM _ _ _ (bind (get coefs) _) _ => eapply rel_bind; [apply rel_coefs|]; intros ? c [-> ?]; oks
    | |- relM _ _ _ (bind (get mem) _) _ => eapply rel_bind; [apply rel_mem|]; intros ? ? ?; oks
    | |- relM _ _ _ (bind (get n1_init) _) _ => eapply rel_bind; [apply rel_init|]; intros ? ? <-
    | |- relM _ _ _ (bind (call _ _) _) _ => eapply rel_bind; [eapply (@rel_call _ _ _ _ _ _ _ P P); [exact Hnl|solveP]|]; intros ? ? ?
    | |- relM _ _ _ (bind (upd (set_mem _)) _) _ => eapply rel_bind; [apply rel_set_mem; solveP|]; intros _ _ _
    | |- relM _ _ _ (upd (set_mem _)) _ => apply rel_set_mem; solveP
    | |- relM _ _ _ (upd (set_init _)) _ => apply rel_set_init
    | |- relM _ _ _ (ret _) _ => apply rel_ret; solveP
    end.
  Ltac runM := cbn [with_nl p_nl p_size p_S p_Sinv p_vec p_mat]; cbv zeta; repeat (stepM; cbv zeta).

  Definition cs_X (k : cs_kind) : Type := mem1 vec.
  Definition as_X (k : as_kind) : Type :=
    match k with IF34d | IF34n | IF45DPd | ETD34d | ETD34n => mem2 vec | IF34z | ETD34z => mem3 vec | ETD35d | ETD35n => mem1 vec | ETD35z => mem4 vec end.
  (** The error vector lives in the eigenbasis for the diagonalized strategies. *)
  Definition err_rel (k : as_kind) : vec -> vec -> Prop :=
    match k with IF34z | ETD34z | ETD35z => Q | _ => P end.

  (** Related states of the two objects. *)
  Definition cs_RS (k : cs_kind) : cs_st (cs_model p1 k) -> cs_st (cs_model p2 k) -> Prop :=
    match k with
    | IF4d => rel_st (cs_ok IF4d) r1 | IF4n => rel_st (cs_ok IF4n) r1 | ETD4d => rel_st (cs_ok ETD4d) r1
    | ETD4n => rel_st (cs_ok ETD4n) r1 | ETD5d => rel_st (cs_ok ETD5d) r1 | ETD5n => rel_st (cs_ok ETD5n) r1
    end.
  Definition as_RS (k : as_kind) : as_st (as_model p1 k) -> as_st (as_model p2 k) -> Prop :=
    match k with
    | IF34d => rel_st (as_ok IF34d) r2 | IF34n => rel_st (as_ok IF34n) r2 | IF34z => rel_st (as_ok IF34z) r3
    | IF45DPd => rel_st (as_ok IF45DPd) r2
    | ETD34d => rel_st (as_ok ETD34d) r2 | ETD34n => rel_st (as_ok ETD34n) r2 | ETD34z => rel_st (as_ok ETD34z) r3
    | ETD35d => rel_st (as_ok ETD35d) r1 | ETD35n => rel_st (as_ok ETD35n) r1 | ETD35z => rel_st (as_ok ETD35z) r4
    end.

  (** ** One call *)
  Lemma cs_call_related k : (forall h c, cs_ok k c -> cs_ok k (snd (cs_uc p k h c))) ->
    forall s1 w1 s2 w2 u v h, cs_RS k s1 s2 -> RW w1 w2 -> P u v ->
    let '(r1, s1', w1') := cs_upd (cs_model p1 k) u h s1 w1 in
    let '(r2, s2', w2') := cs_upd (cs_model p2 k) v h s2 w2 in
    match r1, r2 with inl e, inl e' => e = e' | inr x, inr y => P x y | _, _ => False end /\ cs_RS k s1' s2' /\ RW w1' w2'.
  Proof.
    intros Huc s1 w1 s2 w2 u v h HS HW Huv.
    destruct k; cbn [cs_model cs_RS] in *;
      (match type of HS with rel_st ?o ?r _ _ =>
         match type of Huc with forall h c, _ -> _ (snd (cs_uc p ?k h c)) =>
           eapply (@rel_cs_update _ _ o r (cs_uc p k) Huc); [| |exact Huv|exact HS|exact HW] end end;
       [intros a b Hab|intros a b h' Hab]).
    - unfold if4d_init. runM.
    - unfold if4d_stages. runM.
    - unfold if4n_init. runM.
    - unfold if4n_stages. runM.
    - unfold etd4d_init. runM.
    - unfold etd4d_stages. runM.
    - unfold etd4n_init. runM.
    - unfold etd4n_stages. runM.
    - unfold etd5d_init. runM.
    - unfold etd5d_stages. runM.
    - unfold etd5n_init. runM.
    - unfold etd5n_stages. runM.
  Qed.

  Lemma as_call_related k : (forall h c, as_ok k c -> as_ok k (snd (as_uc p k h c))) ->
    forall acc s1 w1 s2 w2 u v h, as_RS k s1 s2 -> RW w1 w2 -> P u v ->
    let '(r1, s1', w1') := as_upd (as_model p1 k) acc u h s1 w1 in
    let '(r2, s2', w2') := as_upd (as_model p2 k) acc v h s2 w2 in
    match r1, r2 with inl e, inl e' => e = e' | inr x, inr y => P (fst x) (fst y) /\ err_rel k (snd x) (snd y) | _, _ => False end /\
    as_RS k s1' s2' /\ RW w1' w2'.
  Proof.
    intros Huc acc s1 w1 s2 w2 u v h HS HW Huv.
    destruct k; cbn [as_model as_RS err_rel] in *;
      try (match type of HS with rel_st ?o ?r _ _ =>
             match type of Huc with forall h c, _ -> _ (snd (as_uc p ?k h c)) =>
               eapply (@rel_as_update _ _ o r (as_uc p k) Huc); [| |exact Huv|exact HS|exact HW] end end;
           [intros a b Hab|intros acc' a b h' Hab]).
    - unfold if34d_init. runM.
    - unfold if34d_stages. runM.
    - unfold if34n_init. runM.
    - unfold if34n_stages. runM.
    - unfold if34z_init. runM.
    - unfold if34z_stages. runM.
    - revert s1 w1 s2 w2 HS HW. change (relM (rel_st (as_ok IF45DPd) r2) RW (fun x y => P (fst x) (fst y) /\ P (snd x) (snd y))
        (dp_update_stages F A W1 nl1 (p_vec p) acc u h) (dp_update_stages F A W2 nl2 (p_vec p) acc v h)).
      unfold dp_update_stages. eapply rel_bind; [apply (@rel_update _ _ (as_ok IF45DPd) r2 (as_uc p IF45DPd) Huc)|]. intros _ _ _. stepM.
      apply (rel_bind (RX := fun _ _ : unit => True)).
      { destruct x, acc; runM. }
      intros _ _ _. runM.
    - unfold etd34d_init. runM.
    - unfold etd34d_stages. runM.
    - unfold etd34n_init. runM.
    - unfold etd34n_stages. runM.
    - unfold etd34z_init. runM.
    - unfold etd34z_stages. runM.
    - unfold etd35d_init. runM.
    - unfold etd35d_stages. apply (rel_bind (RX := fun _ _ : unit => True)); [destruct acc'; [unfold etd35d_init|]; runM|intros _ _ _; runM].
    - unfold etd35n_init. runM.
    - unfold etd35n_stages. apply (rel_bind (RX := fun _ _ : unit => True)); [destruct acc'; [unfold etd35n_init|]; runM|intros _ _ _; runM].
    - unfold etd35z_init. runM.
    - unfold etd35z_stages. apply (rel_bind (RX := fun _ _ : unit => True)); [destruct acc'; [unfold etd35z_init|]; runM|intros _ _ _; runM].
  Qed.

  (** ** Whole sessions *)
  Definition all_P (L : list (vec * vec)) : Prop := forall a b, In (a, b) L -> P a b.
  Hypothesis Z_d : okd (fun _ => lit A 0).
  Hypothesis Z_z : okz (fun _ => lit A 0).
  Hypothesis Z_m : okm (mzero A).


  Lemma cs_new_related k : cs_RS k (cs_new p1 k) (cs_new p2 k).
  Proof.
    assert (Z := cl_zero HP).
    destruct k; split; cbn [h_coeff n1_init coefs mem cs_new cs_ok]; try reflexivity; try exact Z;
      unfold ok_if, ok_etd4, ok_etd5; repeat first [split|constructor]; assumption.
  Qed.
  Lemma as_new_related k : as_RS k (as_new p1 k) (as_new p2 k).
  Proof.
    assert (Z := cl_zero HP). assert (Z' := cl_zero HQ).
    destruct k; split; cbn [h_coeff n1_init coefs mem as_new as_ok]; try reflexivity; try exact Z;
      unfold ok_if, ok_etd4, ok_etd5, ok_dp, r2, r3, r4; repeat first [split|constructor]; assumption.
  Qed.

  Definition cs_R k (s1 : cs_st (cs_model p1 k)) (w1 : W1) (s2 : cs_st (cs_model p2 k)) (w2 : W2) (L : list (vec * vec)) : Prop :=
    cs_RS k s1 s2 /\ RW w1 w2 /\ all_P L.
  Definition as_R k (s1 : as_st (as_model p1 k)) (w1 : W1) (s2 : as_st (as_model p2 k)) (w2 : W2) (L : list (vec * vec)) : Prop :=
    as_RS k s1 s2 /\ RW w1 w2 /\ all_P L.
  Lemma all_P_cons a b L : P a b -> all_P L -> all_P ((a, b) :: L).
  Proof. intros H H' x y [E|I]; [injection E as <- <-; exact H|apply H'; exact I]. Qed.

  Lemma cs_runs_related k : (forall h c, cs_ok k c -> cs_ok k (snd (cs_uc p k h c))) -> cs_related F (cs_model p1 k) (cs_model p2 k) (@cs_R k).
  Proof.
    intros Huc. split.
    - intros s1 w1 s2 w2 L (H1 & H2 & H3). split; [|auto]. destruct k; apply rel_reset; exact H1.
    - intros s1 w1 s2 w2 L u1 u2 h (H1 & H2 & H3) Hu. assert (X := cs_call_related k Huc _ _ h H1 H2 (H3 _ _ Hu)).
      destruct (cs_upd (cs_model p1 k) u1 h s1 w1) as [[x1 s1'] w1'], (cs_upd (cs_model p2 k) u2 h s2 w2) as [[x2 s2'] w2'].
      destruct X as (X1 & X2 & X3). destruct x1, x2; try contradiction.
      + split; [exact X1|]. split; [exact X2|auto].
      + split; [exact X2|]. split; [exact X3|]. apply all_P_cons; assumption.
  Qed.
  Lemma as_runs_related k (compute : vec -> vec -> exn + sval (T F)) :
    (forall a b e f, P a b -> err_rel k e f -> compute a e = compute b f) ->
    (forall h c, as_ok k c -> as_ok k (snd (as_uc p k h c))) -> as_related F (as_model p1 k) (as_model p2 k) compute compute (@as_R k).
  Proof.
    intros Hc Huc. split.
    - intros s1 w1 s2 w2 L (H1 & H2 & H3). split; [|auto]. destruct k; apply rel_reset; exact H1.
    - intros acc s1 w1 s2 w2 L u1 u2 h (H1 & H2 & H3) Hu. assert (X := as_call_related k Huc acc _ _ h H1 H2 (H3 _ _ Hu)).
      destruct (as_upd (as_model p1 k) acc u1 h s1 w1) as [[x1 s1'] w1'], (as_upd (as_model p2 k) acc u2 h s2 w2) as [[x2 s2'] w2'].
      destruct X as (X1 & X2 & X3). destruct x1 as [e|[v1 e1]], x2 as [e'|[v2 e2]]; try contradiction; cbn [fst snd] in X1.
      + split; [exact X1|]. split; [exact X2|auto].
      + split; [|apply Hc; apply X1]. split; [exact X2|]. split; [exact X3|]. apply all_P_cons; [apply X1|assumption].
  Qed.
End Strategies.

(** ** Sessions: any sequence of calls on one object *)

(** What can be asked of a solver object; [H] is the type of the argument [h] of [evolve]. *)
Inductive request (V B H : Type) :=
| Step (u : V) (h : pynum B)
| Evolve (fuel : nat) (u : V) (t0 tf : pynum B) (h : H) (store_data : bool) (store_freq : Z)
| Clear_stored.
Arguments Step {V B H}.  Arguments Evolve {V B H}.  Arguments Clear_stored {V B H}.
(** The same request for another array. *)
Definition map_req {V B H} (f : V -> V) (r : request V B H) : request V B H :=
  match r with
  | Step u h => Step (f u) h
  | Evolve fuel u t0 tf h sd sf => Evolve fuel (f u) t0 tf h sd sf
  | Clear_stored => Clear_stored
  end.
Definition arrays_of {V B H} (r : request V B H) : list V :=
  match r with Step u _ => [u] | Evolve _ u _ _ _ _ _ => [u] | Clear_stored => [] end.

(** An answer: the array and, for an adaptive step, the step size used and the next one. *)
Definition answer (V B : Type) : Type := out (V * list (pynum B)).
Definition plain {V B} (x : out V) : answer V B :=
  match x with Ret v => Ret (v, []) | Exc e => Exc e | Fuel => Fuel end.
Definition sized {V B} (x : out (V * pynum B * pynum B)) : answer V B :=
  match x with Ret (v, h, hs) => Ret (v, [h; hs]) | Exc e => Exc e | Fuel => Fuel end.

Section Sessions.
  Variable F : tops.
  Variables V W : Type.
  Section CS.
    Variable m : csm (T F) V W.
    Definition cs_serve (r : request V (T F) (pynum (T F))) (o : csobj F V W m) (w : W) : list (answer V (T F)) * csobj F V W m * W :=
      match r with
      | Step u h => let '(x, o', w') := cs_step u (val h) o w in ([plain x], o', w')
      | Evolve fuel u t0 tf h sd sf => let '(x, o', w') := cs_evolve fuel u t0 tf h sd sf o w in ([plain x], o', w')
      | Clear_stored => ([], cs_reset_obj o, w)
      end.
    (** The answers in order, and the final object and world. *)
    Fixpoint cs_session rs (o : csobj F V W m) (w : W) : list (answer V (T F)) * csobj F V W m * W :=
      match rs with
      | [] => ([], o, w)
      | r :: rs => let '(x, o', w') := cs_serve r o w in let '(xs, o'', w'') := cs_session rs o' w' in (x ++ xs, o'', w'')
      end.
  End CS.
  Section AS.
    Variable m : asm (T F) V W.
    Variable ks : consts (T F).
    Variable cfg : config (T F).
    Variable compute_s : V -> V -> exn + sval (T F).
    Definition as_serve (r : request V (T F) (option (pynum (T F)))) (o : asobj F V W m) (w : W) : list (answer V (T F)) * asobj F V W m * W :=
      match r with
      | Step u h => let '(x, o', w') := as_step ks cfg compute_s u h o w in ([sized x], o', w')
      | Evolve fuel u t0 tf h sd sf => let '(x, o', w') := as_evolve ks cfg compute_s fuel u t0 tf h sd sf o w in ([plain x], o', w')
      | Clear_stored => ([], as_reset_obj o, w)
      end.
    Fixpoint as_session rs (o : asobj F V W m) (w : W) : list (answer V (T F)) * asobj F V W m * W :=
      match rs with
      | [] => ([], o, w)
      | r :: rs => let '(x, o', w') := as_serve r o w in let '(xs, o'', w'') := as_session rs o' w' in (x ++ xs, o'', w'')
      end.
  End AS.
End Sessions.

(** Related requests and answers. *)
Definition rel_req {V V' B H} (P : V -> V' -> Prop) (r : request V B H) (r' : request V' B H) : Prop :=
  match r, r' with
  | Step u h, Step u' h' => P u u' /\ h = h'
  | Evolve f u a b c d e, Evolve f' u' a' b' c' d' e' => P u u' /\ f = f' /\ a = a' /\ b = b' /\ c = c' /\ d = d' /\ e = e'
  | Clear_stored, Clear_stored => True
  | _, _ => False
  end.
Definition rel_ans {V V' B} (P : V -> V' -> Prop) : answer V B -> answer V' B -> Prop :=
  out_rel (fun x y => P (fst x) (fst y) /\ snd x = snd y).

Section Relate.
  Variable F : tops.
  Variables V V' W1 W2 : Type.
  Variable P : V -> V' -> Prop.
  Variable RW : W1 -> W2 -> Prop.
  Notation allP L := (forall (a : V) (b : V'), In (a, b) L -> P a b).

  Section CS.
    Variables (m1 : csm (T F) V W1) (m2 : csm (T F) V' W2).
    Variable R : cs_st m1 -> W1 -> cs_st m2 -> W2 -> list (V * V') -> Prop.
    Hypothesis HR : cs_related F m1 m2 R.
    Hypothesis R_W : forall s1 w1 s2 w2 L, R s1 w1 s2 w2 L -> RW w1 w2.
    Hypothesis R_P : forall s1 w1 s2 w2 L, R s1 w1 s2 w2 L -> allP L.
    Hypothesis R_cons : forall s1 w1 s2 w2 L a b, R s1 w1 s2 w2 L -> P a b -> R s1 w1 s2 w2 ((a, b) :: L).

    Definition cs_pair o1 w1 o2 w2 : Prop := exists L, cs_objs R L o1 w1 o2 w2.
    Lemma cs_pair_cons o1 w1 o2 w2 a b : P a b -> cs_pair o1 w1 o2 w2 -> exists L, In (a, b) L /\ cs_objs R L o1 w1 o2 w2.
    Proof.
      intros Hab (L & [O1 O2 O3 O4 O5]). exists ((a, b) :: L). split; [left; reflexivity|]. split; auto.
      eapply Forall2_grow; [|exact O5]. intros x Hx. right. exact Hx.
    Qed.
    Lemma cs_serve_related r r' o1 w1 o2 w2 : rel_req P r r' -> cs_pair o1 w1 o2 w2 ->
      let '(x, o1', w1') := cs_serve r o1 w1 in
      let '(y, o2', w2') := cs_serve r' o2 w2 in
      Forall2 (rel_ans P) x y /\ cs_pair o1' w1' o2' w2'.
    Proof.
      intros Hr HO. destruct r as [u h|fuel u t0 tf h sd sf|], r' as [u' h'|fuel' u' t0' tf' h' sd' sf'|]; try contradiction; cbn [cs_serve rel_req] in *.
      - destruct Hr as (Hu & <-). destruct (cs_pair_cons Hu HO) as (L & I & O). assert (X := cs_step_related HR u u' (val h) O I).
        destruct (cs_step u (val h) o1 w1) as [[x o1'] w1'], (cs_step u' (val h) o2 w2) as [[y o2'] w2']. destruct X as (L' & X1 & X2 & X3).
        split; [|exists L'; exact X2]. constructor; [|constructor].
        destruct x, y; cbn in X3 |- *; try contradiction; auto. split; [apply (R_P (co_R X2)); exact X3|reflexivity].
      - destruct Hr as (Hu & <- & <- & <- & <- & <- & <-). destruct (cs_pair_cons Hu HO) as (L & I & O).
        assert (X := cs_evolve_related HR fuel u u' t0 tf h sd sf O I).
        destruct (cs_evolve fuel u t0 tf h sd sf o1 w1) as [[x o1'] w1'], (cs_evolve fuel u' t0 tf h sd sf o2 w2) as [[y o2'] w2']. destruct X as (L' & X1 & X2 & X3).
        split; [|exists L'; exact X2]. constructor; [|constructor].
        destruct x, y; cbn in X3 |- *; try contradiction; auto. split; [apply (R_P (co_R X2)); exact X3|reflexivity].
      - split; [constructor|]. destruct HO as (L & O). exists L. apply (cs_reset_related HR O).
    Qed.
    Lemma cs_session_relate rs : forall rs' o1 w1 o2 w2, Forall2 (rel_req P) rs rs' -> cs_pair o1 w1 o2 w2 ->
      let '(x, o1', w1') := cs_session rs o1 w1 in
      let '(y, o2', w2') := cs_session rs' o2 w2 in
      Forall2 (rel_ans P) x y /\ c_t o1' = c_t o2' /\ Forall2 P (c_u o1') (c_u o2') /\ RW w1' w2'.
    Proof.
      induction rs as [|r rs IH]; intros rs' o1 w1 o2 w2 Hr HO; inversion_clear Hr; cbn [cs_session].
      - split; [constructor|]. destruct HO as (L & O). split; [apply (co_t O)|]. split; [|apply (R_W (co_R O))].
        assert (X := co_u O). assert (Y := R_P (co_R O)). induction X; constructor; auto.
      - assert (X := cs_serve_related _ _ H HO). destruct (cs_serve r o1 w1) as [[x o1'] w1'], (cs_serve y o2 w2) as [[x' o2'] w2'].
        destruct X as (X1 & X2). specialize (IH _ _ _ _ _ H0 X2). destruct (cs_session rs o1' w1') as [[xs p1] v1], (cs_session l' o2' w2') as [[ys p2] v2].
        destruct IH as (I1 & I2). split; [apply Forall2_app; assumption|exact I2].
    Qed.
  End CS.

  Section AS.
    Variables (m1 : asm (T F) V W1) (m2 : asm (T F) V' W2).
    Variable ks : consts (T F).
    Variable cfg : config (T F).
    Variable compute : V -> V -> exn + sval (T F).
    Variable compute' : V' -> V' -> exn + sval (T F).
    Variable R : as_st m1 -> W1 -> as_st m2 -> W2 -> list (V * V') -> Prop.
    Hypothesis HR : as_related F m1 m2 compute compute' R.
    Hypothesis R_W : forall s1 w1 s2 w2 L, R s1 w1 s2 w2 L -> RW w1 w2.
    Hypothesis R_P : forall s1 w1 s2 w2 L, R s1 w1 s2 w2 L -> allP L.
    Hypothesis R_cons : forall s1 w1 s2 w2 L a b, R s1 w1 s2 w2 L -> P a b -> R s1 w1 s2 w2 ((a, b) :: L).

    Definition as_pair o1 w1 o2 w2 : Prop := exists L, as_objs R L o1 w1 o2 w2.
    Lemma as_pair_cons o1 w1 o2 w2 a b : P a b -> as_pair o1 w1 o2 w2 -> exists L, In (a, b) L /\ as_objs R L o1 w1 o2 w2.
    Proof.
      intros Hab (L & [O1 O2 O3 O4 O5 O6]). exists ((a, b) :: L). split; [left; reflexivity|]. split; auto.
      eapply Forall2_grow; [|exact O6]. intros x Hx. right. exact Hx.
    Qed.
    Lemma as_serve_related r r' o1 w1 o2 w2 : rel_req P r r' -> as_pair o1 w1 o2 w2 ->
      let '(x, o1', w1') := as_serve ks cfg compute r o1 w1 in
      let '(y, o2', w2') := as_serve ks cfg compute' r' o2 w2 in
      Forall2 (rel_ans P) x y /\ as_pair o1' w1' o2' w2'.
    Proof.
      intros Hr HO. destruct r as [u h|fuel u t0 tf h sd sf|], r' as [u' h'|fuel' u' t0' tf' h' sd' sf'|]; try contradiction; cbn [as_serve rel_req] in *.
      - destruct Hr as (Hu & <-). destruct (as_pair_cons Hu HO) as (L & I & O). assert (X := as_step_related ks cfg HR u u' h O I).
        destruct (as_step ks cfg compute u h o1 w1) as [[x o1'] w1'], (as_step ks cfg compute' u' h o2 w2) as [[y o2'] w2']. destruct X as (L' & X1 & X2 & X3).
        split; [|exists L'; exact X2]. constructor; [|constructor].
        destruct x as [[[a b] c]|e|], y as [[[a' b'] c']|e'|]; cbn in X3 |- *; try contradiction; auto. destruct X3 as (X3 & <- & <-).
        split; [apply (R_P (ao_R X2)); exact X3|reflexivity].
      - destruct Hr as (Hu & <- & <- & <- & <- & <- & <-). destruct (as_pair_cons Hu HO) as (L & I & O).
        assert (X := as_evolve_related ks cfg HR fuel u u' t0 tf h sd sf O I).
        destruct (as_evolve ks cfg compute fuel u t0 tf h sd sf o1 w1) as [[x o1'] w1'], (as_evolve ks cfg compute' fuel u' t0 tf h sd sf o2 w2) as [[y o2'] w2']. destruct X as (L' & X1 & X2 & X3).
        split; [|exists L'; exact X2]. constructor; [|constructor].
        destruct x, y; cbn in X3 |- *; try contradiction; auto. split; [apply (R_P (ao_R X2)); exact X3|reflexivity].
      - split; [constructor|]. destruct HO as (L & O). exists L. apply (as_reset_related HR O).
    Qed.
    Lemma as_session_relate rs : forall rs' o1 w1 o2 w2, Forall2 (rel_req P) rs rs' -> as_pair o1 w1 o2 w2 ->
      let '(x, o1', w1') := as_session ks cfg compute rs o1 w1 in
      let '(y, o2', w2') := as_session ks cfg compute' rs' o2 w2 in
      Forall2 (rel_ans P) x y /\ a_t o1' = a_t o2' /\ Forall2 P (a_u o1') (a_u o2') /\ RW w1' w2'.
    Proof.
      induction rs as [|r rs IH]; intros rs' o1 w1 o2 w2 Hr HO; inversion_clear Hr; cbn [as_session].
      - split; [constructor|]. destruct HO as (L & O). split; [apply (ao_t O)|]. split; [|apply (R_W (ao_R O))].
        assert (X := ao_u O). assert (Y := R_P (ao_R O)). induction X; constructor; auto.
      - assert (X := as_serve_related _ _ H HO). destruct (as_serve ks cfg compute r o1 w1) as [[x o1'] w1'], (as_serve ks cfg compute' y o2 w2) as [[x' o2'] w2'].
        destruct X as (X1 & X2). specialize (IH _ _ _ _ _ H0 X2). destruct (as_session ks cfg compute rs o1' w1') as [[xs p1] v1], (as_session ks cfg compute' l' o2' w2') as [[ys p2] v2].
        destruct IH as (I1 & I2). split; [apply Forall2_app; assumption|exact I2].
    Qed.
  End AS.
End Relate.
