(** * Shaped arrays against vectors, one call

    If a relation between shaped arrays and vectors survives the array operations of the stages and
    the nonlinear function, then one call of the shaped strategy and one call of the strategy on
    vectors stay related. The stored stages of a new object need not be related: they are related
    from the moment the code has computed them. Level 0: no stored stage is related; level 1: the
    first stage; level 2: also the last stage, which an accepted step leaves behind. *)

From Coq Require Import ZArith List Bool Lia.
From Verif Require Import Scalars Control ControlRel Arrays SchemeBase SchemeIF SchemeETD4 SchemeETD5 Solvers SchemeFamily Shapes.
Import ListNotations.
Local Open Scope m_scope.
Local Open Scope arr_scope.

Set Implicit Arguments.

Lemma bind_eq S W X Y (m : M S W X) (f : X -> M S W Y) s w :
  bind m f s w = match m s w with (inl e, s', w') => (inl e, s', w') | (inr x, s', w') => f x s' w' end.
Proof. reflexivity. Qed.

(** ** Related computations *)
Section Computations.
  Variables S1 S2 W1 W2 : Type.
  Variable RS : nat -> S1 -> S2 -> Prop.
  Hypothesis mono : forall l l' a b, (l' <= l)%nat -> RS l a b -> RS l' a b.
  Variable RW : W1 -> W2 -> Prop.

  (** From level [l]: a normal return leads to level [l'], an exception to level [e]. *)
  Definition relL (l e l' : nat) X1 X2 (RX : X1 -> X2 -> Prop) (m1 : M S1 W1 X1) (m2 : M S2 W2 X2) : Prop :=
    forall s1 w1 s2 w2, RS l s1 s2 -> RW w1 w2 ->
    let '(r1, s1', w1') := m1 s1 w1 in
    let '(r2, s2', w2') := m2 s2 w2 in
    match r1, r2 with
    | inl x, inl y => x = y /\ RS e s1' s2' /\ RW w1' w2'
    | inr x, inr y => RX x y /\ RS l' s1' s2' /\ RW w1' w2'
    | _, _ => False
    end.

  Lemma l_ret l e X1 X2 (RX : X1 -> X2 -> Prop) x y : RX x y -> relL l e l RX (ret x) (ret y).
  Proof. intros H s1 w1 s2 w2 HS HW. cbn. auto. Qed.
  Lemma l_weaken l e l' l'' X1 X2 (RX : X1 -> X2 -> Prop) m1 m2 : (l'' <= l')%nat -> relL l e l' RX m1 m2 -> relL l e l'' RX m1 m2.
  Proof.
    intros Hl H s1 w1 s2 w2 HS HW. specialize (H s1 w1 s2 w2 HS HW). destruct (m1 s1 w1) as [[[x|x] t1] v1], (m2 s2 w2) as [[[y|y] t2] v2]; auto.
    destruct H as (A1 & A2 & A3). eauto.
  Qed.
  Lemma l_pre l m e l' X1 X2 (RX : X1 -> X2 -> Prop) m1 m2 : (forall a b, RS l a b -> RS m a b) -> relL m e l' RX m1 m2 -> relL l e l' RX m1 m2.
  Proof. intros Hl H s1 w1 s2 w2 HS HW. exact (H s1 w1 s2 w2 (Hl _ _ HS) HW). Qed.
  Lemma l_bind l m e l' X1 X2 Y1 Y2 (RX : X1 -> X2 -> Prop) (RY : Y1 -> Y2 -> Prop) m1 m2 (f1 : X1 -> M S1 W1 Y1) (f2 : X2 -> M S2 W2 Y2) :
    relL l e m RX m1 m2 -> (forall x y, RX x y -> relL m e l' RY (f1 x) (f2 y)) -> relL l e l' RY (bind m1 f1) (bind m2 f2).
  Proof.
    intros Hm Hf s1 w1 s2 w2 HS HW. unfold bind. specialize (Hm s1 w1 s2 w2 HS HW).
    destruct (m1 s1 w1) as [[[x|x] t1] v1], (m2 s2 w2) as [[[y|y] t2] v2]; try contradiction; [exact Hm|].
    destruct Hm as (H1 & H2 & H3). apply (Hf x y H1 t1 v1 t2 v2 H2 H3).
  Qed.
  Lemma l_get l e X1 X2 (RX : X1 -> X2 -> Prop) (f : S1 -> X1) (g : S2 -> X2) :
    (forall a b, RS l a b -> RX (f a) (g b)) -> relL l e l RX (get f) (get g).
  Proof. intros H s1 w1 s2 w2 HS HW. cbn. auto. Qed.
  Lemma l_upd l e l' (f : S1 -> S1) (g : S2 -> S2) : (forall a b, RS l a b -> RS l' (f a) (g b)) -> relL l e l' (fun _ _ => True) (upd f) (upd g).
  Proof. intros H s1 w1 s2 w2 HS HW. cbn. auto. Qed.
  Lemma l_call l e V1 V2 Y1 Y2 (RV : V1 -> V2 -> Prop) (RY : Y1 -> Y2 -> Prop) (nl1 : V1 -> W1 -> (exn + Y1) * W1) (nl2 : V2 -> W2 -> (exn + Y2) * W2) :
    (e <= l)%nat ->
    (forall a b w w', RV a b -> RW w w' ->
       match fst (nl1 a w), fst (nl2 b w') with inl e, inl e' => e = e' | inr x, inr y => RY x y | _, _ => False end /\
       RW (snd (nl1 a w)) (snd (nl2 b w'))) ->
    forall a b, RV a b -> relL l e l RY (call nl1 a) (call nl2 b).
  Proof.
    intros Hl H a b Hab s1 w1 s2 w2 HS HW. unfold call. specialize (H a b w1 w2 Hab HW).
    destruct (nl1 a w1) as [r1 v1], (nl2 b w2) as [r2 v2]. cbn [fst snd] in H. destruct H as (H1 & H2).
    destruct r1, r2; try contradiction; eauto.
  Qed.
End Computations.

(** An expression evaluates to an array related to a vector. *)
Definition RA {F} {A : aops F} (P : nd A -> vec A -> Prop) (x : sarr A) (v : vec A) : Prop :=
  match x with inr a => P a v | inl _ => False end.

Section Ops.
  Variable F : tops.
  Variable A : aops F.
  Variable n : nat.
  Notation nd := (nd A).
  Notation vec := (vec A).
  Record sclosed (P : nd -> vec -> Prop) : Prop := {
    sc_add : forall a b v u, P a v -> P b u -> RA P (map2 (eadd A) a b) (v +v u);
    sc_sub : forall a b v u, P a v -> P b u -> RA P (map2 (esub A) a b) (v -v u);
    sc_neg : forall a v, P a v -> RA P (map1 (eneg A) a) (vneg v);
    sc_scal : forall h a v, P a v -> RA P (map1 (fun x => emul A (eofT A h) x) a) (h *s v);
    sc_div : forall h a v, P a v -> RA P (map1 (fun x => ediv A x (eofT A h)) a) (v /s h) }.
  Definition mul_ok (P : nd -> vec -> Prop) : Prop := forall c a v, P a v -> RA P (map2 (emul A) (of_vec n c) a) (c *v v).
  Definition dot_ok (P Q : nd -> vec -> Prop) (m : mat A) : Prop := forall a v, P a v -> RA Q (dot1 n m a) (emdot A n m v).

  Variable P : nd -> vec -> Prop.
  Hypothesis HP : sclosed P.
  Lemma ra_ok (a : nd) v : P a v -> RA P (okarr a) v.
  Proof. exact (fun H => H). Qed.
  Lemma ra_add x y v u : RA P x v -> RA P y u -> RA P (aadd x y) (v +v u).
  Proof. destruct x, y; cbn; try contradiction. apply (sc_add HP). Qed.
  Lemma ra_sub x y v u : RA P x v -> RA P y u -> RA P (asub x y) (v -v u).
  Proof. destruct x, y; cbn; try contradiction. apply (sc_sub HP). Qed.
  Lemma ra_neg x v : RA P x v -> RA P (aneg x) (vneg v).
  Proof. destruct x; [contradiction|]. apply (sc_neg HP). Qed.
  Lemma ra_scal h x v : RA P x v -> RA P (ascal h x) (h *s v).
  Proof. destruct x; [contradiction|]. apply (sc_scal HP). Qed.
  Lemma ra_scalz h x v : RA P x v -> RA P (ascalz h x) (h *z v).
  Proof. apply ra_scal. Qed.
  Lemma ra_divz h x v : RA P x v -> RA P (adivz x h) (v /z h).
  Proof. destruct x; [contradiction|]. apply (sc_div HP). Qed.
  Lemma ra_mul c x v : mul_ok P -> RA P x v -> RA P (amul n c x) (c *v v).
  Proof. intros H. destruct x; [contradiction|]. apply H. Qed.
  Lemma ra_dot P' Q m x v : dot_ok P' Q m -> RA P' x v -> RA Q (adot n m x) (emdot A n m v).
  Proof. intros H. destruct x; [contradiction|]. apply H. Qed.
End Ops.

Section Strategies.
  Variable F : tops.
  Variable A : aops F.
  Variables W1 W2 : Type.
  Variable RW : W1 -> W2 -> Prop.
  Notation nd := (nd A).
  Notation vec := (vec A).
  Notation mat := (mat A).
  Variable p : problem A unit.
  Variable snl : nd -> W1 -> (exn + nd) * W1.
  Variable nl : vec -> W2 -> (exn + vec) * W2.
  Notation p2 := (with_nl p nl).
  Notation n := (p_size p).

  (** States, and the arrays the diagonalized strategies hold in the eigenbasis. *)
  Variables P Q : nd -> vec -> Prop.
  Hypothesis HP : sclosed P.
  Hypothesis HQ : sclosed Q.
  Hypothesis Hnl : forall a b w w', P a b -> RW w w' ->
    match fst (snl a w), fst (nl b w') with inl e, inl e' => e = e' | inr x, inr y => P x y | _, _ => False end /\
    RW (snd (snl a w)) (snd (nl b w')).

  (** Which products a strategy needs. *)
  Definition need_d : Prop := mul_ok n P.
  Definition need_n : Prop := forall m, dot_ok n P P m.
  Definition need_z : Prop := mul_ok n Q /\ dot_ok n P Q (p_Sinv p) /\ dot_ok n Q P (p_S p).
  Definition cs_need (k : cs_kind) : Prop := match k with IF4d | ETD4d | ETD5d => need_d | _ => need_n end.
  Definition as_need (k : as_kind) : Prop :=
    match k with IF34d | IF45DPd | ETD34d | ETD35d => need_d | IF34n | ETD34n | ETD35n => need_n | _ => need_z end.

  Section State.
    Variables K X1 X2 : Type.
    Variable RX : nat -> X1 -> X2 -> Prop.
    Hypothesis RX_mono : forall l l' a b, (l' <= l)%nat -> RX l a b -> RX l' a b.
    Record lst (b : bool) (l : nat) (s1 : sst (T F) K X1) (s2 : sst (T F) K X2) : Prop := {
      ls_h : h_coeff s1 = h_coeff s2;
      ls_i1 : n1_init s1 = b;
      ls_i2 : n1_init s2 = b;
      ls_k : coefs s1 = coefs s2;
      ls_m : RX l (mem s1) (mem s2) }.
    Lemma lst_mono b l l' s1 s2 : (l' <= l)%nat -> lst b l s1 s2 -> lst b l' s1 s2.
    Proof. intros H [H1 H2 H3 H4 H5]. split; eauto. Qed.
    Notation rl b := (relL (lst b) RW).
    Lemma l_coefs b l e : rl b l e l eq (get coefs) (get coefs).
    Proof. apply l_get. intros ? ? [H1 H2 H3 H4 H5]. auto. Qed.
    Lemma l_mem b l e : rl b l e l (RX l) (get mem) (get mem).
    Proof. apply l_get. intros ? ? [H1 H2 H3 H4 H5]. auto. Qed.
    Lemma l_set_mem b l e l' x y : RX l' x y -> rl b l e l' (fun _ _ => True) (upd (set_mem x)) (upd (set_mem y)).
    Proof. intros H. apply l_upd. intros ? ? [H1 H2 H3 H4 H5]. split; auto. Qed.
    (** Evaluation of an expression, where the other side has nothing to evaluate. *)
    Lemma l_eval b l e l' Y1 Y2 (RY : Y1 -> Y2 -> Prop) (R : nd -> vec -> Prop) x v (f : nd -> M (sst (T F) K X1) W1 Y1) g :
      RA R x v -> (forall a, R a v -> rl b l e l' RY (f a) g) -> rl b l e l' RY (bind (eval x) f) g.
    Proof. intros Hx Hf. destruct x as [|a]; [contradiction|]. exact (Hf a Hx). Qed.
    Lemma l_mem_left b l e l' Y1 Y2 (RY : Y1 -> Y2 -> Prop) (f : X1 -> M (sst (T F) K X1) W1 Y1) (g : M (sst (T F) K X2) W2 Y2) :
      (forall x, rl b l e l' RY (f x) g) -> rl b l e l' RY (bind (get mem) f) g.
    Proof. intros H s1 w1 s2 w2 HS HW. exact (H (mem s1) s1 w1 s2 w2 HS HW). Qed.
    (** Two writes of the stored arrays with only evaluations between them count as the second. *)
    Lemma l_skip b l e l' Y1 Y2 (RY : Y1 -> Y2 -> Prop) (R : nd -> vec -> Prop) x v y (B : nd -> X1) (r : nd -> M (sst (T F) K X1) W1 Y1) g :
      RA R x v -> (forall a, R a v -> rl b l e l' RY (upd (set_mem (B a)) ;;; r a) g) ->
      rl b l e l' RY (upd (set_mem y) ;;; a <- eval x ;; upd (set_mem (B a)) ;;; r a) g.
    Proof. intros Hx Hf. destruct x as [|a]; [contradiction|]. exact (Hf a Hx). Qed.
    Lemma l_skip0 b l e l' Y1 Y2 (RY : Y1 -> Y2 -> Prop) a y (B : nd -> X1) (r : nd -> M (sst (T F) K X1) W1 Y1) g :
      rl b l e l' RY (upd (set_mem (B a)) ;;; r a) g ->
      rl b l e l' RY (upd (set_mem y) ;;; a <- ret a ;; upd (set_mem (B a)) ;;; r a) g.
    Proof. exact (fun H => H). Qed.
    Lemma l_skip1 b l e l' Y2 (RY : unit -> Y2 -> Prop) (R : nd -> vec -> Prop) x v y (B : nd -> X1) g :
      RA R x v -> (forall a, R a v -> rl b l e l' RY (upd (set_mem (B a))) g) ->
      rl b l e l' RY (upd (set_mem y) ;;; a <- eval x ;; upd (set_mem (B a))) g.
    Proof. intros Hx Hf. destruct x as [|a]; [contradiction|]. exact (Hf a Hx). Qed.
    Lemma l_ecall b l e x v : (e <= l)%nat -> RA P x v -> rl b l e l P (ecall F A W1 snl x) (call nl v).
    Proof.
      intros Hl Hx. destruct x as [|a]; [contradiction|]. change (rl b l e l P (call snl a) (call nl v)).
      eapply l_call; [apply lst_mono|exact Hl|exact Hnl|exact Hx].
    Qed.
    Lemma l_callP b l e a v : (e <= l)%nat -> P a v -> rl b l e l P (call snl a) (call nl v).
    Proof. intros Hl Hx. eapply l_call; [apply lst_mono|exact Hl|exact Hnl|exact Hx]. Qed.

    Variable uc : T F -> K -> (exn + unit) * K.
    Lemma l_update b l e h : (e <= l)%nat -> rl b l e l (fun _ _ => True) (s_update_coeffs F W1 K X1 uc h) (s_update_coeffs F W2 K X2 uc h).
    Proof.
      intros Hl s1 w1 s2 w2 [H1 H2 H3 H4 H5] HW. unfold s_update_coeffs. rewrite H1. destruct (same_h F h (h_coeff s2)).
      - split; [exact I|]. split; [split; auto|exact HW].
      - cbv zeta. cbn [coefs set_h]. rewrite H4. destruct (uc h (coefs s2)) as [[x|[]] c].
        + split; [reflexivity|]. split; [|exact HW]. split; cbn [h_coeff n1_init coefs mem set_h set_coefs]; eauto.
        + split; [exact I|]. split; [|exact HW]. split; cbn [h_coeff n1_init coefs mem set_h set_coefs]; auto.
    Qed.

    (** Outcome of one call: the flag and the level after it. *)
    Definition outcome l Y1 Y2 (RY : Y1 -> Y2 -> Prop) (o1 : (exn + Y1) * sst (T F) K X1 * W1) (o2 : (exn + Y2) * sst (T F) K X2 * W2) : Prop :=
      let '(r1, s1', w1') := o1 in
      let '(r2, s2', w2') := o2 in
      RW w1' w2' /\
      match r1, r2 with
      | inl x, inl y => x = y /\ exists b' l', (l <= l')%nat /\ lst b' l' s1' s2' /\ (b' = true -> (1 <= l')%nat)
      | inr x, inr y => RY x y /\ lst true 2 s1' s2'
      | _, _ => False
      end.
    (** The wrapper [_update_stages]: coefficients, first stage if needed, stages. *)
    Lemma wrapper b l h Y1 Y2 (RY : Y1 -> Y2 -> Prop) init1 init2 (st1 : M _ W1 Y1) (st2 : M _ W2 Y2) l1 :
      (l <= l1)%nat -> (1 <= l1)%nat -> (b = true -> l1 = l) ->
      (b = false -> rl false l l l1 (fun _ _ : unit => True) init1 init2) ->
      rl true l1 l1 2 RY st1 st2 ->
      forall s1 w1 s2 w2, lst b l s1 s2 -> RW w1 w2 ->
      outcome l RY
        ((s_update_coeffs F W1 K X1 uc h ;;; b <- get n1_init ;; (if b then ret tt else (init1 ;;; upd (set_init true))) ;;; st1) s1 w1)
        ((s_update_coeffs F W2 K X2 uc h ;;; b <- get n1_init ;; (if b then ret tt else (init2 ;;; upd (set_init true))) ;;; st2) s2 w2).
    Proof.
      intros G1 G2 G3 HI HS s1 w1 s2 w2 H0 HW. rewrite (bind_eq (s_update_coeffs F W1 K X1 uc h)), (bind_eq (s_update_coeffs F W2 K X2 uc h)).
      assert (U := @l_update b l l h (Nat.le_refl l) s1 w1 s2 w2 H0 HW).
      destruct (s_update_coeffs F W1 K X1 uc h s1 w1) as [[[x|[]] t1] v1], (s_update_coeffs F W2 K X2 uc h s2 w2) as [[[y|[]] t2] v2]; try contradiction.
      { destruct U as (U1 & U2 & U3). split; [exact U3|]. split; [exact U1|]. exists b, l. split; [lia|]. split; [exact U2|]. intros E. rewrite <- (G3 E). exact G2. }
      destruct U as (_ & U2 & U3). rewrite (bind_eq (get n1_init)), (bind_eq (get n1_init) _ t2). unfold get. rewrite (ls_i1 U2), (ls_i2 U2). destruct b.
      - assert (l1 = l) by auto. subst l1. unfold bind, ret. specialize (HS t1 v1 t2 v2 U2 U3).
        destruct (st1 t1 v1) as [[[x|x] t1'] v1'], (st2 t2 v2) as [[[y|y] t2'] v2']; try contradiction; destruct HS as (S1 & S2 & S3).
        + split; [exact S3|]. split; [exact S1|]. exists true, l. auto.
        + split; [exact S3|]. auto.
      - unfold bind. specialize (HI eq_refl t1 v1 t2 v2 U2 U3).
        destruct (init1 t1 v1) as [[[x|[]] t1'] v1'], (init2 t2 v2) as [[[y|[]] t2'] v2']; try contradiction; destruct HI as (I1 & I2 & I3).
        { split; [exact I3|]. split; [exact I1|]. exists false, l. split; [lia|]. split; [exact I2|discriminate]. }
        cbn [upd]. assert (I4 : lst true l1 (set_init true t1') (set_init true t2')) by (destruct I2; split; auto).
        specialize (HS _ v1' _ v2' I4 I3).
        destruct (st1 (set_init true t1') v1') as [[[x|x] t1''] v1''], (st2 (set_init true t2') v2') as [[[y|y] t2''] v2'']; try contradiction; destruct HS as (S1 & S2 & S3).
        + split; [exact S3|]. split; [exact S1|]. exists true, l1. auto.
        + split; [exact S3|]. auto.
    Qed.
  End State.

  Definition r1 (l : nat) (a : mem1 nd) (b : mem1 vec) : Prop := match l with O => True | _ => P (m1_NL1 a) (m1_NL1 b) end.
  Definition r2 (l : nat) (a : mem2 nd) (b : mem2 vec) : Prop :=
    match l with O => True | 1%nat => P (m2_NL1 a) (m2_NL1 b) | _ => P (m2_NL1 a) (m2_NL1 b) /\ P (m2_NLn a) (m2_NLn b) end.
  Definition r3 (l : nat) (a : mem3 nd) (b : mem3 vec) : Prop :=
    match l with
    | O => True
    | 1%nat => Q (m3_NL1 a) (m3_NL1 b) /\ Q (m3_v a) (m3_v b)
    | _ => Q (m3_NL1 a) (m3_NL1 b) /\ Q (m3_v a) (m3_v b) /\ Q (m3_NLn a) (m3_NLn b)
    end.
  Definition r4 (l : nat) (a : mem4 nd) (b : mem4 vec) : Prop :=
    match l with O => True | _ => Q (m4_NL1 a) (m4_NL1 b) /\ Q (m4_v a) (m4_v b) end.
  Lemma r1_mono l l' a b : (l' <= l)%nat -> r1 l a b -> r1 l' a b.
  Proof. destruct l, l'; cbn; auto; lia. Qed.
  Lemma r2_mono l l' a b : (l' <= l)%nat -> r2 l a b -> r2 l' a b.
  Proof. destruct l as [|[|l]], l' as [|[|l']]; cbn; intuition lia. Qed.
  Lemma r3_mono l l' a b : (l' <= l)%nat -> r3 l a b -> r3 l' a b.
  Proof. destruct l as [|[|l]], l' as [|[|l']]; cbn; intuition lia. Qed.
  Lemma r4_mono l l' a b : (l' <= l)%nat -> r4 l a b -> r4 l' a b.
  Proof. destruct l, l'; cbn; auto; lia. Qed.

  (** States of the two objects. *)
  Definition cs_lst (k : cs_kind) : bool -> nat -> cs_st (cs_smodel p snl k) -> cs_st (cs_model p2 k) -> Prop :=
    match k with
    | IF4d => lst r1 | IF4n => lst r1 | ETD4d => lst r1 | ETD4n => lst r1 | ETD5d => lst r1 | ETD5n => lst r1
    end.
  Definition as_lst (k : as_kind) : bool -> nat -> as_st (as_smodel p snl k) -> as_st (as_model p2 k) -> Prop :=
    match k with
    | IF34d => lst r2 | IF34n => lst r2 | IF34z => lst r3 | IF45DPd => lst r2
    | ETD34d => lst r2 | ETD34n => lst r2 | ETD34z => lst r3
    | ETD35d => lst r1 | ETD35n => lst r1 | ETD35z => lst r4
    end.
  Definition err_rel (k : as_kind) : nd -> vec -> Prop := match k with IF34z | ETD34z | ETD35z => Q | _ => P end.

  Ltac solveR :=
    repeat (eassumption || match goal with
    | |- True => exact I
    | |- _ /\ _ => split
    | |- RA _ (okarr _) _ => apply ra_ok
    | |- RA _ (aadd _ _) _ => first [apply (ra_add HP)|apply (ra_add HQ)]
    | |- RA _ (asub _ _) _ => first [apply (ra_sub HP)|apply (ra_sub HQ)]
    | |- RA _ (aneg _) _ => first [apply (ra_neg HP)|apply (ra_neg HQ)]
    | |- RA _ (ascal _ _) _ => first [apply (ra_scal HP)|apply (ra_scal HQ)]
    | |- RA _ (ascalz _ _) _ => first [apply (ra_scalz HP)|apply (ra_scalz HQ)]
    | |- RA _ (adivz _ _) _ => first [apply (ra_divz HP)|apply (ra_divz HQ)]
    | H : mul_ok _ ?R |- RA ?R (amul _ _ _) _ => eapply ra_mul; [exact H|]
    | H : forall m, dot_ok _ _ _ m |- RA _ (adot _ ?m _) _ => eapply ra_dot; [exact (H m)|]
    | H : dot_ok _ _ _ ?m |- RA _ (adot _ ?m _) _ => eapply ra_dot; [exact H|]
    end).
  Ltac mems := cbn [r1 r2 r3 r4 m1_NL1 m2_NL1 m2_NLn m3_NL1 m3_NLn m3_v m4_NL1 m4_v fst snd] in *;
    repeat match goal with H : _ /\ _ |- _ => destruct H end.
  Ltac setm l := eapply (@l_bind _ _ _ _ _ _ _ l); [apply l_set_mem; cbn [r1 r2 r3 r4 m1_NL1 m2_NL1 m2_NLn m3_NL1 m3_NLn m3_v m4_NL1 m4_v]; solve [solveR]|]; intros _ _ _.
  Ltac monos := first [exact r1_mono|exact r2_mono|exact r3_mono|exact r4_mono].
  Ltac stepM :=
    match goal with
    | |- relL _ _ _ _ _ _ (bind (get coefs) _) _ => eapply l_bind; [apply l_coefs|]; intros ? c ->
    | |- relL _ _ _ _ _ _ (bind (getm _ _ _) _) _ => unfold getm at 1
    | |- relL _ _ _ _ _ _ (bind (get mem) _) (upd _) => apply l_mem_left; intros ?
    | |- relL _ _ _ _ _ _ (bind (get mem) _) _ => eapply l_bind; [apply l_mem|]; intros ? ? ?; mems
    | |- relL _ _ _ _ _ _ (bind (call _ _) _) _ => eapply l_bind; [apply l_callP; [monos|lia|solve [solveR]]|]; intros ? ? ?
    | |- relL _ _ _ _ _ _ (bind (ecall _ _ _ _ _) _) _ => eapply l_bind; [apply l_ecall; [monos|lia|solve [solveR]]|]; intros ? ? ?
    | |- relL _ _ _ _ _ _ (bind (eval _) _) _ => first [eapply l_eval with (R := P); [solve [solveR]|]|eapply l_eval with (R := Q); [solve [solveR]|]]; intros ? ?
    | |- relL _ _ _ _ _ _ (bind (upd (set_mem _)) (fun _ => bind (eval _) (fun _ => bind (upd (set_mem _)) _))) _ => eapply l_skip with (R := Q); [solve [solveR]|]; intros ? ?
    | |- relL _ _ _ _ _ _ (bind (upd (set_mem _)) (fun _ => bind (ret _) _)) _ => apply l_skip0
    | |- relL _ _ _ _ _ _ (bind (upd (set_mem _)) (fun _ => bind (eval _) (fun _ => upd (set_mem _)))) _ => eapply l_skip1 with (R := Q); [solve [solveR]|]; intros ? ?
    | |- relL _ _ _ _ _ _ (bind (upd (set_mem _)) _) (bind _ _) => first [setm 2%nat|setm 1%nat|setm 0%nat]
    | |- relL _ _ _ _ _ _ (upd (set_mem _)) (upd _) => apply l_set_mem; mems; solve [solveR]
    | |- relL _ _ ?l _ ?l' _ (ret _) _ => unshelve eapply (@l_weaken _ _ _ _ _ _ _ l _ l l'); [intros ? ? ? ?; apply lst_mono; monos|lia|apply l_ret; mems; solve [solveR]]
    end.
  Ltac runM := cbn [with_nl p_nl p_size p_S p_Sinv p_vec p_mat]; cbv zeta; repeat (stepM; cbv zeta).

  (** ** One call *)
  Definition cs_outcome (k : cs_kind) (l : nat) (o1 : (exn + nd) * cs_st (cs_smodel p snl k) * W1) (o2 : (exn + vec) * cs_st (cs_model p2 k) * W2) : Prop :=
    let '(r1, s1', w1') := o1 in
    let '(r2, s2', w2') := o2 in
    RW w1' w2' /\
    match r1, r2 with
    | inl x, inl y => x = y /\ exists b' l', (l <= l')%nat /\ cs_lst k b' l' s1' s2' /\ (b' = true -> (1 <= l')%nat)
    | inr x, inr y => P x y /\ cs_lst k true 2 s1' s2'
    | _, _ => False
    end.
  Definition as_outcome (k : as_kind) (l : nat) (o1 : (exn + nd * nd) * as_st (as_smodel p snl k) * W1) (o2 : (exn + vec * vec) * as_st (as_model p2 k) * W2) : Prop :=
    let '(r1, s1', w1') := o1 in
    let '(r2, s2', w2') := o2 in
    RW w1' w2' /\
    match r1, r2 with
    | inl x, inl y => x = y /\ exists b' l', (l <= l')%nat /\ as_lst k b' l' s1' s2' /\ (b' = true -> (1 <= l')%nat)
    | inr x, inr y => (P (fst x) (fst y) /\ err_rel k (snd x) (snd y)) /\ as_lst k true 2 s1' s2'
    | _, _ => False
    end.

  Ltac lev l1 := destruct l1 as [|[|[|l1]]]; [exfalso; lia| | |exfalso; lia].
  Ltac inits l G6 Eb := rewrite (G6 Eb); destruct l as [|[|[|l]]]; [| | |exfalso; lia]; cbn [Nat.max]; runM.
  Ltac accs acc G5 l1 := destruct acc; [rewrite (G5 eq_refl)|lev l1].

  Lemma cs_call k : cs_need k -> forall b l s1 w1 s2 w2 u v h, (l <= 2)%nat -> (b = true -> (1 <= l)%nat) ->
    cs_lst k b l s1 s2 -> RW w1 w2 -> P u v ->
    cs_outcome k l (cs_upd (cs_smodel p snl k) u h s1 w1) (cs_upd (cs_model p2 k) v h s2 w2).
  Proof.
    intros ND b l s1 w1 s2 w2 u v h Hl Hb HS HW Huv. set (l1 := if b then l else Nat.max l 1).
    assert (G1 : (l <= l1)%nat) by (unfold l1; destruct b; lia). assert (G2 : (1 <= l1)%nat) by (unfold l1; destruct b; [auto|lia]).
    assert (G3 : b = true -> l1 = l) by (unfold l1; intros ->; reflexivity). assert (G4 : (l1 <= 2)%nat) by (unfold l1; destruct b; lia).
    clearbody l1.
    destruct k; cbn [cs_need cs_lst] in *; unfold need_d, need_n in ND;
      (apply (@wrapper _ _ _ r1 r1_mono _ b l h _ _ P _ _ _ _ l1 G1 G2 G3); [intros _| |exact HS|exact HW]); clear Hb HS HW; lev l1.
    - unfold s_if4d_init, if4d_init. runM.
    - unfold s_if4d_init, if4d_init. runM.
    - unfold s_if4d_stages, if4d_stages. runM.
    - unfold s_if4d_stages, if4d_stages. runM.
    - unfold s_if4n_init, if4n_init. runM.
    - unfold s_if4n_init, if4n_init. runM.
    - unfold s_if4n_stages, if4n_stages. runM.
    - unfold s_if4n_stages, if4n_stages. runM.
    - unfold s_etd4d_init, etd4d_init. runM.
    - unfold s_etd4d_init, etd4d_init. runM.
    - unfold s_etd4d_stages, etd4d_stages. runM.
    - unfold s_etd4d_stages, etd4d_stages. runM.
    - unfold s_etd4n_init, etd4n_init. runM.
    - unfold s_etd4n_init, etd4n_init. runM.
    - unfold s_etd4n_stages, etd4n_stages. runM.
    - unfold s_etd4n_stages, etd4n_stages. runM.
    - unfold s_etd5d_init, etd5d_init. runM.
    - unfold s_etd5d_init, etd5d_init. runM.
    - unfold s_etd5d_stages, etd5d_stages. runM.
    - unfold s_etd5d_stages, etd5d_stages. runM.
    - unfold s_etd5n_init, etd5n_init. runM.
    - unfold s_etd5n_init, etd5n_init. runM.
    - unfold s_etd5n_stages, etd5n_stages. runM.
    - unfold s_etd5n_stages, etd5n_stages. runM.
  Qed.

  Lemma as_call k : as_need k -> forall acc b l s1 w1 s2 w2 u v h, (l <= 2)%nat -> (b = true -> (1 <= l)%nat) -> (b = true -> acc = true -> l = 2%nat) ->
    as_lst k b l s1 s2 -> RW w1 w2 -> P u v -> (acc = true -> b = true \/ l = 2%nat) ->
    as_outcome k l (as_upd (as_smodel p snl k) acc u h s1 w1) (as_upd (as_model p2 k) acc v h s2 w2).
  Proof.
    intros ND acc b l s1 w1 s2 w2 u v h Hl Hb Hacc HS HW Huv Ha. set (l1 := if b then l else Nat.max l 1).
    assert (G1 : (l <= l1)%nat) by (unfold l1; destruct b; lia). assert (G2 : (1 <= l1)%nat) by (unfold l1; destruct b; [auto|lia]).
    assert (G3 : b = true -> l1 = l) by (unfold l1; intros ->; reflexivity). assert (G4 : (l1 <= 2)%nat) by (unfold l1; destruct b; lia).
    assert (G5 : acc = true -> l1 = 2%nat) by (unfold l1; intros E; destruct (Ha E) as [Z|Z]; rewrite Z; [auto|destruct b; reflexivity]).
    assert (G6 : b = false -> l1 = Nat.max l 1) by (unfold l1; intros ->; reflexivity).
    clearbody l1.
    destruct k; cbn [as_need as_lst] in *; unfold need_d, need_n, need_z in ND.
    - apply (@wrapper _ _ _ r2 r2_mono _ b l h _ _ (fun x y => P (fst x) (fst y) /\ P (snd x) (snd y)) _ _ _ _ l1 G1 G2 G3); [intros Eb| |exact HS|exact HW]; clear Hb HS HW Hacc Ha.
      + unfold s_if34d_init, if34d_init. inits l G6 Eb.
      + unfold s_if34d_stages, if34d_stages. accs acc G5 l1; runM.
    - apply (@wrapper _ _ _ r2 r2_mono _ b l h _ _ (fun x y => P (fst x) (fst y) /\ P (snd x) (snd y)) _ _ _ _ l1 G1 G2 G3); [intros Eb| |exact HS|exact HW]; clear Hb HS HW Hacc Ha.
      + unfold s_if34n_init, if34n_init. inits l G6 Eb.
      + unfold s_if34n_stages, if34n_stages. accs acc G5 l1; runM.
    - destruct ND as (N1 & N2 & N3). apply (@wrapper _ _ _ r3 r3_mono _ b l h _ _ (fun x y => P (fst x) (fst y) /\ Q (snd x) (snd y)) _ _ _ _ l1 G1 G2 G3); [intros Eb| |exact HS|exact HW]; clear Hb HS HW Hacc Ha.
      + unfold s_if34z_init, if34z_init. inits l G6 Eb.
      + unfold s_if34z_stages, if34z_stages. accs acc G5 l1; runM.
    - assert (U := @l_update _ _ _ r2 r2_mono (as_uc p IF45DPd) b l l h (Nat.le_refl l) s1 w1 s2 w2 HS HW).
      cbn [as_smodel as_model as_upd if45dp]. unfold s_dp_update_stages, dp_update_stages. cbn [with_nl p_nl p_vec].
      rewrite (bind_eq (s_update_coeffs F W1 (dp_coefs vec (T F)) (mem2 nd) (dp_coeffs F A (p_vec p)) h)).
      rewrite (bind_eq (s_update_coeffs F W2 (dp_coefs vec (T F)) (mem2 vec) (dp_coeffs F A (p_vec p)) h)).
      cbn [as_uc as_K] in U.
      destruct (s_update_coeffs F W1 (dp_coefs vec (T F)) (mem2 nd) (dp_coeffs F A (p_vec p)) h s1 w1) as [[[x|[]] t1] v1],
        (s_update_coeffs F W2 (dp_coefs vec (T F)) (mem2 vec) (dp_coeffs F A (p_vec p)) h s2 w2) as [[[y|[]] t2] v2]; try contradiction.
      { destruct U as (U1 & U2 & U3). split; [exact U3|]. split; [exact U1|]. exists b, l. split; [lia|]. split; [exact U2|]. exact Hb. }
      destruct U as (_ & U2 & U3). rewrite (bind_eq (get n1_init)), (bind_eq (get n1_init) _ t2). unfold get at 1 3. rewrite (ls_i1 U2), (ls_i2 U2).
      match goal with |- as_outcome _ _ (bind _ ?f t1 v1) (bind _ ?g t2 v2) =>
        remember f as f0 eqn:Ef; remember g as g0 eqn:Eg end.
      assert (ST : relL (lst r2 true) RW l1 l1 2 (fun x y => P (fst x) (fst y) /\ P (snd x) (snd y)) (f0 tt) (g0 tt)).
      { subst f0 g0. clear - HP HQ Hnl ND Huv G2 G4. lev l1; runM. }
      clear Ef Eg. rename f0 into f. rename g0 into g. destruct b.
      + assert (E : l1 = l) by auto. subst l1.
        assert (PR : relL (lst (K := dp_coefs vec (T F)) r2 true) RW l l l (fun _ _ : unit => True)
           (if acc then m <- getm F W1 (mem2 nd);; upd (set_mem {| m2_NL1 := m2_NLn m; m2_NLn := m2_NLn m |}) else ret tt)
           (if acc then m <- get mem;; upd (set_mem {| m2_NL1 := m2_NLn m; m2_NLn := m2_NLn m |}) else ret tt)).
        { clear - HP HQ Hnl G5. destruct acc; [|apply l_ret; exact I]. rewrite (G5 eq_refl). runM. }
        assert (FG : forall x y : unit, True -> relL (lst r2 true) RW l l 2 (fun x y => P (fst x) (fst y) /\ P (snd x) (snd y)) (f x) (g y)) by (intros [] [] _; exact ST).
        assert (R := l_bind f g PR FG t1 v1 t2 v2 U2 U3).
        match goal with |- as_outcome _ _ ?a ?b => destruct a as [[[x|x] t1'] v1'], b as [[[y|y] t2'] v2'] end; try contradiction; destruct R as (R1 & R2 & R3).
        * split; [exact R3|]. split; [exact R1|]. exists true, l. auto.
        * split; [exact R3|]. auto.
      + unfold getm. rewrite (bind_eq _ f), (bind_eq _ g), !(bind_eq (call _ _)). unfold call.
        assert (C := Hnl Huv U3). destruct (snl u v1) as [c1 v1'], (nl v v2) as [c2 v2']. cbn [fst snd] in C. destruct C as (C1 & C2).
        destruct c1 as [x|x], c2 as [y|y]; try contradiction.
        { split; [exact C2|]. split; [exact C1|]. exists false, l. split; [lia|]. split; [exact U2|discriminate]. }
        unfold bind, get, upd.
        assert (L1 : lst r2 true l1 (set_init true (set_mem (mk_mem2 x (m2_NLn (mem t1))) t1)) (set_init true (set_mem (mk_mem2 y (m2_NLn (mem t2))) t2))).
        { destruct U2 as [H1 H2 H3 H4 H5]. split; auto. rewrite (G6 eq_refl). cbn [mem set_init set_mem].
          destruct l as [|[|[|l]]]; [| | |exfalso; lia]; cbn [Nat.max r2 m2_NL1 m2_NLn] in *; tauto. }
        assert (R := ST _ _ _ _ L1 C2).
        match goal with |- as_outcome _ _ ?a ?b => destruct a as [[[x'|x'] t1'] w1'], b as [[[y'|y'] t2'] w2'] end; try contradiction; destruct R as (R1 & R2 & R3).
        * split; [exact R3|]. split; [exact R1|]. exists true, l1. auto.
        * split; [exact R3|]. auto.
    - apply (@wrapper _ _ _ r2 r2_mono _ b l h _ _ (fun x y => P (fst x) (fst y) /\ P (snd x) (snd y)) _ _ _ _ l1 G1 G2 G3); [intros Eb| |exact HS|exact HW]; clear Hb HS HW Hacc Ha.
      + unfold s_etd34d_init, etd34d_init. inits l G6 Eb.
      + unfold s_etd34d_stages, etd34d_stages. accs acc G5 l1; runM.
    - apply (@wrapper _ _ _ r2 r2_mono _ b l h _ _ (fun x y => P (fst x) (fst y) /\ P (snd x) (snd y)) _ _ _ _ l1 G1 G2 G3); [intros Eb| |exact HS|exact HW]; clear Hb HS HW Hacc Ha.
      + unfold s_etd34n_init, etd34n_init. inits l G6 Eb.
      + unfold s_etd34n_stages, etd34n_stages. accs acc G5 l1; runM.
    - destruct ND as (N1 & N2 & N3). apply (@wrapper _ _ _ r3 r3_mono _ b l h _ _ (fun x y => P (fst x) (fst y) /\ Q (snd x) (snd y)) _ _ _ _ l1 G1 G2 G3); [intros Eb| |exact HS|exact HW]; clear Hb HS HW Hacc Ha.
      + unfold s_etd34z_init, etd34z_init. inits l G6 Eb.
      + unfold s_etd34z_stages, etd34z_stages. accs acc G5 l1; runM.
    - apply (@wrapper _ _ _ r1 r1_mono _ b l h _ _ (fun x y => P (fst x) (fst y) /\ P (snd x) (snd y)) _ _ _ _ l1 G1 G2 G3); [intros Eb| |exact HS|exact HW]; clear Hb HS HW Hacc Ha.
      + unfold s_etd35d_init, etd35d_init. inits l G6 Eb.
      + unfold s_etd35d_stages, etd35d_stages. accs acc G5 l1; (apply l_pre with (m := 2%nat); [intros ? ? [? ? ? ? ?]; split; assumption|]); (apply l_bind with (m := 2%nat) (RX := fun _ _ : unit => True); [unfold s_etd35d_init, etd35d_init; runM|intros _ _ _; runM]).
    - apply (@wrapper _ _ _ r1 r1_mono _ b l h _ _ (fun x y => P (fst x) (fst y) /\ P (snd x) (snd y)) _ _ _ _ l1 G1 G2 G3); [intros Eb| |exact HS|exact HW]; clear Hb HS HW Hacc Ha.
      + unfold s_etd35n_init, etd35n_init. inits l G6 Eb.
      + unfold s_etd35n_stages, etd35n_stages. accs acc G5 l1; (apply l_pre with (m := 2%nat); [intros ? ? [? ? ? ? ?]; split; assumption|]); (apply l_bind with (m := 2%nat) (RX := fun _ _ : unit => True); [unfold s_etd35n_init, etd35n_init; runM|intros _ _ _; runM]).
    - destruct ND as (N1 & N2 & N3). apply (@wrapper _ _ _ r4 r4_mono _ b l h _ _ (fun x y => P (fst x) (fst y) /\ Q (snd x) (snd y)) _ _ _ _ l1 G1 G2 G3); [intros Eb| |exact HS|exact HW]; clear Hb HS HW Hacc Ha.
      + unfold s_etd35z_init, etd35z_init. inits l G6 Eb.
      + unfold s_etd35z_stages, etd35z_stages. accs acc G5 l1; (apply l_pre with (m := 2%nat); [intros ? ? [? ? ? ? ?]; split; assumption|]); (apply l_bind with (m := 2%nat) (RX := fun _ _ : unit => True); [unfold s_etd35z_init, etd35z_init; runM|intros _ _ _; runM]).
  Qed.
End Strategies.
