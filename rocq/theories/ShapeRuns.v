(** * Shaped arrays against vectors, whole runs

    From one call ([ShapeRel.v]) to every session of requests, and the relations used: an array
    of shape (n,) and its vector of entries; a stack of states and one of its rows; a matrix and
    one of its columns. *)

From Coq Require Import ZArith List Bool Lia.
From Verif Require Import Scalars Control ControlRel Arrays SchemeBase SchemeIF SchemeETD4 SchemeETD5 Solvers SchemeFamily RelStep Shapes ShapeRel.
Import ListNotations.

Set Implicit Arguments.

Section Runs.
  Variable F : tops.
  Variable A : aops F.
  Variables W1 W2 : Type.
  Variable RW : W1 -> W2 -> Prop.
  Variable p : problem A unit.
  Variable snl : nd A -> W1 -> (exn + nd A) * W1.
  Variable nl : vec A -> W2 -> (exn + vec A) * W2.
  Notation p2 := (with_nl p nl).
  Notation n := (p_size p).
  Variables P Q : nd A -> vec A -> Prop.
  Hypothesis HP : sclosed P.
  Hypothesis HQ : sclosed Q.
  Hypothesis Hnl : forall a b w w', P a b -> RW w w' ->
    match fst (snl a w), fst (nl b w') with inl e, inl e' => e = e' | inr x, inr y => P x y | _, _ => False end /\
    RW (snd (snl a w)) (snd (nl b w')).
  Notation clst := (cs_lst p snl nl P).
  Notation alst := (as_lst p snl nl P Q).
  Notation allP L := (forall a b, In (a, b) L -> P a b).

  Lemma cs_lst_mono k b l l' s1 s2 : (l' <= l)%nat -> clst k b l s1 s2 -> clst k b l' s1 s2.
  Proof. intros H. destruct k; cbn [cs_lst]; (apply lst_mono; [intros ? ? ? ?; apply r1_mono|exact H]). Qed.
  Lemma as_lst_mono k b l l' s1 s2 : (l' <= l)%nat -> alst k b l s1 s2 -> alst k b l' s1 s2.
  Proof.
    intros H. destruct k; cbn [as_lst];
      (apply lst_mono; [intros ? ? ? ?; first [apply r1_mono|apply r2_mono|apply r3_mono|apply r4_mono]|exact H]).
  Qed.
  Lemma cs_lst_reset k b l s1 s2 : clst k b l s1 s2 -> clst k false l (cs_reset (cs_smodel p snl k) s1) (cs_reset (cs_model p2 k) s2).
  Proof. destruct k; cbn [cs_lst]; intros [H1 H2 H3 H4 H5]; (split; cbn; try reflexivity; try assumption). Qed.
  Lemma as_lst_reset k b l s1 s2 : alst k b l s1 s2 -> alst k false l (as_reset (as_smodel p snl k) s1) (as_reset (as_model p2 k) s2).
  Proof. destruct k; cbn [as_lst]; intros [H1 H2 H3 H4 H5]; (split; cbn; try reflexivity; try assumption). Qed.
  Lemma cs_new_lst k : clst k false 0 (cs_snew p snl k) (cs_new p2 k).
  Proof. destruct k; cbn [cs_lst]; (split; try reflexivity; exact I). Qed.
  Lemma as_new_lst0 k : alst k false 0 (as_snew p snl k) (as_new p2 k).
  Proof. destruct k; cbn [as_lst]; (split; try reflexivity; exact I). Qed.
  Lemma as_new_lst2 k : P (nzero p) (vzero A) -> Q (nzero p) (vzero A) -> alst k false 2 (as_snew p snl k) (as_new p2 k).
  Proof. intros H1 H2. destruct k; cbn [as_lst]; (split; try reflexivity; cbn; repeat split; assumption). Qed.

  (** ** Constant step: only the arrays the code has computed need to be related *)
  Definition cs_sR k (s1 : cs_st (cs_smodel p snl k)) (w1 : W1) (s2 : cs_st (cs_model p2 k)) (w2 : W2) (L : list (nd A * vec A)) : Prop :=
    (exists b l, (l <= 2)%nat /\ (b = true -> (1 <= l)%nat) /\ clst k b l s1 s2) /\ RW w1 w2 /\ allP L.
  Lemma cut2 (b : bool) l : (b = true -> (1 <= l)%nat) -> exists l', (l' <= l)%nat /\ (l' <= 2)%nat /\ (b = true -> (1 <= l')%nat) /\ ((2 <= l)%nat -> l' = 2%nat).
  Proof. intros H. exists (Nat.min l 2). repeat split; try lia. intros E. specialize (H E). lia. Qed.
  Lemma cs_sR_related k : cs_need p P k -> cs_related F (cs_smodel p snl k) (cs_model p2 k) (@cs_sR k).
  Proof.
    intros ND. split.
    - intros s1 w1 s2 w2 L ((b & l & H1 & H2 & H3) & H4 & H5). split; [|split; assumption].
      exists false, l. split; [exact H1|]. split; [discriminate|]. eapply cs_lst_reset; exact H3.
    - intros s1 w1 s2 w2 L u1 u2 h ((b & l & H1 & H2 & H3) & H4 & H5) Hin.
      assert (C := @cs_call F A W1 W2 RW p snl nl P HP Hnl k ND b l s1 w1 s2 w2 u1 u2 h H1 H2 H3 H4 (H5 _ _ Hin)).
      unfold cs_outcome in C.
      destruct (cs_upd (cs_smodel p snl k) u1 h s1 w1) as [[[x|x] t1] v1], (cs_upd (cs_model p2 k) u2 h s2 w2) as [[[y|y] t2] v2]; destruct C as (C1 & C2); try contradiction.
      + destruct C2 as (C2 & b' & l' & C3 & C4 & C5). split; [exact C2|]. split; [|split; assumption].
        destruct (cut2 C5) as (m & M1 & M2 & M3 & _). exists b', m. split; [exact M2|]. split; [exact M3|]. eapply cs_lst_mono; [exact M1|exact C4].
      + destruct C2 as (C2 & C3). split; [|split; [exact C1|]].
        * exists true, 2%nat. split; [lia|]. split; [lia|exact C3].
        * intros a b' [E|E]; [injection E as <- <-; exact C2|apply H5; exact E].
  Qed.
  Lemma cs_shaped_sessions k rs rs' w1 w2 : cs_need p P k -> RW w1 w2 -> Forall2 (rel_req P) rs rs' ->
    let '(x, o1, v1) := cs_session rs (cs_snew_obj p snl k) w1 in
    let '(y, o2, v2) := cs_session rs' (cs_new_obj p2 k) w2 in
    Forall2 (rel_ans P) x y /\ c_t o1 = c_t o2 /\ Forall2 P (c_u o1) (c_u o2) /\ RW v1 v2.
  Proof.
    intros ND HW Hr. apply (@cs_session_relate F _ _ _ _ P RW _ _ (@cs_sR k)).
    - apply cs_sR_related. exact ND.
    - intros s1 v1 s2 v2 L H. apply H.
    - intros s1 v1 s2 v2 L H. apply H.
    - intros s1 v1 s2 v2 L a b (H1 & H2 & H3) Hab. split; [exact H1|]. split; [exact H2|].
      intros a' b' [E|E]; [injection E as <- <-; exact Hab|apply H3; exact E].
    - exact Hr.
    - exists []. split; cbn [cs_snew_obj cs_new_obj c_m c_t c_tf c_tc c_u]; try reflexivity; [|constructor].
      split; [|split; [exact HW|intros a b []]]. exists false, 0%nat. split; [lia|]. split; [discriminate|]. apply cs_new_lst.
  Qed.

  (** ** Adaptive step *)
  Definition as_sR k (s1 : as_st (as_smodel p snl k)) (w1 : W1) (s2 : as_st (as_model p2 k)) (w2 : W2) (L : list (nd A * vec A)) : Prop :=
    (exists b, alst k b 2 s1 s2) /\ RW w1 w2 /\ allP L.
  Section Measure.
    Variable ks : consts (T F).
    Variable cfg : config (T F).
    Variable compute : nd A -> nd A -> exn + sval (T F).
    Variable compute' : vec A -> vec A -> exn + sval (T F).
    Variable k : as_kind.
    Hypothesis Hc : forall a b e f, P a b -> ShapeRel.err_rel P Q k e f -> compute a e = compute' b f.
    Lemma as_sR_related : as_need p P Q k -> as_related F (as_smodel p snl k) (as_model p2 k) compute compute' (@as_sR k).
    Proof.
      intros ND. split.
      - intros s1 w1 s2 w2 L ((b & H3) & H4 & H5). split; [|split; assumption]. exists false. eapply as_lst_reset; exact H3.
      - intros acc s1 w1 s2 w2 L u1 u2 h ((b & H3) & H4 & H5) Hin.
        assert (C := @as_call F A W1 W2 RW p snl nl P Q HP HQ Hnl k ND acc b 2 s1 w1 s2 w2 u1 u2 h
                       (le_n 2) (fun _ => le_S 1 1 (le_n 1)) (fun _ _ => eq_refl) H3 H4 (H5 _ _ Hin) (fun _ => or_intror eq_refl)).
        unfold as_outcome in C.
        destruct (as_upd (as_smodel p snl k) acc u1 h s1 w1) as [[[x|[x e]] t1] v1], (as_upd (as_model p2 k) acc u2 h s2 w2) as [[[y|[y f]] t2] v2]; destruct C as (C1 & C2); try contradiction.
        + destruct C2 as (C2 & b' & l' & C3 & C4 & C5). split; [exact C2|]. split; [|split; assumption]. exists b'. eapply as_lst_mono; [exact C3|exact C4].
        + destruct C2 as ((C2 & C2') & C3). cbn [fst snd] in C2, C2'. split; [|apply Hc; assumption]. split; [|split; [exact C1|]].
          * exists true. exact C3.
          * intros a b' [E|E]; [injection E as <- <-; exact C2|apply H5; exact E].
    Qed.
    Lemma as_shaped_sessions rs rs' w1 w2 : as_need p P Q k -> P (nzero p) (vzero A) -> Q (nzero p) (vzero A) -> RW w1 w2 -> Forall2 (rel_req P) rs rs' ->
      let '(x, o1, v1) := as_session ks cfg compute rs (as_snew_obj p snl k) w1 in
      let '(y, o2, v2) := as_session ks cfg compute' rs' (as_new_obj p2 k) w2 in
      Forall2 (rel_ans P) x y /\ a_t o1 = a_t o2 /\ Forall2 P (a_u o1) (a_u o2) /\ RW v1 v2.
    Proof.
      intros ND Z1 Z2 HW Hr. apply (@as_session_relate F _ _ _ _ P RW _ _ ks cfg compute compute' (@as_sR k)).
      - apply as_sR_related. exact ND.
      - intros s1 v1 s2 v2 L H. apply H.
      - intros s1 v1 s2 v2 L H. apply H.
      - intros s1 v1 s2 v2 L a b (H1 & H2 & H3) Hab. split; [exact H1|]. split; [exact H2|].
        intros a' b' [E|E]; [injection E as <- <-; exact Hab|apply H3; exact E].
      - exact Hr.
      - exists []. split; cbn [as_snew_obj as_new_obj a_m a_t a_tf a_tc a_accept a_u]; try reflexivity; [|constructor].
        split; [|split; [exact HW|intros a b []]]. exists false. apply as_new_lst2; assumption.
    Qed.
  End Measure.
End Runs.

(** ** Rows and columns *)
Lemma bcd_refl a : bcd a a = Some a.
Proof. unfold bcd. rewrite Nat.eqb_refl. reflexivity. Qed.
Lemma bc_refl s : bc s s = Some s.
Proof. induction s as [|a s IH]; [reflexivity|]. cbn [bc]. rewrite bcd_refl, IH. reflexivity. Qed.
Lemma clip_refl s : forall idx, length idx = length s -> clip s s idx = idx.
Proof.
  induction s as [|a s IH]; intros [|i idx] H; cbn in *; try reflexivity; try discriminate.
  rewrite Nat.eqb_refl, IH by lia. reflexivity.
Qed.

(** The vector along the last axis at position [b] of the other axes; [x[b]] in numpy. *)
Definition row {F} {A : aops F} (x : nd A) (b : list nat) : vec A := fun i => el x (i :: b).
(** Column [c] of a matrix; [x[:, c]]. *)
Definition col {F} {A : aops F} (x : nd A) (c : nat) : vec A := fun i => el x [c; i].
Definition row_of {F} {A : aops F} (n : nat) (s : shape) (b : list nat) (x : nd A) (v : vec A) : Prop := sh x = n :: s /\ v = row x b.
Definition col_of {F} {A : aops F} (n w c : nat) (x : nd A) (v : vec A) : Prop := sh x = [w; n] /\ v = col x c.

Section Slices.
  Variable F : tops.
  Variable A : aops F.

  Lemma map2_same op (a b : nd A) : sh a = sh b ->
    map2 op a b = inr (mk_nd (sh a) (fun idx => op (el a (clip (sh a) (sh a) idx)) (el b (clip (sh a) (sh a) idx)))).
  Proof. intros H. unfold map2. rewrite <- H, bc_refl. reflexivity. Qed.

  Lemma row_closed n s b : length b = length s -> sclosed (row_of (A := A) n s b).
  Proof.
    intros Hb. split.
    - intros x y v u [H1 ->] [H2 ->]. rewrite map2_same by congruence. split; [exact H1|]. apply FunctionalExtensionality.functional_extensionality. intros i. unfold row, vadd. cbn [el]. rewrite !clip_refl by (rewrite H1; cbn; congruence). reflexivity.
    - intros x y v u [H1 ->] [H2 ->]. rewrite map2_same by congruence. split; [exact H1|]. apply FunctionalExtensionality.functional_extensionality. intros i. unfold row, vsub. cbn [el]. rewrite !clip_refl by (rewrite H1; cbn; congruence). reflexivity.
    - intros x v [H1 ->]. split; [exact H1|reflexivity].
    - intros h x v [H1 ->]. split; [exact H1|reflexivity].
    - intros h x v [H1 ->]. split; [exact H1|reflexivity].
  Qed.
  Lemma bc_row n s : bc [n] (n :: s) = Some (n :: s).
  Proof. cbn [bc]. rewrite bcd_refl. destruct s; reflexivity. Qed.
  Lemma row_mul n s b : length b = length s -> mul_ok n (row_of (A := A) n s b).
  Proof.
    intros Hb c x v [H1 ->]. unfold map2. cbn [of_vec sh]. rewrite H1, bc_row. split; [reflexivity|].
    apply FunctionalExtensionality.functional_extensionality. intros i. unfold row, vmul. cbn [el of_vec]. rewrite clip_refl by (cbn; congruence).
    cbn [clip hd]. rewrite Nat.eqb_refl. reflexivity.
  Qed.
  Lemma row_dot n m : dot_ok n (row_of (A := A) n [] []) (row_of n [] []) m.
  Proof. intros x v [H1 ->]. unfold dot1. rewrite H1, Nat.eqb_refl. split; reflexivity. Qed.
  Lemma col_closed n w c : sclosed (col_of (A := A) n w c).
  Proof.
    split.
    - intros x y v u [H1 ->] [H2 ->]. rewrite map2_same by congruence. split; [exact H1|]. apply FunctionalExtensionality.functional_extensionality. intros i. unfold col, vadd. cbn [el]. rewrite !clip_refl by (rewrite H1; reflexivity). reflexivity.
    - intros x y v u [H1 ->] [H2 ->]. rewrite map2_same by congruence. split; [exact H1|]. apply FunctionalExtensionality.functional_extensionality. intros i. unfold col, vsub. cbn [el]. rewrite !clip_refl by (rewrite H1; reflexivity). reflexivity.
    - intros x v [H1 ->]. split; [exact H1|reflexivity].
    - intros h x v [H1 ->]. split; [exact H1|reflexivity].
    - intros h x v [H1 ->]. split; [exact H1|reflexivity].
  Qed.
  Lemma col_dot n w c m : dot_ok n (col_of (A := A) n w c) (col_of n w c) m.
  Proof. intros x v [H1 ->]. unfold dot1. rewrite H1, Nat.eqb_refl. split; reflexivity. Qed.
  Lemma row_zero n : row_of (A := A) n [] [] (of_vec n (vzero A)) (vzero A).
  Proof. split; reflexivity. Qed.
End Slices.
