(** * C88: many states in one array

    A stack of states, one per row (1-D operator), or one per column (matrix operator), in one
    array. *)

From Coq Require Import ZArith List Bool Reals Lra Lia.
From Coquelicot Require Import Complex.
From Verif Require Import Scalars Control ControlRel ControlSound Arrays CInst SchemeBase SchemeIF SchemeETD4 SchemeETD5 Solvers SchemeFamily SchemeIFReal Tolerance RelStep Shapes ShapeTol ShapeRel ShapeRuns.
Import ListNotations.

(** ** Specification *)
(** The nonlinear function treats the rows (columns) of its argument one by one. *)
Definition rowwise {F} {A : aops F} (n : nat) (s : shape) (Nb : nd A -> nd A) (N : vec A -> vec A) : Prop :=
  forall x, sh x = n :: s -> sh (Nb x) = n :: s /\ forall b, length b = length s -> row (Nb x) b = N (row x b).
Definition colwise {F} {A : aops F} (n w : nat) (Nb : nd A -> nd A) (N : vec A -> vec A) : Prop :=
  forall x, sh x = [w; n] -> sh (Nb x) = [w; n] /\ forall c, col (Nb x) c = N (col x c).
Definition pure {V W} (N : V -> V) (x : V) (w : W) : (exn + V) * W := (inr (N x), w).
Definition cs_diag (k : cs_kind) : bool := match k with IF4d | ETD4d | ETD5d => true | _ => false end.
Definition as_diag (k : as_kind) : bool := match k with IF34d | IF45DPd | ETD34d | ETD35d => true | _ => false end.
Definition as_full (k : as_kind) : bool := match k with IF34n | ETD34n | ETD35n => true | _ => false end.

Lemma F2_impl {X Y} (P Q : X -> Y -> Prop) l l' : (forall a b, P a b -> Q a b) -> Forall2 P l l' -> Forall2 Q l l'.
Proof. intros H F. induction F; constructor; auto. Qed.

(** ** Constant step: every session, row by row *)
Theorem C88_constant_step_rows :
  forall (F : tops) (A : aops F) (W : Type) (p : problem A unit) Nb N (k : cs_kind) s b rs rs' (w : W),
    cs_diag k = true -> rowwise (p_size p) s Nb N -> length b = length s ->
    Forall2 (rel_req (row_of (p_size p) s b)) rs rs' ->
    let '(x, o1, _) := cs_session rs (cs_snew_obj p (pure Nb) k) w in
    let '(y, o2, _) := cs_session rs' (cs_new_obj (with_nl p (pure N)) k) w in
    Forall2 (rel_ans (row_of (p_size p) s b)) x y /\ c_t o1 = c_t o2 /\ Forall2 (row_of (p_size p) s b) (c_u o1) (c_u o2).
Proof.
  intros F A W p Nb N k s b rs rs' w Hk HN Hb Hr.
  assert (G := cs_shaped_sessions (W1 := W) (W2 := W) eq p (pure Nb) (pure N) (@row_closed F A (p_size p) s b Hb)).
  assert (H1 : forall a c (w w' : W), row_of (p_size p) s b a c -> w = w' ->
    match fst (pure Nb a w), fst (pure N c w') with inl e, inl e' => e = e' | inr x, inr y => row_of (p_size p) s b x y | _, _ => False end /\ snd (pure Nb a w) = snd (pure N c w')).
  { intros a c w1 w2 [E ->] <-. split; [|reflexivity]. destruct (HN a E) as [E1 E2]. split; [exact E1|]. symmetry. apply E2. exact Hb. }
  assert (ND : cs_need p (row_of (p_size p) s b) k) by (destruct k; try discriminate Hk; apply row_mul; exact Hb).
  specialize (G H1 k rs rs' w w ND eq_refl Hr). destruct (cs_session rs (cs_snew_obj p (pure Nb) k) w) as [[x o1] w1].
  destruct (cs_session rs' (cs_new_obj (with_nl p (pure N)) k) w) as [[y o2] w2]. destruct G as (G1 & G2 & G3 & _). auto.
Qed.
Theorem C88_constant_step_columns :
  forall (F : tops) (A : aops F) (W : Type) (p : problem A unit) Nb N (k : cs_kind) m c rs rs' (w : W),
    cs_diag k = false -> colwise (p_size p) m Nb N ->
    Forall2 (rel_req (col_of (p_size p) m c)) rs rs' ->
    let '(x, o1, _) := cs_session rs (cs_snew_obj p (pure Nb) k) w in
    let '(y, o2, _) := cs_session rs' (cs_new_obj (with_nl p (pure N)) k) w in
    Forall2 (rel_ans (col_of (p_size p) m c)) x y /\ c_t o1 = c_t o2 /\ Forall2 (col_of (p_size p) m c) (c_u o1) (c_u o2).
Proof.
  intros F A W p Nb N k m c rs rs' w Hk HN Hr.
  assert (G := cs_shaped_sessions (W1 := W) (W2 := W) eq p (pure Nb) (pure N) (@col_closed F A (p_size p) m c)).
  assert (H1 : forall a v (w w' : W), col_of (p_size p) m c a v -> w = w' ->
    match fst (pure Nb a w), fst (pure N v w') with inl e, inl e' => e = e' | inr x, inr y => col_of (p_size p) m c x y | _, _ => False end /\ snd (pure Nb a w) = snd (pure N v w')).
  { intros a v w1 w2 [E ->] <-. split; [|reflexivity]. destruct (HN a E) as [E1 E2]. split; [exact E1|]. symmetry. apply E2. }
  assert (ND : cs_need p (col_of (p_size p) m c) k) by (destruct k; try discriminate Hk; intros x; apply col_dot).
  specialize (G H1 k rs rs' w w ND eq_refl Hr). destruct (cs_session rs (cs_snew_obj p (pure Nb) k) w) as [[x o1] w1].
  destruct (cs_session rs' (cs_new_obj (with_nl p (pure N)) k) w) as [[y o2] w2]. destruct G as (G1 & G2 & G3 & _). auto.
Qed.

(** ** Adaptive step: one sequence of step sizes for all slices *)
Section Adaptive.
  Variable F : tops.
  Variable A : aops F.
  Variable W : Type.
  Variable p : problem A unit.
  Variable Nb : nd A -> nd A.
  Variable N : vec A -> vec A.
  Variable k : as_kind.
  Variable I : Type.
  Variable i0 : I.
  Variable ok : nd A -> Prop.
  Variable slice : I -> nd A -> vec A.
  Definition sl (i : I) (x : nd A) (v : vec A) : Prop := ok x /\ v = slice i x.
  Hypothesis HP : forall i, sclosed (sl i).
  Hypothesis ND : forall i, as_need p (sl i) (sl i) k.
  Hypothesis HN : forall x, ok x -> ok (Nb x) /\ forall i, slice i (Nb x) = N (slice i x).
  Notation m1 := (as_smodel p (pure (W := W) Nb) k).
  Notation p2 := (with_nl p (pure (W := W) N)).
  Notation m2 := (as_model p2 k).
  Hypothesis HT : linalg_total p2.
  Hypothesis HE : as_eq_ok p2 k.
  Hypothesis Hz : forall i x v, ShapeRel.err_rel (sl i) (sl i) k x v -> ok x.

  Definition binv (acc : bool) (s1 : as_st m1) (u : nd A) : Prop :=
    ok u /\ forall i, exists b l s2, (l <= 2)%nat /\ (b = true -> (1 <= l)%nat) /\ (acc = true -> l = 2%nat) /\
      as_lst p (pure Nb) (pure N) (sl i) (sl i) k b l s1 s2 /\ as_inv p2 N k acc s2 (slice i u).
  Definition step_of (h : T F) (v : vec A) : vec A := fst (as_Phi p2 N k h v).

  Lemma nl_related i : forall a b (w w' : W), sl i a b -> w = w' ->
    match fst (pure Nb a w), fst (pure N b w') with inl e, inl e' => e = e' | inr x, inr y => sl i x y | _, _ => False end /\
    snd (pure Nb a w) = snd (pure N b w').
  Proof. intros a b w w' [H1 ->] <-. split; [|reflexivity]. destruct (HN a H1) as [H2 H3]. split; [exact H2|]. symmetry. apply H3. Qed.
  Lemma model_sound : as_sound m2 (as_Phi p2 N k) (as_inv p2 N k).
  Proof. apply as_model_sound; [|exact HT|exact HE]. intros v w y w' E. injection E as <- _. reflexivity. Qed.

  Lemma slice_call acc s1 u h w i : binv acc s1 u ->
    let '(r1, s1', _) := as_upd m1 acc u h s1 w in
    exists x e, r1 = inr (x, e) /\ ok x /\ ok e /\ slice i x = step_of h (slice i u) /\
      exists s2, as_lst p (pure Nb) (pure N) (sl i) (sl i) k true 2 s1' s2 /\ as_inv p2 N k false s2 (slice i u) /\ as_inv p2 N k true s2 (slice i x).
  Proof.
    intros [Hu Hi]. destruct (Hi i) as (b & l & s2 & H1 & H2 & H3 & H4 & H5).
    assert (C := @as_call F A W W eq p (pure Nb) (pure N) (sl i) (sl i) (HP i) (HP i) (nl_related i) k (ND i) acc b l s1 w s2 w u (slice i u) h
                   H1 H2 (fun _ => H3) H4 eq_refl (conj Hu eq_refl) (fun E => or_intror (H3 E))).
    assert (V := proj2 model_sound acc s2 (slice i u) h w H5).
    assert (NR : as_never_raises m2) by (apply as_model_never_raises; [intros v w0 e; discriminate|exact HT]). unfold as_outcome in C.
    destruct (as_upd m1 acc u h s1 w) as [[[e1|[x e]] s1'] w1'].
    - exfalso. specialize (NR acc (slice i u) h s2 w). destruct (as_upd m2 acc (slice i u) h s2 w) as [[[e2|[y f]] s2'] w2']; [|destruct C as (_ & [])].
      apply (NR e2). reflexivity.
    - destruct (as_upd m2 acc (slice i u) h s2 w) as [[[e2|[y f]] s2'] w2']; [destruct C as (_ & [])|].
      destruct C as (_ & ((C1 & C2) & C3)). cbn [fst snd] in C1, C2. destruct V as (V1 & V2 & V3). cbn [fst] in V3.
      exists x, e. split; [reflexivity|]. split; [exact (proj1 C1)|]. split; [exact (Hz i e f C2)|].
      assert (Ey : y = slice i x) by exact (proj2 C1). subst y. split; [unfold step_of; rewrite <- V1; reflexivity|].
      exists s2'. auto.
  Qed.
  Lemma batch_call acc s1 u h w : binv acc s1 u ->
    let '(r1, s1', _) := as_upd m1 acc u h s1 w in
    exists x e, r1 = inr (x, e) /\ ok x /\ ok e /\ (forall i, slice i x = step_of h (slice i u)) /\ binv false s1' u /\ binv true s1' x.
  Proof.
    intros H. assert (G := fun i => slice_call acc s1 u h w i H). destruct (as_upd m1 acc u h s1 w) as [[r1 s1'] w1'].
    destruct (G i0) as (x & e & -> & Hx & He & _). exists x, e. split; [reflexivity|]. split; [exact Hx|]. split; [exact He|].
    assert (G' : forall i, slice i x = step_of h (slice i u) /\
      exists s2, as_lst p (pure Nb) (pure N) (sl i) (sl i) k true 2 s1' s2 /\ as_inv p2 N k false s2 (slice i u) /\ as_inv p2 N k true s2 (slice i x)).
    { intros i. destruct (G i) as (x' & e' & E & _ & _ & G1 & G2). injection E as <- <-. split; assumption. }
    split; [intros i; apply G'|]. split; (split; [first [exact (proj1 H)|exact Hx]|]); intros i; destruct (G' i) as (_ & s2 & L1 & L2 & L3);
      exists true, 2%nat, s2; (split; [lia|]); (split; [lia|]); (split; [reflexivity|]); (split; [exact L1|assumption]).
  Qed.

  (** [x] is the batch whose slices come from those of [u] by steps of sizes [hs]. *)
  Definition follows (hs : list (pynum (T F))) (u x : nd A) : Prop :=
    ok x /\ forall i, slice i x = fold_left (fun v h => step_of (val h) v) hs (slice i u).
  Lemma follows_cons h hs u u1 x : follows [h] u u1 -> follows hs u1 x -> follows (h :: hs) u x.
  Proof. intros [_ H2] [H3 H4]. split; [exact H3|]. intros i. rewrite H4, H2. reflexivity. Qed.

  Variable ks : consts (T F).
  Variable cfg : config (T F).
  Variable compute : nd A -> nd A -> exn + sval (T F).
  Hypothesis Hcs : forall x e, ok x -> ok e -> forall err, compute x e <> inl err.

  Lemma batch_step_loop : forall fuel nl u h (o : asobj F (nd A) W m1) w, binv (a_accept o) (a_m o) u ->
    match as_step_loop ks cfg compute fuel nl u h o w with
    | (Ret (x, h1, _), o', _) => follows [h1] u x /\ binv (a_accept o') (a_m o') x /\ a_tc o' = a_tc o /\ a_t o' = a_t o /\ a_u o' = a_u o
    | (_, o', _) => a_t o' = a_t o /\ a_u o' = a_u o
    end.
  Proof.
    induction fuel as [|fuel IH]; intros nl u h o w H; cbn [as_step_loop]; [split; reflexivity|].
    assert (G := batch_call (a_accept o) (a_m o) u (val h) w H). destruct (as_upd m1 (a_accept o) u (val h) (a_m o) w) as [[r s'] w'].
    destruct G as (x & e & -> & Hx & He & G1 & G2 & G3). destruct (compute x e) as [err|sv] eqn:Ec; [elim (Hcs x e Hx He err Ec)|].
    destruct (accepts sv) as [y|].
    - split; [split; [exact Hx|intros i; apply G1]|]. split; [exact G3|]. split; [reflexivity|split; reflexivity].
    - destruct (Nat.ltb (MAX_LOOPS ks) (S nl)); [split; reflexivity|]. destruct (tltb F (val (reject_size ks cfg sv h)) (minh cfg)); [split; reflexivity|].
      exact (IH (S nl) u (reject_size ks cfg sv h) (set_accept (set_meth o s') false) w' G2).
  Qed.
  Lemma batch_step u h (o : asobj F (nd A) W m1) w : binv (a_accept o) (a_m o) u ->
    match as_step ks cfg compute u h o w with
    | (Ret (x, h1, _), o', _) => follows [h1] u x /\ binv (a_accept o') (a_m o') x /\ a_tc o' = a_tc o /\ a_t o' = a_t o /\ a_u o' = a_u o
    | (_, o', _) => a_t o' = a_t o /\ a_u o' = a_u o
    end.
  Proof. intros H. unfold as_step. destruct (tleb F (tofZ F 0) (val h)); [apply batch_step_loop; exact H|split; reflexivity]. Qed.

  (** Snapshots taken on the way. *)
  Definition on_the_way (hs : list (pynum (T F))) (t0 : pynum (T F)) (u : nd A) (t : pynum (T F)) (x : nd A) : Prop :=
    exists j, t = fold_left (padd F) (firstn j hs) t0 /\ follows (firstn j hs) u x.
  Lemma batch_loop : forall fuel u h sd sf count (o : asobj F (nd A) W m1) w, binv (a_accept o) (a_m o) u ->
    let '(r, o', _) := as_loop ks cfg compute fuel u h sd sf count o w in
    exists hs, (forall x, r = Ret x -> follows hs u x) /\
      exists ts us, a_t o' = a_t o ++ ts /\ a_u o' = a_u o ++ us /\ Forall2 (on_the_way hs (a_tc o) u) ts us.
  Proof.
    induction fuel as [|fuel IH]; intros u h sd sf count o w H; cbn [as_loop]; destruct (tltb F (val (a_tc o)) (val (a_tf o))).
    - exists []. split; [discriminate|]. exists [], []. rewrite !app_nil_r. auto.
    - exists []. split; [intros x E; injection E as <-; split; [exact (proj1 H)|reflexivity]|]. exists [], []. rewrite !app_nil_r. auto.
    - assert (G := batch_step u h o w H). destruct (as_step ks cfg compute u h o w) as [[[[[u1 h1] h2]|e|] o1] w1].
      + destruct G as (G1 & G2 & G3 & G4 & G5). cbv zeta. cbn [a_tf a_t a_u a_accept a_m a_tc].
        assert (ST : forall (P : Prop), (exists hs, (forall x, (Exc ZeroDivisionError : out (nd A)) = Ret x -> follows hs u x) /\
                      exists ts us, a_t o1 = a_t o ++ ts /\ a_u o1 = a_u o ++ us /\ Forall2 (on_the_way hs (a_tc o) u) ts us)).
        { intros _. exists []. split; [discriminate|]. exists [], []. rewrite !app_nil_r. auto. }
        destruct (progress_raises F (count + 1) (padd F (a_tc o1) h1) (a_tf o1)); [exact (ST True)|].
        destruct (store_now sd sf (count + 1)) as [b|]; [|exact (ST True)].
        set (h' := if tltb F _ _ then _ else h2).
        destruct b.
        * specialize (IH u1 h' sd sf (count + 1)%Z (mk_asobj (a_t o1 ++ [padd F (a_tc o1) h1]) (a_u o1 ++ [u1]) (a_tf o1) (padd F (a_tc o1) h1) (a_accept o1) (a_m o1)) w1 G2).
          destruct (as_loop ks cfg compute fuel u1 h' sd sf (count + 1)%Z (mk_asobj (a_t o1 ++ [padd F (a_tc o1) h1]) (a_u o1 ++ [u1]) (a_tf o1) (padd F (a_tc o1) h1) (a_accept o1) (a_m o1)) w1) as [[r o'] w'].
          destruct IH as (hs & I1 & ts & us & I2 & I3 & I4). cbn [a_t a_u a_tc] in I2, I3, I4. exists (h1 :: hs). split; [intros x E; eapply follows_cons; [exact G1|apply I1; exact E]|].
          exists (padd F (a_tc o1) h1 :: ts), (u1 :: us). rewrite I2, I3, G4, G5, <- !app_assoc. split; [reflexivity|]. split; [reflexivity|].
          constructor; [exists 1%nat; split; [cbn; rewrite G3; reflexivity|exact G1]|].
          eapply F2_impl; [|exact I4]. intros t x (j & J1 & J2). exists (S j). cbn [firstn fold_left]. rewrite <- G3. split; [exact J1|]. eapply follows_cons; [exact G1|exact J2].
        * specialize (IH u1 h' sd sf (count + 1)%Z (mk_asobj (a_t o1) (a_u o1) (a_tf o1) (padd F (a_tc o1) h1) (a_accept o1) (a_m o1)) w1 G2).
          destruct (as_loop ks cfg compute fuel u1 h' sd sf (count + 1)%Z (mk_asobj (a_t o1) (a_u o1) (a_tf o1) (padd F (a_tc o1) h1) (a_accept o1) (a_m o1)) w1) as [[r o'] w'].
          destruct IH as (hs & I1 & ts & us & I2 & I3 & I4). cbn [a_t a_u a_tc] in I2, I3, I4. exists (h1 :: hs). split; [intros x E; eapply follows_cons; [exact G1|apply I1; exact E]|].
          exists ts, us. rewrite I2, I3, G4, G5. split; [reflexivity|]. split; [reflexivity|].
          eapply F2_impl; [|exact I4]. intros t x (j & J1 & J2). exists (S j). cbn [firstn fold_left]. rewrite <- G3. split; [exact J1|]. eapply follows_cons; [exact G1|exact J2].
      + destruct G as (G1 & G2). exists []. split; [discriminate|]. exists [], []. rewrite !app_nil_r. auto.
      + destruct G as (G1 & G2). exists []. split; [discriminate|]. exists [], []. rewrite !app_nil_r. auto.
    - exists []. split; [intros x E; injection E as <-; split; [exact (proj1 H)|reflexivity]|]. exists [], []. rewrite !app_nil_r. auto.
  Qed.

  Lemma binv_reset s1 u : ok u -> binv false (as_reset m1 s1) u.
  Proof.
    intros Hu. split; [exact Hu|]. intros i.
    assert (X : exists s2, as_lst p (pure Nb) (pure N) (sl i) (sl i) k false 0 (as_reset m1 s1) (as_reset m2 s2)).
    { clear. destruct k; cbn [as_lst as_smodel as_model as_st as_reset] in *;
        first [exists (mk_sst None false (coefs s1) (mk_mem1 (vzero A))); split; try reflexivity; exact Logic.I
              |exists (mk_sst None false (coefs s1) (mk_mem2 (vzero A) (vzero A))); split; try reflexivity; exact Logic.I
              |exists (mk_sst None false (coefs s1) (mk_mem3 (vzero A) (vzero A) (vzero A))); split; try reflexivity; exact Logic.I
              |exists (mk_sst None false (coefs s1) (mk_mem4 (vzero A) (vzero A))); split; try reflexivity; exact Logic.I]. }
    destruct X as (s2 & X). exists false, 0%nat, (as_reset m2 s2). split; [lia|]. split; [discriminate|]. split; [discriminate|]. split; [exact X|].
    apply (proj1 model_sound).
  Qed.

  Lemma batch_evolve fuel u t0 tf h sd sf (o : asobj F (nd A) W m1) w : ok u ->
    let '(r, o', _) := as_evolve ks cfg compute fuel u t0 tf h sd sf o w in
    exists hs, (forall x, r = Ret x -> follows hs u x) /\ Forall2 (on_the_way hs t0 u) (a_t o') (a_u o').
  Proof.
    intros Hu. unfold as_evolve. cbv zeta. match goal with |- context [as_loop ks cfg compute fuel u ?h0 sd sf 0 ?o2 w] => generalize h0; set (o2' := o2) end. intros h0.
    assert (B : binv (a_accept o2') (a_m o2') u) by (unfold o2'; destruct sd; apply binv_reset; exact Hu).
    assert (G := batch_loop fuel u h0 sd sf 0 o2' w B). destruct (as_loop ks cfg compute fuel u h0 sd sf 0 o2' w) as [[r o'] w'].
    destruct G as (hs & G1 & ts & us & G2 & G3 & G4). exists hs. split; [exact G1|]. rewrite G2, G3.
    assert (E : a_tc o2' = t0) by (unfold o2'; destruct sd; reflexivity). rewrite E in G4.
    unfold o2'. destruct sd; cbn [a_t a_u as_reset_obj app]; [|exact G4].
    constructor; [|exact G4]. exists 0%nat. split; [reflexivity|]. split; [exact Hu|reflexivity].
  Qed.
End Adaptive.

(** [hs] applied one after the other by new solvers, each on a vector. *)
Definition steps {F} {A : aops F} (p : problem A unit) (N : vec A -> vec A) (k : as_kind) (hs : list (pynum (T F))) (v : vec A) : vec A :=
  fold_left (fun v h => fst (as_Phi p N k (val h) v)) hs v.
(** The state after the first [j] of the accepted steps, and its time. *)
Definition after {F} {A : aops F} (shp : shape) (I : Type) (good : I -> Prop) (slice : I -> nd A -> vec A) (p : problem A unit) N k
           (hs : list (pynum (T F))) (t0 : pynum (T F)) (u : nd A) (t : pynum (T F)) (x : nd A) : Prop :=
  exists j, t = fold_left (padd F) (firstn j hs) t0 /\ sh x = shp /\
            forall i, good i -> slice i x = steps p N k (firstn j hs) (slice i u).

Theorem C88_adaptive_rows :
  forall (F : tops) (A : aops F) (p : problem A unit) Nb N (k : as_kind) s ks cfg compute fuel u t0 tf h sd sf o,
    as_diag k = true -> linalg_total p -> as_eq_ok p k -> rowwise (p_size p) s Nb N -> sh u = p_size p :: s ->
    (forall x e, sh x = p_size p :: s -> sh e = p_size p :: s -> forall err, compute x e <> inl err) ->
    let '(r, o', _) := as_evolve (m := as_smodel p (pure Nb) k) ks cfg compute fuel u t0 tf h sd sf o tt in
    exists hs,
      (forall x, r = Ret x -> sh x = p_size p :: s /\ forall b, length b = length s -> row x b = steps p N k hs (row u b)) /\
      Forall2 (after (p_size p :: s) _ (fun b => length b = length s) (fun b x => row x b) p N k hs t0 u) (a_t o') (a_u o').
Proof.
  intros F A p Nb N k s ks cfg compute fuel u t0 tf h sd sf o Hk HT HE HN Hu Hc.
  set (I := {b : list nat | length b = length s}).
  assert (i0 : I) by (exists s; reflexivity).
  assert (G := batch_evolve F A unit p Nb N k I i0 (fun x => sh x = p_size p :: s) (fun i x => row x (proj1_sig i))
    (fun i => @row_closed F A (p_size p) s (proj1_sig i) (proj2_sig i))
    (fun i => match k as k0 return as_diag k0 = true -> as_need p (row_of (p_size p) s (proj1_sig i)) (row_of (p_size p) s (proj1_sig i)) k0 with
              | IF34d | IF45DPd | ETD34d | ETD35d => fun _ => @row_mul F A (p_size p) s (proj1_sig i) (proj2_sig i)
              | _ => fun E => False_ind _ (Bool.diff_false_true E) end Hk)).
  assert (G1 := fun HN' HT' HE' => G HN' HT' HE').
  specialize (G1 (fun x Hx => conj (proj1 (HN x Hx)) (fun i => proj2 (HN x Hx) (proj1_sig i) (proj2_sig i)))).
  destruct p as [nl sz vv mm cf ex iv S Si lam]. specialize (G1 HT HE).
  assert (Hz : forall (i : I) x v, ShapeRel.err_rel (sl F A I (fun x => sh x = sz :: s) (fun i x => row x (proj1_sig i)) i) (sl F A I (fun x => sh x = sz :: s) (fun i x => row x (proj1_sig i)) i) k x v -> sh x = sz :: s)
    by (intros i x v; destruct k; try discriminate Hk; intros E; exact (proj1 E)).
  specialize (G1 Hz ks cfg compute Hc fuel u t0 tf h sd sf o tt Hu).
  destruct (as_evolve ks cfg compute fuel u t0 tf h sd sf o tt) as [[r o'] w']. destruct G1 as (hs & A1 & A2). exists hs. split.
  - intros x E. destruct (A1 x E) as [B1 B2]. split; [exact B1|]. intros b Hb. exact (B2 (exist _ b Hb)).
  - eapply F2_impl; [|exact A2]. intros t x (j & J1 & J2 & J3). exists j. split; [exact J1|]. split; [exact J2|]. intros b Hb. exact (J3 (exist _ b Hb)).
Qed.
Theorem C88_adaptive_columns :
  forall (F : tops) (A : aops F) (p : problem A unit) Nb N (k : as_kind) m ks cfg compute fuel u t0 tf h sd sf o,
    as_full k = true -> linalg_total p -> as_eq_ok p k -> colwise (p_size p) m Nb N -> sh u = [m; p_size p] ->
    (forall x e, sh x = [m; p_size p] -> sh e = [m; p_size p] -> forall err, compute x e <> inl err) ->
    let '(r, o', _) := as_evolve (m := as_smodel p (pure Nb) k) ks cfg compute fuel u t0 tf h sd sf o tt in
    exists hs,
      (forall x, r = Ret x -> sh x = [m; p_size p] /\ forall c, col x c = steps p N k hs (col u c)) /\
      Forall2 (after [m; p_size p] _ (fun _ => True) (fun c x => col x c) p N k hs t0 u) (a_t o') (a_u o').
Proof.
  intros F A p Nb N k m ks cfg compute fuel u t0 tf h sd sf o Hk HT HE HN Hu Hc.
  assert (G := batch_evolve F A unit p Nb N k nat 0%nat (fun x => sh x = [m; p_size p]) (fun c x => col x c)
    (fun c => @col_closed F A (p_size p) m c)
    (fun c => match k as k0 return as_full k0 = true -> as_need p (col_of (p_size p) m c) (col_of (p_size p) m c) k0 with
              | IF34n | ETD34n | ETD35n => fun _ => @col_dot F A (p_size p) m c
              | _ => fun E => False_ind _ (Bool.diff_false_true E) end Hk)).
  assert (G1 := fun HN' HT' HE' => G HN' HT' HE').
  specialize (G1 HN). destruct p as [nl sz vv mm cf ex iv S Si lam]. specialize (G1 HT HE).
  assert (Hz : forall (i : nat) x v, ShapeRel.err_rel (sl F A nat (fun x => sh x = [m; sz]) (fun c x => col x c) i) (sl F A nat (fun x => sh x = [m; sz]) (fun c x => col x c) i) k x v -> sh x = [m; sz])
    by (intros i x v; destruct k; try discriminate Hk; intros E; exact (proj1 E)).
  specialize (G1 Hz ks cfg compute Hc fuel u t0 tf h sd sf o tt Hu).
  destruct (as_evolve ks cfg compute fuel u t0 tf h sd sf o tt) as [[r o'] w']. destruct G1 as (hs & A1 & A2). exists hs. split.
  - intros x E. exact (A1 x E).
  - eapply F2_impl; [|exact A2]. intros t x (j & J1 & J2 & J3). exists j. split; [exact J1|]. split; [exact J2|]. intros c _. exact (J3 c).
Qed.

(** The error measure of the code raises on no non-empty array. *)
Lemma idxs_nonempty t : Forall (fun d => d <> 0%nat) t -> idxs t <> [].
Proof.
  induction 1 as [|d t Hd Ht IH]; cbn [idxs]; [discriminate|]. destruct (idxs t) as [|b l]; [congruence|]. destruct d as [|d]; [congruence|].
  cbn [flat_map seq map app]. discriminate.
Qed.
Lemma compute_s_nd_total cfg q t (x e : nd Cops) : Forall (fun d => d <> 0%nat) t -> sh x = t -> sh e = t -> forall err, compute_s_nd cfg q x e <> inl err.
Proof.
  intros Ht Hx He err. unfold compute_s_nd, flat. rewrite Hx, He. assert (X := idxs_nonempty t Ht). destruct (idxs t) as [|b l]; [congruence|].
  cbn [map]. unfold block. rewrite Nat.sub_diag. cbn [skipn]. destruct (list_eq_dec Nat.eq_dec t t); [discriminate|congruence].
Qed.
Lemma eq_ok_R (p : problem Cops unit) k : as_eq_ok p k.
Proof. intros a b E. assert (a = b) as ->; [|reflexivity]. cbn in E. unfold Reqb_ in E. destruct (Req_EM_T a b); [assumption|discriminate]. Qed.
Corollary C88_adaptive_rows_measured :
  forall (p : problem Cops unit) Nb N (k : as_kind) s ks cfg q fuel u t0 tf h sd sf o,
    as_diag k = true -> linalg_total p -> rowwise (p_size p) s Nb N -> sh u = p_size p :: s -> Forall (fun d => d <> 0%nat) (sh u) ->
    let '(r, o', _) := as_evolve (m := as_smodel p (pure Nb) k) ks cfg (compute_s_nd cfg q) fuel u t0 tf h sd sf o tt in
    exists hs,
      (forall x, r = Ret x -> sh x = p_size p :: s /\ forall b, length b = length s -> row x b = steps p N k hs (row u b)) /\
      Forall2 (after (p_size p :: s) _ (fun b => length b = length s) (fun b x => row x b) p N k hs t0 u) (a_t o') (a_u o').
Proof.
  intros p Nb N k s ks cfg q fuel u t0 tf h sd sf o Hk HT HN Hu Hp. apply C88_adaptive_rows; try assumption; [apply eq_ok_R|].
  rewrite Hu in Hp. intros x e Hx He. apply (compute_s_nd_total cfg q _ x e Hp Hx He).
Qed.
(** Non-vacuity: squaring, entry by entry. *)
Definition square_nd (x : nd Cops) : nd Cops := mk_nd (A := Cops) (sh x) (fun i => Cmult (el x i) (el x i)).
Example C88_entrywise_functions s n w : rowwise n s square_nd (fun v i => Cmult (v i) (v i)) /\ colwise n w square_nd (fun v i => Cmult (v i) (v i)).
Proof. split; intros x Hx; (split; [exact Hx|intros; reflexivity]). Qed.

(** ** With [diagonalize=True] the columns of a square batch are mixed up *)
Definition zero_nd (x : nd Cops) : nd Cops := mk_nd (A := Cops) (sh x) (fun _ => RtoC 0).
Definition zero_fn (v : vec Cops) : vec Cops := fun _ => RtoC 0.
Definition eye2 : mat Cops := fun i j => if Nat.eqb i j then RtoC 1 else RtoC 0.
(** Operator diag(0, 1), N = 0. *)
Definition diag_problem : problem Cops unit :=
  mk_problem (A := Cops) (fun _ (w : unit) => (inl ValueError, w)) 2 (fun _ => RtoC 0)
    (fun i j => if Nat.eqb i j then RtoC (INR i) else RtoC 0)
    (mk_etdcfg (F := Rops) 1%R 32 1%R) inr inr eye2 eye2 (fun i => RtoC (INR i)).
Definition ones22 : nd Cops := mk_nd (A := Cops) [2%nat; 2%nat] (fun _ => RtoC 1).
Definition entry (r : (exn + nd Cops * nd Cops) * as_st (as_smodel diag_problem (pure (W := unit) zero_nd) IF34z) * unit) (i : list nat) : C :=
  match fst (fst r) with inl _ => RtoC 0 | inr x => el (fst x) i end.
Ltac opened := lazy -[Cplus Cmult Cdiv Cminus Copp RtoC IZR INR Cexp exp cos sin Rplus Rmult Ropp Rminus Rinv Rdiv].
Lemma square_batch_entry :
  entry (as_upd (as_smodel diag_problem (pure zero_nd) IF34z) false ones22 1%R (as_snew diag_problem (pure zero_nd) IF34z) tt) [0%nat; 1%nat] = RtoC 1.
Proof.
  opened. change (INR 0) with 0%R. replace (RtoC 1 * RtoC 0)%C with (RtoC 0) by ring. rewrite Cexp_0. unfold Cdiv.
  match goal with |- ?a = ?b => change (@eq C a b) end. ring.
Qed.
Lemma single_column_entry : fst (as_Phi diag_problem zero_fn IF34z 1%R (col ones22 0)) 1%nat = Cexp (RtoC 1).
Proof.
  opened. change (INR 1) with 1%R. replace (RtoC 1 * RtoC 1)%C with (RtoC 1) by ring. unfold Cdiv.
  match goal with |- ?a = ?b => change (@eq C a b) end. ring.
Qed.
Definition C88_claim_diagonalized : Prop :=
  forall (p : problem Cops unit) Nb N (k : as_kind) u h x e s' w',
    (match k with IF34z | ETD34z | ETD35z => True | _ => False end) -> linalg_total p ->
    meq (p_size p) (mprod (p_size p) (p_S p) (p_Sinv p)) mident -> colwise (p_size p) (p_size p) Nb N -> sh u = [p_size p; p_size p] ->
    as_upd (as_smodel p (pure Nb) k) false u h (as_snew p (pure Nb) k) tt = (inr (x, e), s', w') ->
    forall c, (c < p_size p)%nat -> forall i, (i < p_size p)%nat -> col x c i = fst (as_Phi p N k h (col u c)) i.
Theorem C88_diagonalized_columns_refuted : ~ C88_claim_diagonalized.
Proof.
  intros H. assert (E := square_batch_entry).
  destruct (as_upd (as_smodel diag_problem (pure zero_nd) IF34z) false ones22 1%R (as_snew diag_problem (pure zero_nd) IF34z) tt) as [[[er|[x e]] s'] w'] eqn:EU.
  - cbn in E. assert (E1 := f_equal fst E). cbn in E1. lra.
  - specialize (H diag_problem zero_nd zero_fn IF34z ones22 1%R x e s' w' I).
    assert (H1 : linalg_total diag_problem) by (split; intros m er; discriminate).
    assert (H2 : meq 2 (mprod 2 eye2 eye2) mident).
    { intros i j Hi Hj. destruct i as [|[|i]]; [| |exfalso; lia]; (destruct j as [|[|j]]; [| |exfalso; lia]); unfold mprod, eye2, mident; cbn; ring. }
    assert (H3 : colwise 2 2 zero_nd zero_fn) by (intros y Hy; split; [exact Hy|reflexivity]).
    specialize (H H1 H2 H3 eq_refl EU 0%nat (Nat.lt_0_2) 1%nat (le_n 2)). change (el x [0%nat; 1%nat] = RtoC 1) in E.
    unfold col at 1 in H. rewrite E, single_column_entry in H. assert (E1 := f_equal fst H). cbn in E1. rewrite cos_0 in E1.
    assert (X := exp_ineq1 1 ltac:(lra)). lra.
Qed.

Print Assumptions C88_constant_step_rows.
Print Assumptions C88_constant_step_columns.
Print Assumptions C88_adaptive_rows.
Print Assumptions C88_adaptive_columns.
Print Assumptions C88_adaptive_rows_measured.
Print Assumptions C88_diagonalized_columns_refuted.
