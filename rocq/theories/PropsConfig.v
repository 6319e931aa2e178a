(** * C25, C26, C27: configuration objects *)

From Coq Require Import ZArith List Bool Lia Reals Lra.
From Flocq Require Import Core BinarySingleNaN.
From Verif Require Import Scalars Control ControlCS ControlCSReal ControlAS ControlASReal Arrays Solvers B64 B64Step PropsB64 Config.
Import ListNotations.

(** ** The documented ranges, as comparisons that must hold (rkstiff/solveras.py:36-69 and
    rkstiff/etd.py:53-63, 92, 106, 122) *)
Section Ranges.
  Variable F : tops.
  Definition s_range (p : sparam) (x : T F) : Prop :=
    match p with
    | Epsilon => tltb F (tofZ F 0) x = true
    | IncrF => tltb F (tofZ F 1) x = true
    | DecrF => tltb F x (tofZ F 1) = true
    | SafetyF => tleb F x (tofZ F 1) = true
    | AdaptCutoff => tltb F x (tofZ F 1) = true
    | Minh => tltb F (tofZ F 0) x = true
    end.
  Definition s_ok (o : sobj F) : Prop := forall p, exists x, s_get p o = Some x /\ s_range p x.
  Definition e_ok (o : eobj F) : Prop :=
    tltb F (tofZ F 0) (o_modecutoff o) = true /\ tleb F (o_modecutoff o) (tofZ F 1) = true /\
    (2 <= o_points o)%Z /\ tltb F (tofZ F 0) (o_radius o) = true.

  (** Comparisons of two numbers that are not NaN are a total order. *)
  Definition comparable : Prop :=
    (forall x y, tisnan F x = false -> tisnan F y = false -> tleb F x y = negb (tltb F y x)) /\
    (forall z, tisnan F (tofZ F z) = false) /\
    tltb F (tofZ F 0) (tofZ F 1) = true.
  Definition not_nan (v : pyval (T F)) : Prop := match v with PFloat x => tisnan F x = false | _ => True end.

  Hypothesis L : comparable.

  Lemma num_not_nan v x : not_nan v -> num_of F v = Some x -> tisnan F x = false.
  Proof.
    destruct L as (_ & L2 & _). destruct v; cbn; intros Hv H; inversion H; subst; auto.
  Qed.
  Lemma leb_neg x y : tisnan F x = false -> tisnan F y = false -> tleb F x y = false <-> tltb F y x = true.
  Proof. intros Hx Hy. destruct L as (L1 & _). rewrite L1 by assumption. apply negb_false_iff. Qed.

  (** The tests of the setters decide the ranges. *)
  Lemma refused_range p x : tisnan F x = false -> s_refused F p x = false <-> s_range p x.
  Proof.
    intros Hx. assert (N0 : forall z, tisnan F (tofZ F z) = false) by apply L.
    destruct p; cbn [s_refused s_range]; try (apply leb_neg; auto; fail).
    destruct L as (L1 & _). rewrite (L1 x (tofZ F 1)) by auto. destruct (tltb F (tofZ F 1) x); cbn; intuition congruence.
  Qed.
  Lemma get_store p q x (o : sobj F) :
    s_get q (s_store p x o) = if match p, q with
      | Epsilon, Epsilon | IncrF, IncrF | DecrF, DecrF | SafetyF, SafetyF | AdaptCutoff, AdaptCutoff | Minh, Minh => true
      | _, _ => false end then Some x else s_get q o.
  Proof. destruct p, q; reflexivity. Qed.

  Definition s_partial_ok (o : sobj F) : Prop := forall p x, s_get p o = Some x -> s_range p x.
  Lemma set_keeps p v (o : sobj F) : not_nan v -> s_partial_ok o -> s_partial_ok (snd (s_set p v o)).
  Proof.
    intros Hv Ho. unfold s_set. destruct (num_of F v) as [x|] eqn:E; [|exact Ho].
    destruct (s_refused F p x) eqn:R; [exact Ho|]. cbn [snd].
    apply refused_range in R; [|eapply num_not_nan; eassumption].
    intros q y Hq. rewrite get_store in Hq. destruct p, q; try (apply Ho in Hq; exact Hq); injection Hq as <-; exact R.
  Qed.
  Lemma set_defined p v (o : sobj F) q : (exists x, s_get q o = Some x) -> exists x, s_get q (snd (s_set p v o)) = Some x.
  Proof.
    intros [x H]. unfold s_set. destruct (num_of F v) as [y|]; [|eauto].
    destruct (s_refused F p y); [eauto|]. cbn [snd]. rewrite get_store. destruct p, q; eauto.
  Qed.
  Lemma set_ok p v (o : sobj F) : not_nan v -> s_ok o -> s_ok (snd (s_set p v o)).
  Proof.
    intros Hv Ho q. destruct (set_defined p v o q) as [x Hx]; [destruct (Ho q) as (x & Hx & _); eauto|].
    exists x. split; [exact Hx|]. apply (set_keeps p v o Hv); [|exact Hx].
    intros q' y Hy. destruct (Ho q') as (z & Hz & Hr). congruence.
  Qed.

  Lemma new_ok e i d s a m o : Forall not_nan [e; i; d; s; a; m] -> s_new e i d s a m = inr o -> s_ok o.
  Proof.
    intros Hn H. unfold s_new in H.
    inversion Hn as [|? ? N1 Hn1]; subst. inversion Hn1 as [|? ? N2 Hn2]; subst. inversion Hn2 as [|? ? N3 Hn3]; subst.
    inversion Hn3 as [|? ? N4 Hn4]; subst. inversion Hn4 as [|? ? N5 Hn5]; subst. inversion Hn5 as [|? ? N6 Hn6]; subst.
    clear Hn Hn1 Hn2 Hn3 Hn4 Hn5 Hn6.
    cbn [s_sets] in H.
    assert (St : forall p v o' l, not_nan v ->
      match (match s_set p v o' with (Some ex, o2) => (Some ex, o2) | (None, o2) => s_sets F l o2 end) with
      | (Some ex, _) => inl ex | (None, o2) => inr o2 end = inr o ->
      exists x, s_range p x /\ match s_sets F l (s_store p x o') with (Some ex, _) => inl ex | (None, o2) => inr o2 end = inr o).
    { intros p v o' l Hv H'. unfold s_set in H'. destruct (num_of F v) as [x|] eqn:E; [|discriminate].
      destruct (s_refused F p x) eqn:R; [discriminate|]. exists x. split; [|exact H'].
      apply refused_range; [eapply num_not_nan; eassumption|exact R]. }
    apply (St Epsilon e (sobj_init F) [(IncrF, i); (DecrF, d); (SafetyF, s); (AdaptCutoff, a); (Minh, m)] N1) in H.
    destruct H as (x1 & R1 & H). apply (St IncrF i _ [(DecrF, d); (SafetyF, s); (AdaptCutoff, a); (Minh, m)] N2) in H.
    destruct H as (x2 & R2 & H). apply (St DecrF d _ [(SafetyF, s); (AdaptCutoff, a); (Minh, m)] N3) in H.
    destruct H as (x3 & R3 & H). apply (St SafetyF s _ [(AdaptCutoff, a); (Minh, m)] N4) in H.
    destruct H as (x4 & R4 & H). apply (St AdaptCutoff a _ [(Minh, m)] N5) in H.
    destruct H as (x5 & R5 & H). apply (St Minh m _ [] N6) in H.
    destruct H as (x6 & R6 & H). cbn [s_sets] in H.
    injection H as <-.
    intros p; destruct p; cbn [s_get s_store sobj_init o_epsilon o_incr_f o_decr_f o_safety_f o_adapt_cutoff o_minh]; eauto.
  Qed.

  Lemma eset_ok p v o : not_nan v -> e_ok o -> e_ok (snd (e_set p v o)).
  Proof.
    intros Hv Ho. assert (N0 : forall z, tisnan F (tofZ F z) = false) by apply L.
    destruct Ho as (O1 & O2 & O3 & O4).
    destruct p; cbn [e_set].
    - destruct (num_of F v) as [x|] eqn:E; [|repeat split; assumption].
      assert (Hx := num_not_nan v x Hv E).
      destruct (tltb F (tofZ F 1) x || tleb F x (tofZ F 0)) eqn:R; [repeat split; assumption|].
      apply orb_false_iff in R. destruct R as [R1 R2]. apply leb_neg in R2; auto.
      repeat split; cbn; auto. destruct L as (L1 & _). rewrite L1 by auto. rewrite R1. reflexivity.
    - assert (G : forall z, e_ok (snd (if (z <=? 1)%Z then (Some ValueError, o) else (None, mk_eobj F (o_modecutoff o) z (o_radius o))))).
      { intros z. destruct (z <=? 1)%Z eqn:R; repeat split; cbn; auto. apply Z.leb_gt in R. lia. }
      destruct v; try apply G; repeat split; assumption.
    - destruct (num_of F v) as [x|] eqn:E; [|repeat split; assumption].
      assert (Hx := num_not_nan v x Hv E).
      destruct (tleb F x (tofZ F 0)) eqn:R; [repeat split; assumption|].
      apply leb_neg in R; auto. repeat split; cbn; auto.
  Qed.

  (** The constructor sets the three parameters in turn, so the initial values do not matter. *)
  Lemma enew_ok c n r o : Forall not_nan [c; n; r] -> e_new c n r = inr o -> e_ok o.
  Proof.
    intros Hn H. inversion Hn as [|? ? N1 Hn1]; subst. inversion Hn1 as [|? ? N2 Hn2]; subst. inversion Hn2 as [|? ? N3 Hn3]; subst.
    unfold e_new in H. cbn [e_sets] in H.
    assert (N0 : forall z, tisnan F (tofZ F z) = false) by apply L.
    cbn [e_set] in H.
    destruct (num_of F c) as [x|] eqn:Ec; [|discriminate].
    destruct (tltb F (tofZ F 1) x || tleb F x (tofZ F 0)) eqn:R; [discriminate|].
    assert (Hx := num_not_nan c x N1 Ec).
    apply orb_false_iff in R. destruct R as [R1 R2]. apply leb_neg in R2; auto.
    assert (R3 : tleb F x (tofZ F 1) = true) by (destruct L as (L1 & _); rewrite L1 by auto; rewrite R1; reflexivity).
    assert (G : exists z, (2 <= z)%Z /\
      (match num_of F r with None => (Some TypeError, mk_eobj F x z (tofZ F 1))
       | Some y => if tleb F y (tofZ F 0) then (Some ValueError, mk_eobj F x z (tofZ F 1))
                   else (None, mk_eobj F x z y) end) = (None, o)).
    { destruct n as [z|b|y|]; cbn [o_points o_radius o_modecutoff eobj_init] in H.
      - destruct (z <=? 1)%Z eqn:Z1; [discriminate|]. apply Z.leb_gt in Z1. exists z. split; [lia|].
        destruct (num_of F r); [|discriminate]. destruct (tleb F t (tofZ F 0)); [discriminate|].
        injection H as <-. reflexivity.
      - destruct b; discriminate.
      - discriminate.
      - discriminate. }
    destruct G as (z & Hz & G). destruct (num_of F r) as [y|] eqn:Er; [|discriminate].
    assert (Hy := num_not_nan r y N3 Er).
    destruct (tleb F y (tofZ F 0)) eqn:R4; [discriminate|]. apply leb_neg in R4; auto.
    injection G as <-. repeat split; cbn; auto.
  Qed.

  Definition op_not_nan (o : op F) : Prop :=
    match o with
    | NewSConf _ e i d s a m => Forall not_nan [e; i; d; s; a; m]
    | NewEConf _ c n r => Forall not_nan [c; n; r]
    | SetS _ _ _ v | SetE _ _ _ v | ViaS _ _ _ v | ViaE _ _ _ v => not_nan v
    | NewSolver _ _ _ _ => True
    end.
  Definition heap_ok (h : heap F) : Prop := Forall s_ok (h_s h) /\ Forall e_ok (h_e h).

  Lemma upd_Forall A (P : A -> Prop) l n x : Forall P l -> P x -> Forall P (upd l n x).
  Proof.
    intros H Hx. revert n. induction H as [|y l Hy H IH]; intros n; cbn; [constructor|]. destruct n; constructor; auto.
  Qed.
  Lemma set_s_ok loc p v w : not_nan v -> heap_ok (fst w) -> heap_ok (fst (set_s loc p v w)).
  Proof.
    intros Hv [H1 H2]. unfold set_s. destruct (nth_error (h_s (fst w)) loc) as [o|] eqn:E; [|split; assumption].
    split; [|exact H2]. cbn. apply upd_Forall; [exact H1|]. apply set_ok; [exact Hv|].
    eapply Forall_forall; [exact H1|]. eapply nth_error_In; exact E.
  Qed.
  Lemma set_e_ok loc p v w : not_nan v -> heap_ok (fst w) -> heap_ok (fst (set_e loc p v w)).
  Proof.
    intros Hv [H1 H2]. unfold set_e. destruct (nth_error (h_e (fst w)) loc) as [o|] eqn:E; [|split; assumption].
    split; [exact H1|]. cbn. apply upd_Forall; [exact H2|]. apply eset_ok; [exact Hv|].
    eapply Forall_forall; [exact H2|]. eapply nth_error_In; exact E.
  Qed.
  Lemma exec_ok o w : op_not_nan o -> heap_ok (fst w) -> heap_ok (fst (exec o w)).
  Proof.
    intros Hv H. destruct o; cbn [exec op_not_nan] in *.
    - destruct (s_new e i d s a m) as [x|c] eqn:E; [exact H|]. destruct H as [H1 H2]. split; [|exact H2].
      cbn. apply Forall_app. split; [exact H1|]. constructor; [|constructor]. eapply new_ok; eassumption.
    - destruct (e_new c n r) as [x|y] eqn:E; [exact H|]. destruct H as [H1 H2]. split; [exact H1|].
      cbn. apply Forall_app. split; [exact H2|]. constructor; [|constructor]. eapply enew_ok; eassumption.
    - exact H.
    - apply set_s_ok; assumption.
    - apply set_e_ok; assumption.
    - destruct (nth_error (snd w) solver) as [i|]; [|exact H]. destruct (i_s i); [|exact H]. apply set_s_ok; assumption.
    - destruct (nth_error (snd w) solver) as [i|]; [|exact H]. destruct (i_e i); [|exact H]. apply set_e_ok; assumption.
  Qed.
  Lemma run_ok l : forall w, Forall op_not_nan l -> heap_ok (fst w) -> heap_ok (fst (run l w)).
  Proof.
    induction l as [|o l IH]; intros w Hl H; [exact H|]. inversion Hl; subst.
    cbn [run fold_left]. apply IH; [assumption|]. apply exec_ok; assumption.
  Qed.
End Ranges.
Arguments s_ok {F}. Arguments e_ok {F}. Arguments s_range {F}. Arguments op_not_nan {F}. Arguments heap_ok {F}. Arguments not_nan {F}.

Lemma comparable_R : comparable Rops.
Proof.
  split; [|split].
  - intros x y _ _. cbn. unfold Rleb, Rltb. destruct (Rle_dec x y), (Rlt_dec y x); cbn; try reflexivity; lra.
  - intros z. apply tisnan_R.
  - cbn. unfold Rltb. destruct (Rlt_dec 0 1); [reflexivity|lra].
Qed.

Lemma isnan64 (x : b64) : tisnan Bops x = is_nan x.
Proof.
  unfold tisnan. change (negb (Beqb x x) = is_nan x). destruct x as [s|s| |s mm e H]; try (destruct s; reflexivity).
  - reflexivity.
  - unfold Beqb, SpecFloat.SFeqb. cbn [B2SF SpecFloat.SFcompare]. rewrite Z.compare_refl.
    destruct s; cbn; rewrite ?Pos.compare_refl; try reflexivity.
    all: try (rewrite Pos.compare_cont_refl; reflexivity).
Qed.

Lemma comparable_64 : comparable Bops.
Proof.
  split; [|split].
  - intros x y Hx Hy. rewrite isnan64 in Hx, Hy. change (Bleb x y = negb (Bltb y x)).
    unfold Bleb, Bltb, SpecFloat.SFleb, SpecFloat.SFltb.
    change (SpecFloat.SFcompare (B2SF y) (B2SF x)) with (Bcompare y x).
    change (SpecFloat.SFcompare (B2SF x) (B2SF y)) with (Bcompare x y).
    rewrite (Bcompare_swap _ _ x y).
    destruct (Bcompare x y) as [[]|] eqn:E; cbn; try reflexivity.
    exfalso. destruct x as [[]|[]| |[] ? ? ?], y as [[]|[]| |[] ? ? ?]; discriminate.
  - intros z. rewrite isnan64. unfold tofZ, Bops, b64_ofZ.
    assert (H := binary_normalize_correct 53 1024 b64_prec b64_emax mode_NE z 0 false). cbv zeta in H.
    destruct (Rlt_bool _ _) in H.
    + destruct H as (_ & H & _). destruct (binary_normalize 53 1024 b64_prec b64_emax mode_NE z 0 false); try discriminate; reflexivity.
    + destruct (binary_normalize 53 1024 b64_prec b64_emax mode_NE z 0 false); try reflexivity.
      discriminate.
  - vm_compute. reflexivity.
Qed.

(** ** C25 *)

(** Whatever sequence of constructor calls and assignments (through a configuration object or
    through a solver) is executed, with whatever arguments that are not NaN, every configuration
    object that exists holds values in the documented ranges. *)
Theorem C25_reachable_configs_in_range :
  forall (F : tops), comparable F ->
  forall (d : sobj F) (e : eobj F) l, s_ok d -> e_ok e -> Forall op_not_nan l ->
  heap_ok (fst (run l (heap0 F d e, []))).
Proof.
  intros F L d e l Hd He Hl. apply run_ok; [exact L|exact Hl|].
  split; cbn; repeat (apply Forall_cons; [assumption|]); apply Forall_nil.
Qed.

Theorem C25_rejected_assignment_changes_nothing :
  forall (F : tops) p v (o o' : sobj F) ex, s_set p v o = (Some ex, o') ->
  o' = o /\ (ex = TypeError /\ v = POther \/ ex = ValueError).
Proof.
  intros F p v o o' ex H. unfold s_set in H. destruct v; cbn [num_of] in H;
  try (destruct (s_refused F p _) in H; inversion H; auto).
  inversion H; auto.
Qed.
Theorem C25_rejected_etd_assignment_changes_nothing :
  forall (F : tops) p v (o o' : eobj F) ex, e_set p v o = (Some ex, o') -> o' = o.
Proof.
  intros F p v o o' ex H. destruct p, v; cbn [e_set num_of] in H;
  repeat match type of H with context [if ?b then _ else _] => destruct b end; inversion H; reflexivity.
Qed.
(** An assignment is accepted exactly when the value is a number in range; it is then the new
    value of that parameter and of no other. *)
Theorem C25_accepted_iff_in_range :
  forall (F : tops), comparable F -> forall p v (o : sobj F), not_nan v ->
  (fst (s_set p v o) = None <-> exists x, num_of F v = Some x /\ s_range p x) /\
  (fst (s_set p v o) = None -> exists x, num_of F v = Some x /\ s_get p (snd (s_set p v o)) = Some x /\
     forall q, q <> p -> s_get q (snd (s_set p v o)) = s_get q o).
Proof.
  intros F L p v o Hv. unfold s_set. destruct (num_of F v) as [x|] eqn:E.
  2:{ cbn. split; [split; [discriminate|intros (x & H & _); discriminate]|discriminate]. }
  assert (Hx := num_not_nan F L v x Hv E).
  split.
  - destruct (s_refused F p x) eqn:R; cbn [fst].
    + split; [discriminate|]. intros (y & Hy & Hr). injection Hy as <-. apply refused_range in Hr; [congruence|exact L|exact Hx].
    + split; [|reflexivity]. intros _. exists x. split; [reflexivity|]. apply refused_range; assumption.
  - destruct (s_refused F p x); [discriminate|]. intros _. exists x. cbn [snd].
    split; [reflexivity|]. split; [rewrite get_store; destruct p; reflexivity|].
    intros q Hq. rewrite get_store. destruct p, q; congruence || reflexivity.
Qed.

(** The ranges are the ones assumed by the other theorems: over the reals [valid_config], and in
    binary64 [valid64] for finite values. *)
Theorem C25_gives_valid_config :
  forall (o : sobj Rops) c, s_ok o -> config_of Rops o = Some c -> valid_config c.
Proof.
  intros o c Ho H. unfold config_of in H.
  destruct (Ho Epsilon) as (e & E1 & R1). destruct (Ho IncrF) as (i & E2 & R2). destruct (Ho DecrF) as (d & E3 & R3).
  destruct (Ho SafetyF) as (s & E4 & R4). destruct (Ho AdaptCutoff) as (a & E5 & R5). destruct (Ho Minh) as (mi & E6 & R6).
  cbn [s_get s_range] in *. rewrite E1, E2, E3, E4, E5, E6 in H. injection H as <-.
  unfold valid_config. cbn [epsilon incr_f decr_f safety_f adapt_cutoff minh].
  apply Rltb_true in R1, R2, R3, R5, R6. apply Rleb_true in R4. auto 10.
Qed.
Theorem C25_gives_valid64 :
  forall (o : sobj Bops) c, s_ok o -> config_of Bops o = Some c ->
  is_finite (incr_f c : b64) = true -> is_finite (decr_f c : b64) = true -> is_finite (minh c : b64) = true -> valid64 c.
Proof.
  intros o c Ho H. unfold config_of in H.
  destruct (Ho Epsilon) as (e & E1 & R1). destruct (Ho IncrF) as (i & E2 & R2). destruct (Ho DecrF) as (d & E3 & R3).
  destruct (Ho SafetyF) as (s & E4 & R4). destruct (Ho AdaptCutoff) as (a & E5 & R5). destruct (Ho Minh) as (mi & E6 & R6).
  cbn [s_get s_range] in *. rewrite E1, E2, E3, E4, E5, E6 in H. injection H as <-.
  cbn [incr_f decr_f minh]. intros F1 F2 F3. unfold valid64. cbn [incr_f decr_f minh].
  change (Bltb (b64_ofZ 1) i = true) in R2. change (Bltb d (b64_ofZ 1) = true) in R3. change (Bltb (b64_ofZ 0) mi = true) in R6.
  apply ltb_R in R2; [|reflexivity|exact F1]. apply ltb_R in R3; [|exact F2|reflexivity]. apply ltb_R in R6; [|reflexivity|exact F3].
  rewrite B2R_1 in R2, R3. change (B2R (b64_ofZ 0)) with 0%R in R6. auto 10.
Qed.

(** The two arithmetics, and the default objects. *)
Definition default_sobj : sobj Bops :=
  mk_sobj Bops (Some (dec 1 10000)) (Some (dec 125 100)) (Some (dec 85 100)) (Some (dec 8 10)) (Some (dec 1 100)) (Some (dec 1 10000000000000000)).
Definition pf (x : b64) : pyval (T Bops) := PFloat (A := T Bops) x.
Lemma default_new :
  s_new (F := Bops) (pf (dec 1 10000)) (pf (dec 125 100)) (pf (dec 85 100)) (pf (dec 8 10)) (pf (dec 1 100)) (pf (dec 1 10000000000000000))
  = inr default_sobj.
Proof.
  unfold s_new. cbn [s_sets]. unfold s_set at 1. cbn [num_of pf].
  replace (s_refused Bops Epsilon (dec 1 10000)) with false by (vm_compute; reflexivity).
  unfold s_set at 1. cbn [num_of pf].
  replace (s_refused Bops IncrF (dec 125 100)) with false by (vm_compute; reflexivity).
  unfold s_set at 1. cbn [num_of pf].
  replace (s_refused Bops DecrF (dec 85 100)) with false by (vm_compute; reflexivity).
  unfold s_set at 1. cbn [num_of pf].
  replace (s_refused Bops SafetyF (dec 8 10)) with false by (vm_compute; reflexivity).
  unfold s_set at 1. cbn [num_of pf].
  replace (s_refused Bops AdaptCutoff (dec 1 100)) with false by (vm_compute; reflexivity).
  unfold s_set at 1. cbn [num_of pf].
  replace (s_refused Bops Minh (dec 1 10000000000000000)) with false by (vm_compute; reflexivity).
  reflexivity.
Qed.
Definition default_eobj : eobj Bops := mk_eobj Bops (dec 1 100) 32 (b64_ofZ 1).
Example C25_not_vacuous :
  comparable Bops /\ comparable Rops /\ s_ok default_sobj /\ e_ok default_eobj /\
  Forall op_not_nan [NewSConf Bops (PInt 1) (PInt 2) (PInt 0) (PBool true) (PInt 0) (PInt 1); NewSolver Bops IF34 (Some 4) None;
                     ViaS Bops 0 Minh (PInt (-3)); SetE Bops 2 ContourPoints (PInt 64)].
Proof.
  split; [exact comparable_64|]. split; [exact comparable_R|].
  split; [intros []; eexists; (split; [reflexivity|]); vm_compute; reflexivity|].
  split; [repeat split; vm_compute; congruence|].
  repeat constructor.
Qed.

(** ** C26: NaN is not rejected *)
Theorem C26_nan_accepted_refuted :
  (forall p (o : sobj Bops), s_set p (pf B754_nan) o = (None, s_store (F := Bops) p B754_nan o)) /\
  (forall (o : eobj Bops), e_set ModeCutoff (pf B754_nan) o = (None, mk_eobj Bops B754_nan (o_points o) (o_radius o))) /\
  (forall (o : eobj Bops), e_set ContourRadius (pf B754_nan) o = (None, mk_eobj Bops (o_modecutoff o) (o_points o) B754_nan)).
Proof. split; [|split; reflexivity]. intros [] o; reflexivity. Qed.
Theorem C26_nan_contour_points_is_a_type_error :
  forall (o : eobj Bops) x, e_set ContourPoints (pf x) o = (Some TypeError, o).
Proof. reflexivity. Qed.
(** Consequences. With [minh = nan] the size check never fires: [MinimumStepReached] is not
    raised by the step loop, whatever the scheme. *)
Theorem C26_nan_minh_disables_the_check :
  forall (U W : Type) (m : asm (T Bops) U W) k (cfg : config (T Bops)) compute_s u h (o : asobj Bops U W m) w o' w',
  minh cfg = B754_nan ->
  (forall acc v x s w1 s' w2, as_upd m acc v x s w1 <> (inl MinimumStepReached, s', w2)) ->
  (forall a b, compute_s a b <> inl MinimumStepReached) ->
  as_step k cfg compute_s u h o w <> (Exc MinimumStepReached, o', w').
Proof.
  intros U W m k cfg cs u h o w o' w' Hm H1 H2 H. apply as_step_trace in H.
  destruct H as [(_ & H & _)|(_ & n & hs & sts & ws & _ & _ & _ & _ & _ & _ & _ & He)]; [discriminate|].
  cbn [as_step_ending] in He. destruct He as [[He _]|[(un & er & _ & He & _)|(h' & _ & _ & [[He _]|(_ & _ & He)])]].
  - eapply H1; exact He.
  - eapply H2; exact He.
  - discriminate.
  - rewrite Hm in He. change (Bltb (val h') B754_nan = true) in He. rewrite nan_ltb_r in He. discriminate.
Qed.
(** With [decr_f = nan] the step size after a rejection is NaN; with [incr_f = nan] it never
    grows. *)
Lemma npmin_nan (x : b64) : npmin Bops x B754_nan = B754_nan.
Proof.
  unfold npmin. rewrite !isnan64. change (is_nan (B754_nan : b64)) with true.
  destruct x; cbn; reflexivity.
Qed.
Theorem C26_nan_factors :
  forall (k : consts (T Bops)) (cfg : config (T Bops)) x (h : pynum (T Bops)),
  (decr_f cfg = B754_nan -> val (reject_size k cfg (SFin x) h) = B754_nan) /\
  (incr_f cfg = B754_nan -> accept_size k cfg x h = h).
Proof.
  intros k cfg x h. split; intros E.
  - cbn [reject_size val]. rewrite E, npmin_nan. change (b64_mult B754_nan (val h) = B754_nan).
    destruct (val h); reflexivity.
  - unfold accept_size. rewrite E. change (tltb Bops B754_nan) with (@Bltb 53 1024 B754_nan). rewrite nan_ltb_l. reflexivity.
Qed.
Example C26_not_vacuous : minh (mk_config (A := T Bops) (dec 1 10000) B754_nan B754_nan (dec 8 10) (dec 1 100) B754_nan) = B754_nan /\
  (forall acc v x s w1 s' w2, as_upd count_as acc v x s w1 <> (inl MinimumStepReached, s', w2)) /\
  (forall a b, factor_one a b <> inl MinimumStepReached).
Proof. repeat split; intros; cbn; discriminate. Qed.

(** ** C27: shared default configuration objects *)

(** Two solvers created without a [config] argument share it: after
    [s0 = IF34(...); s1 = IF34(...); s0.config.minh = 10] the step of [s1] that used to end with
    [MaxLoopsExceeded] ends with [MinimumStepReached]. Same for [etd_config]: [s1] uses as many
    contour points as were assigned to [s0]. *)
Definition factor_half (u err : nat) : exn + sval (T Bops) := inr (SFin (A := T Bops) (dec 1 2)).
Definition outcome (c : option (config (T Bops))) : option exn :=
  match c with
  | Some cfg => match as_step (m := count_as) consts64 cfg factor_half 0 (flt (b64_ofZ 1)) count_as_obj tt with
                | (Exc e, _, _) => Some e | _ => None end
  | None => None
  end.
Definition conf_of_solver (w : world Bops) (i : nat) : option (config (T Bops)) :=
  match reads_s w i with Some o => config_of Bops o | None => None end.

Theorem C27_shared_default_config_refuted :
  forall c, In c [IF34; IF45DP; ETD34; ETD35] ->
  let w := run [NewSolver Bops c None None; NewSolver Bops c None None] (heap0 Bops default_sobj default_eobj, []) in
  let w' := exec (ViaS Bops 0 Minh (PInt 10)) w in
  outcome (conf_of_solver w 1) = Some MaxLoopsExceeded /\ outcome (conf_of_solver w' 1) = Some MinimumStepReached.
Proof.
  intros c Hc. cbn zeta.
  assert (E : outcome (config_of Bops default_sobj) = Some MaxLoopsExceeded) by (vm_compute; reflexivity).
  assert (E' : outcome (config_of Bops (s_store Minh (tofZ Bops 10) default_sobj)) = Some MinimumStepReached) by (vm_compute; reflexivity).
  assert (R : s_set Minh (PInt 10) default_sobj = (None, s_store Minh (tofZ Bops 10) default_sobj)).
  { unfold s_set. cbn [num_of]. replace (s_refused Bops Minh (tofZ Bops 10)) with false by (vm_compute; reflexivity). reflexivity. }
  unfold conf_of_solver.
  repeat destruct Hc as [<-|Hc]; try destruct Hc; (split; [exact E|]);
  cbn [run fold_left exec heap0 snd app nth_error i_s resolve default_s set_s fst h_s reads_s]; rewrite R; exact E'.
Qed.
Theorem C27_shared_default_etd_config_refuted :
  forall c, In c [ETD4; ETD5; ETD34; ETD35] -> forall n, (2 <= n)%Z ->
  let w := run [NewSolver Bops c None None; NewSolver Bops c None None] (heap0 Bops default_sobj default_eobj, []) in
  let w' := exec (ViaE Bops 0 ContourPoints (PInt n)) w in
  option_map (fun e => contour_points (etdcfg_of Bops e)) (reads_e w 1) = Some 32 /\
  option_map (fun e => contour_points (etdcfg_of Bops e)) (reads_e w' 1) = Some (Z.to_nat n).
Proof.
  intros c Hc n Hn. assert (E : (n <=? 1)%Z = false) by (apply Z.leb_gt; lia).
  repeat destruct Hc as [<-|Hc]; try destruct Hc; (split; [reflexivity|]);
  cbn [run fold_left exec heap0 snd app nth_error i_e resolve default_e set_e fst h_e e_set reads_e];
  rewrite E; reflexivity.
Qed.

(** What is guaranteed: an operation changes only the object it names (directly or as the
    configuration of the named solver). *)
Definition touches_s {F} (o : op F) (w : world F) (loc : nat) : Prop :=
  match o with
  | SetS _ l _ _ => l = loc
  | ViaS _ i _ _ => match nth_error (snd w) i with Some s => i_s s = Some loc | None => False end
  | _ => False
  end.
Definition touches_e {F} (o : op F) (w : world F) (loc : nat) : Prop :=
  match o with
  | SetE _ l _ _ => l = loc
  | ViaE _ i _ _ => match nth_error (snd w) i with Some s => i_e s = Some loc | None => False end
  | _ => False
  end.

Lemma nth_upd_other A (l : list A) n k x : n <> k -> nth_error (upd l n x) k = nth_error l k.
Proof.
  revert n k. induction l as [|y l IH]; intros n k H; cbn; [reflexivity|].
  destruct n, k; cbn; try congruence; try reflexivity. apply IH. congruence.
Qed.
Lemma nth_app_left A (l r : list A) k y : nth_error l k = Some y -> nth_error (l ++ r) k = Some y.
Proof. intros H. rewrite nth_error_app1; [exact H|]. apply nth_error_Some. congruence. Qed.

Lemma exec_frame_s F (o : op F) w loc c : nth_error (h_s (fst w)) loc = Some c -> ~ touches_s o w loc ->
  nth_error (h_s (fst (exec o w))) loc = Some c.
Proof.
  intros H Ht. destruct o; cbn [exec touches_s] in *.
  - destruct (s_new e i d s a m); [exact H|]. cbn. apply nth_app_left. exact H.
  - destruct (e_new c0 n r); exact H.
  - exact H.
  - unfold set_s. destruct (nth_error (h_s (fst w)) loc0) eqn:E; [|exact H]. cbn. rewrite nth_upd_other by exact Ht. exact H.
  - unfold set_e. destruct (nth_error (h_e (fst w)) loc0) eqn:E; exact H.
  - destruct (nth_error (snd w) solver) as [i|]; [|exact H]. destruct (i_s i) as [l|] eqn:El; [|exact H].
    unfold set_s. destruct (nth_error (h_s (fst w)) l) eqn:E; [|exact H]. cbn. rewrite nth_upd_other by congruence. exact H.
  - destruct (nth_error (snd w) solver) as [i|]; [|exact H]. destruct (i_e i) as [l|] eqn:El; [|exact H].
    unfold set_e. destruct (nth_error (h_e (fst w)) l) eqn:E; exact H.
Qed.
Lemma exec_frame_e F (o : op F) w loc c : nth_error (h_e (fst w)) loc = Some c -> ~ touches_e o w loc ->
  nth_error (h_e (fst (exec o w))) loc = Some c.
Proof.
  intros H Ht. destruct o; cbn [exec touches_e] in *.
  - destruct (s_new e i d s a m); exact H.
  - destruct (e_new c0 n r); [exact H|]. cbn. apply nth_app_left. exact H.
  - exact H.
  - unfold set_s. destruct (nth_error (h_s (fst w)) loc0) eqn:E; exact H.
  - unfold set_e. destruct (nth_error (h_e (fst w)) loc0) eqn:E; [|exact H]. cbn. rewrite nth_upd_other by exact Ht. exact H.
  - destruct (nth_error (snd w) solver) as [i|]; [|exact H]. destruct (i_s i) as [l|] eqn:El; [|exact H].
    unfold set_s. destruct (nth_error (h_s (fst w)) l) eqn:E; exact H.
  - destruct (nth_error (snd w) solver) as [i|]; [|exact H]. destruct (i_e i) as [l|] eqn:El; [|exact H].
    unfold set_e. destruct (nth_error (h_e (fst w)) l) eqn:E; [|exact H]. cbn. rewrite nth_upd_other by congruence. exact H.
Qed.
Lemma exec_inst F (o : op F) w k i : nth_error (snd w) k = Some i -> nth_error (snd (exec o w)) k = Some i.
Proof.
  intros H. destruct o; cbn [exec]; try exact H.
  - destruct (s_new e i0 d s a m); exact H.
  - destruct (e_new c n r); exact H.
  - cbn. apply nth_app_left. exact H.
  - unfold set_s. destruct (nth_error _ loc); exact H.
  - unfold set_e. destruct (nth_error _ loc); exact H.
  - destruct (nth_error (snd w) solver) as [j|]; [|exact H]. destruct (i_s j); [|exact H]. unfold set_s. destruct (nth_error _ n); exact H.
  - destruct (nth_error (snd w) solver) as [j|]; [|exact H]. destruct (i_e j); [|exact H]. unfold set_e. destruct (nth_error _ n); exact H.
Qed.

(** No operation of the sequence touches location [loc]. *)
Fixpoint leaves_s {F} (l : list (op F)) (w : world F) (loc : nat) : Prop :=
  match l with [] => True | o :: l' => ~ touches_s o w loc /\ leaves_s l' (exec o w) loc end.
Fixpoint leaves_e {F} (l : list (op F)) (w : world F) (loc : nat) : Prop :=
  match l with [] => True | o :: l' => ~ touches_e o w loc /\ leaves_e l' (exec o w) loc end.

(** A solver keeps its configuration through any sequence of operations (constructions included)
    that do not name its configuration objects. *)
Theorem C27_configuration_changes_only_when_named :
  forall F l (w : world F) k i cs,
  nth_error (snd w) k = Some i -> reads_s w k = Some cs ->
  (forall loc, i_s i = Some loc -> leaves_s l w loc) ->
  reads_s (run l w) k = Some cs.
Proof.
  intros F. induction l as [|o l IH]; intros w k i cs Hi Hr Hl; [exact Hr|].
  cbn [run fold_left]. apply (IH _ _ i); [apply exec_inst; exact Hi| |].
  - unfold reads_s in *. rewrite (exec_inst _ _ _ _ _ Hi). rewrite Hi in Hr.
    destruct (i_s i) as [loc|]; [|discriminate]. apply exec_frame_s; [exact Hr|]. apply Hl. reflexivity.
  - intros loc E. apply Hl in E. apply E.
Qed.
Theorem C27_etd_configuration_changes_only_when_named :
  forall F l (w : world F) k i cs,
  nth_error (snd w) k = Some i -> reads_e w k = Some cs ->
  (forall loc, i_e i = Some loc -> leaves_e l w loc) ->
  reads_e (run l w) k = Some cs.
Proof.
  intros F. induction l as [|o l IH]; intros w k i cs Hi Hr Hl; [exact Hr|].
  cbn [run fold_left]. apply (IH _ _ i); [apply exec_inst; exact Hi| |].
  - unfold reads_e in *. rewrite (exec_inst _ _ _ _ _ Hi). rewrite Hi in Hr.
    destruct (i_e i) as [loc|]; [|discriminate]. apply exec_frame_e; [exact Hr|]. apply Hl. reflexivity.
  - intros loc E. apply Hl in E. apply E.
Qed.
(** Default-constructed solvers of different classes do not share. *)
Theorem C27_classes_do_not_share_defaults :
  forall F (w : world F) c1 c2 p v q x cs1 ce1,
  c1 <> c2 ->
  let w2 := run [NewSolver F c1 None None; NewSolver F c2 None None] w in
  let n := length (snd w) in
  reads_s w2 n = Some cs1 -> reads_e w2 n = Some ce1 ->
  let w3 := run [ViaS F (S n) p v; ViaE F (S n) q x] w2 in
  reads_s w3 n = Some cs1 /\ reads_e w3 n = Some ce1.
Proof.
  intros F w c1 c2 p v q x cs1 ce1 Hc w2 n Hs He w3.
  assert (I1 : nth_error (snd w2) n = Some (mk_inst c1 (resolve None (default_s c1)) (resolve None (default_e c1)))).
  { unfold w2. cbn [run fold_left exec snd fst]. rewrite <- app_assoc. rewrite nth_error_app2 by (unfold n; lia). replace (n - length (snd w)) with 0 by (unfold n; lia). reflexivity. }
  assert (I2 : nth_error (snd w2) (S n) = Some (mk_inst c2 (resolve None (default_s c2)) (resolve None (default_e c2)))).
  { unfold w2. cbn [run fold_left exec snd fst]. rewrite <- app_assoc. rewrite nth_error_app2 by (unfold n; lia). replace (S n - length (snd w)) with 1 by (unfold n; lia). reflexivity. }
  split.
  - eapply C27_configuration_changes_only_when_named; [exact I1|exact Hs|].
    cbn [i_s]. intros loc E. cbn [leaves_s touches_s]. rewrite I2. cbn [i_s].
    split; [|split; auto]. destruct c1, c2; cbn in *; congruence.
  - eapply C27_etd_configuration_changes_only_when_named; [exact I1|exact He|].
    cbn [i_e]. intros loc E. cbn [leaves_e touches_e]. split; [auto|]. split; [|exact I].
    rewrite (exec_inst _ _ _ _ _ I2). cbn [i_e]. destruct c1, c2; cbn in *; congruence.
Qed.
Example C27_not_vacuous :
  let w := (heap0 Bops default_sobj default_eobj, []) in
  let w2 := run [NewSolver Bops ETD34 None None; NewSolver Bops ETD35 None None] w in
  reads_s w2 0 = Some default_sobj /\ reads_e w2 0 = Some default_eobj /\
  leaves_s [ViaS Bops 1 Minh (PInt 10); SetS Bops 0 Minh (PInt 3)] w2 2.
Proof. split; [reflexivity|]. split; [reflexivity|]. cbn. repeat split; congruence. Qed.

Print Assumptions C25_reachable_configs_in_range.
Print Assumptions C25_gives_valid64.
Print Assumptions C26_nan_accepted_refuted.
Print Assumptions C27_shared_default_config_refuted.
Print Assumptions C27_configuration_changes_only_when_named.
