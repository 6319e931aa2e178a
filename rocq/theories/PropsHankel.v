(** * Hankel transform: setters (C58, C67) and algebra (C59) *)

From Coq Require Import ZArith List Bool Reals Lra Lia Psatz.
From Verif Require Import Scalars Config Grids SpecPoly PropsCheb Hankel.
Import ListNotations.
Local Open Scope R_scope.

(** ** Setters *)
Section Setters.
  Variable F : tops.
  Variables j0 j1 : T F -> T F.
  Variable jn_zeros : pyval (T F) -> exn + list (T F).
  Notation init := (hankel_init F j0 j1 jn_zeros).
  Notation apply := (happly F j0 j1 jn_zeros).
  Notation run := (hrun F j0 j1 jn_zeros).

  (** Every library call for an admissible size succeeds. *)
  Definition lib_ok : Prop := forall z, (4 <= z)%Z -> exists b l, jn_zeros (PInt (z + 1)) = inr (b :: l).

  Definition fresh (o : hankel F) : Prop := init (h_nr F o) (h_rmax F o) = inr o.

  Lemma init_eq nr rmax o : init nr rmax = inr o -> h_nr F o = nr /\ h_rmax F o = rmax /\
    exists r kr bz jN, construct_r_kr_hankel F jn_zeros nr rmax = inr (r, kr, bz, jN) /\ o = mk_hankel F nr rmax r kr bz jN (hankel_matrix F j0 j1 bz jN).
  Proof.
    unfold hankel_init, setnr_setrmax. destruct (construct_r_kr_hankel F jn_zeros nr rmax) as [e|[[[r kr] bz] jN]]; [discriminate|].
    intros H. injection H as <-. repeat split. now exists r, kr, bz, jN.
  Qed.
  Lemma construct_ok nr rmax q : construct_r_kr_hankel F jn_zeros nr rmax = inr q ->
    below4 F nr = Some false /\ nonpos F rmax = Some false /\ exists b l, jn_zeros (plus_one F nr) = inr (b :: l).
  Proof.
    unfold construct_r_kr_hankel. destruct (below4 F nr) as [[|]|]; try discriminate.
    destruct (nonpos F rmax) as [[|]|]; try discriminate.
    destruct (jn_zeros (plus_one F nr)) as [e|[|b l]] eqn:E; try discriminate. eauto.
  Qed.
  Lemma construct_eq nr rmax b l : below4 F nr = Some false -> nonpos F rmax = Some false -> jn_zeros (plus_one F nr) = inr (b :: l) ->
    exists q, construct_r_kr_hankel F jn_zeros nr rmax = inr q.
  Proof. intros A B E. unfold construct_r_kr_hankel. rewrite A, B, E. eauto. Qed.
  Lemma set_ok o nr rmax q : construct_r_kr_hankel F jn_zeros nr rmax = inr q ->
    exists o', setnr_setrmax F j0 j1 jn_zeros o nr rmax = (None, o') /\ init nr rmax = inr o'.
  Proof.
    intros E. unfold hankel_init, setnr_setrmax. rewrite E. destruct q as [[[r kr] bz] jN]. eauto.
  Qed.

  (** What each assignment does to an object that is as freshly constructed. *)
  Lemma apply_spec o p : lib_ok -> fresh o ->
    match apply o p with
    | (Some _, o') => o' = o
    | (None, o') => fresh o' /\ match p with
                                | SetNr v => h_nr F o' = v /\ h_rmax F o' = h_rmax F o
                                | SetRmax v => h_nr F o' = h_nr F o /\ h_rmax F o' = v
                                end
    end.
  Proof.
    intros L H. destruct (init_eq _ _ _ H) as (_ & _ & r & kr & bz & jN & E & _). destruct (construct_ok _ _ _ E) as (A & B & b & l & J).
    assert (G : forall nr rmax, (exists q, construct_r_kr_hankel F jn_zeros nr rmax = inr q) ->
      exists o', setnr_setrmax F j0 j1 jn_zeros o nr rmax = (None, o') /\ fresh o' /\ h_nr F o' = nr /\ h_rmax F o' = rmax).
    { intros nr rmax [q Q]. destruct (set_ok o nr rmax q Q) as [o' [S1 S2]]. exists o'. split; [exact S1|].
      destruct (init_eq _ _ _ S2) as (X & Y & _). split; [|tauto]. red. now rewrite X, Y. }
    destruct p as [v|v]; cbn [happly].
    - unfold set_nr. destruct v as [z| | |]; try reflexivity. destruct (Z.ltb_spec z 4); [reflexivity|].
      destruct (L z ltac:(lia)) as [b' [l' J']].
      destruct (G (PInt z) (h_rmax F o)) as (o' & -> & K); [|tauto].
      apply (construct_eq _ _ b' l'); [|exact B|exact J']. cbn. f_equal. apply Z.ltb_ge. lia.
    - unfold set_rmax. destruct (nonpos F v) as [[|]|] eqn:N; try reflexivity.
      destruct (G (h_nr F o) v) as (o' & -> & K); [|tauto]. exact (construct_eq _ _ b l A N J).
  Qed.

  (** C58: whatever was assigned, and whether or not it was refused, the object is the one a new
      construction with its current parameters would give. *)
  Theorem C58_equals_fresh_construction nr rmax o ps : lib_ok -> init nr rmax = inr o ->
    init (h_nr F (run o ps)) (h_rmax F (run o ps)) = inr (run o ps).
  Proof.
    intros L H. assert (Fr : fresh o). { destruct (init_eq _ _ _ H) as (A & B & _). red. now rewrite A, B. }
    clear H. revert o Fr. induction ps as [|p ps IH]; intros o Fr; [exact Fr|]. cbn. apply IH.
    pose proof (apply_spec o p L Fr) as S. destruct (apply o p) as [[e|] o']; cbn; [now subst|tauto].
  Qed.
  (** A refused assignment changes nothing; an accepted one changes the parameter it names. *)
  Theorem C58_assignment nr rmax o ps p : lib_ok -> init nr rmax = inr o ->
    let o1 := run o ps in
    match apply o1 p with
    | (Some _, o2) => o2 = o1
    | (None, o2) => match p with
                    | SetNr v => h_nr F o2 = v /\ h_rmax F o2 = h_rmax F o1
                    | SetRmax v => h_nr F o2 = h_nr F o1 /\ h_rmax F o2 = v
                    end
    end.
  Proof.
    intros L H o1. pose proof (apply_spec o1 p L (C58_equals_fresh_construction nr rmax o ps L H)) as S.
    destruct (apply o1 p) as [[e|] o2]; tauto.
  Qed.
  (** Which assignments are refused, and how. *)
  Theorem C58_accepted_iff nr rmax o ps p : lib_ok -> init nr rmax = inr o ->
    fst (apply (run o ps) p) =
    match p with
    | SetNr (PInt z) => if (z <? 4)%Z then Some ValueError else None
    | SetNr _ => Some ValueError
    | SetRmax (PInt z) => if (z <=? 0)%Z then Some ValueError else None
    | SetRmax (PBool b) => if b then None else Some ValueError
    | SetRmax (PFloat x) => if tleb F x (tofZ F 0) then Some ValueError else None
    | SetRmax POther => Some TypeError
    end.
  Proof.
    intros L H. pose proof (C58_equals_fresh_construction nr rmax o ps L H) as Fr. set (o1 := run o ps) in *. clearbody o1. clear o H.
    destruct (init_eq _ _ _ Fr) as (_ & _ & r & kr & bz & jN & E & _). destruct (construct_ok _ _ _ E) as (A & B & b & l & J).
    destruct p as [v|v]; cbn [happly].
    - unfold set_nr. destruct v as [z| | |]; try reflexivity. destruct (Z.ltb_spec z 4); [reflexivity|].
      destruct (L z ltac:(lia)) as [b' [l' J']].
      destruct (construct_eq (PInt z) (h_rmax F o1) b' l') as [q Q]; [cbn; f_equal; apply Z.ltb_ge; lia|exact B|exact J'|].
      destruct (set_ok o1 _ _ q Q) as [o' [-> _]]. reflexivity.
    - unfold set_rmax. assert (G : nonpos F v = Some false -> fst (setnr_setrmax F j0 j1 jn_zeros o1 (h_nr F o1) v) = None).
      { intros N. destruct (construct_eq (h_nr F o1) v b l A N J) as [q Q]. destruct (set_ok o1 _ _ q Q) as [o' [-> _]]. reflexivity. }
      destruct v as [z|c|x|]; cbn [nonpos] in *; [destruct (z <=? 0)%Z|destruct c|destruct (tleb F x (tofZ F 0))|]; auto.
  Qed.

  (** C67 fails: the parameters are stored before the library call that can fail. After a failed
      assignment to [nr] the attribute [nr] has the new value while all arrays belong to the old one;
      from then on every assignment to [rmax] fails too, but still changes the factor by which [ht]
      and [iht] scale. *)
  Theorem C67_failed_call_refuted o z e v : (4 <= z)%Z -> jn_zeros (PInt (z + 1)) = inl e ->
    nonpos F (h_rmax F o) = Some false -> nonpos F v = Some false ->
    let o1 := snd (apply o (SetNr F (PInt z))) in
    let o2 := snd (apply o1 (SetRmax F v)) in
    fst (apply o (SetNr F (PInt z))) = Some e /\ fst (apply o1 (SetRmax F v)) = Some e /\
    o1 = mk_hankel F (PInt z) (h_rmax F o) (h_r F o) (h_kr F o) (h_zeros F o) (h_jN F o) (h_Y F o) /\
    o2 = mk_hankel F (PInt z) v (h_r F o) (h_kr F o) (h_zeros F o) (h_jN F o) (h_Y F o) /\
    scalefactor F o2 = tdiv F (tmul F (hnum F v) (hnum F v)) (h_jN F o).
  Proof.
    intros Hz E B N o1 o2. assert (L : (z <? 4)%Z = false) by (apply Z.ltb_ge; lia).
    assert (C : forall w, nonpos F w = Some false -> construct_r_kr_hankel F jn_zeros (PInt z) w = inl e).
    { intros w W. unfold construct_r_kr_hankel. cbn [below4]. rewrite L, W. cbn [plus_one]. now rewrite E. }
    assert (Q1 : apply o (SetNr F (PInt z)) = (Some e, mk_hankel F (PInt z) (h_rmax F o) (h_r F o) (h_kr F o) (h_zeros F o) (h_jN F o) (h_Y F o))).
    { cbn [happly set_nr]. rewrite L. unfold setnr_setrmax. now rewrite (C _ B). }
    assert (Q2 : apply o1 (SetRmax F v) = (Some e, mk_hankel F (PInt z) v (h_r F o) (h_kr F o) (h_zeros F o) (h_jN F o) (h_Y F o))).
    { subst o1. rewrite Q1. cbn [snd happly]. unfold set_rmax. rewrite N. unfold setnr_setrmax. cbn [h_nr]. now rewrite (C _ N). }
    subst o2. rewrite Q2. subst o1. rewrite Q1. repeat split.
  Qed.
End Setters.

(** ** Algebra, in exact arithmetic *)
Ltac rfield := try change (T Rops) with R; match goal with |- ?a = ?b => change (@eq R a b) end; field.
Ltac rring := try change (T Rops) with R; match goal with |- ?a = ?b => change (@eq R a b) end; ring.

Section Algebra.
  Variables j0 j1 : R -> R.
  Variable jn_zeros : pyval R -> exn + list R.
  Notation init := (hankel_init Rops j0 j1 jn_zeros).
  Notation obj := (hankel Rops).
  Notation rm o := (hnum Rops (h_rmax Rops o)).
  Notation zer o i := (nth i (h_zeros Rops o) 0).
  Notation size o := (length (h_zeros Rops o)).
  Notation ht := (ht Rops).
  Notation iht := (iht Rops).

  (** What is assumed of the library: [jn_zeros (nt)] gives [nt] positive increasing zeros of [j0], at
      which [j1] does not vanish (the zeros of J_0 are simple and J_0' = - J_1). *)
  Definition bessel : Prop := forall nt l, jn_zeros nt = inr l ->
    (forall z, nt = PInt z -> length l = Z.to_nat z) /\
    (forall i, (i < length l)%nat -> 0 < nth i l 0 /\ j0 (nth i l 0) = 0 /\ j1 (nth i l 0) <> 0) /\
    (forall i k, (i < k < length l)%nat -> nth i l 0 < nth k l 0).

  Lemma removelast_nth (l : list R) i : (i < length l - 1)%nat -> nth i (removelast l) 0 = nth i l 0.
  Proof.
    revert i. induction l as [|a [|b l] IH]; intros i H; cbn in H; [lia|lia|]. destruct i; [reflexivity|].
    change (nth i (removelast (b :: l)) 0 = nth i (b :: l) 0). apply IH. cbn. lia.
  Qed.
  Lemma removelast_len (l : list R) : length (removelast l) = (length l - 1)%nat.
  Proof. induction l as [|a [|b l] IH]; [reflexivity|reflexivity|]. cbn [length removelast] in *. rewrite IH. lia. Qed.
  Lemma last_nth (l : list R) d d' : l <> [] -> last l d = nth (length l - 1) l d'.
  Proof.
    induction l as [|a [|b l] IH]; intros H; [congruence|reflexivity|].
    transitivity (last (b :: l) d); [reflexivity|]. rewrite IH by discriminate. cbn [length].
    replace (S (S (length l)) - 1)%nat with (S (length l)) by lia. replace (S (length l) - 1)%nat with (length l) by lia. reflexivity.
  Qed.

  Lemma init_facts nr rmax (o : obj) : bessel -> init nr rmax = inr o ->
    0 < rm o /\ 0 < h_jN Rops o /\
    (forall z, nr = PInt z -> Z.of_nat (size o) = z) /\
    (forall i, (i < size o)%nat -> 0 < zer o i < h_jN Rops o /\ j0 (zer o i) = 0 /\ j1 (zer o i) <> 0) /\
    (forall i k, (i < k < size o)%nat -> zer o i < zer o k) /\
    h_r Rops o = map (fun b => b * rm o / h_jN Rops o) (h_zeros Rops o) /\
    h_kr Rops o = map (fun b => b / rm o) (h_zeros Rops o) /\
    h_Y Rops o = map (fun zi => map (fun zj => 2 * j0 (zi * zj / h_jN Rops o) / (h_jN Rops o * (j1 zj * j1 zj))) (h_zeros Rops o)) (h_zeros Rops o).
  Proof.
    intros HB H. destruct (init_eq Rops j0 j1 jn_zeros _ _ _ H) as (_ & _ & r & kr & bz & jN & E & ->).
    cbn [h_rmax h_jN h_zeros h_r h_kr h_Y]. destruct (construct_ok Rops jn_zeros _ _ _ E) as (A & B & b & l & J).
    unfold construct_r_kr_hankel in E. rewrite A, B, J in E. remember (b :: l) as L eqn:EL.
    injection E as <- <- <- <-. destruct (HB _ _ J) as (HL & HZ & HI).
    assert (N0 : L <> []) by (subst L; discriminate). assert (P : (0 < length L)%nat) by (subst L; cbn; lia).
    assert (EN : last L b = nth (length L - 1) L 0) by (apply last_nth; exact N0).
    assert (Nt : forall i, (i < length L - 1)%nat -> nth i (removelast L) 0 = nth i L 0) by (intros; now apply removelast_nth).
    change (T Rops) with R in *. rewrite !removelast_len.
    split; [|split; [rewrite EN; apply HZ; lia|split; [|split; [|split; [|repeat split]]]]].
    - destruct rmax as [z|c|x|]; cbn in *; try discriminate.
      + injection B as B. apply Z.leb_gt in B. apply IZR_lt. exact B.
      + destruct c; [cbn; lra|discriminate].
      + unfold Rleb in B. destruct (Rle_dec x 0); [discriminate|lra].
    - intros z ->. rewrite (HL (z + 1)%Z eq_refl). cbn in A. injection A as A. apply Z.ltb_ge in A. lia.
    - intros i Hi. rewrite Nt by exact Hi. rewrite EN. destruct (HZ i ltac:(lia)) as (X & Y & Z). repeat split; try assumption. apply HI. lia.
    - intros i k Hik. rewrite !Nt by lia. apply HI. lia.
  Qed.

  Lemma sumf_first n f : sumf (S n) f = f O + sumf n (fun j => f (S j)).
  Proof. induction n; [cbn; rring|]. cbn [sumf] in *. rewrite IHn. rring. Qed.
  Lemma dotv_sum (a b : list R) : length a = length b -> dotv Rops a b = sumf (length a) (fun j => nth j a 0 * nth j b 0).
  Proof.
    intros H. unfold dotv. cbn [Rops tadd tmul tofZ].
    assert (G : forall s, fold_left (fun s p => s + fst p * snd p) (combine a b) s = s + sumf (length a) (fun j => nth j a 0 * nth j b 0)).
    { revert b H. induction a as [|x a IH]; intros [|y b] H s; try discriminate; [cbn; rring|].
      cbn [combine fold_left length fst snd]. rewrite IH by (now injection H). rewrite sumf_first. cbn [nth]. rring. }
    refine (eq_trans (G 0) _). rring.
  Qed.

  (** The entries of the matrix. *)
  Definition Y (o : obj) (i j : nat) : R :=
    2 * j0 (zer o i * zer o j / h_jN Rops o) / (h_jN Rops o * (j1 (zer o j))²).

  Lemma nth_map' (A B : Type) (f : A -> B) l i d d' : (i < length l)%nat -> nth i (map f l) d = f (nth i l d').
  Proof. intros H. rewrite (nth_indep _ d (f d')) by (now rewrite map_length). apply map_nth. Qed.

  Lemma dot_spec nr rmax (o : obj) f : bessel -> init nr rmax = inr o ->
    mat_dot Rops (h_Y Rops o) (size o) f =
    if Nat.eqb (size o) (length f) then inr (map (fun i => sumf (size o) (fun j => Y o i j * nth j f 0)) (seq 0 (size o))) else inl ValueError.
  Proof.
    intros HB H. destruct (init_facts _ _ _ HB H) as (_ & _ & _ & _ & _ & _ & _ & HY). unfold mat_dot.
    destruct (Nat.eqb_spec (size o) (length f)) as [E|E]; [|reflexivity]. f_equal.
    apply (nth_ext _ _ 0 0); [rewrite HY, !map_length, seq_length; reflexivity|].
    intros i Hi. rewrite HY, !map_length in Hi. rewrite (nth_map' _ _ _ _ _ _ []) by (now rewrite HY, map_length).
    rewrite (nth_map' _ _ _ _ _ _ O) by (now rewrite seq_length). rewrite seq_nth by exact Hi. cbn [plus].
    rewrite HY, (nth_map' _ _ _ _ _ _ 0) by exact Hi. rewrite dotv_sum by (now rewrite map_length). rewrite map_length.
    apply sumf_ext. intros j Hj. f_equal. rewrite (nth_map' _ _ _ _ _ _ 0) by exact Hj. reflexivity.
  Qed.

  Definition scale (o : obj) : R := (rm o)² / h_jN Rops o.

  Lemma ht_spec nr rmax (o : obj) f : bessel -> init nr rmax = inr o ->
    ht o f = if Nat.eqb (size o) (length f)
             then inr (map (fun i => scale o * sumf (size o) (fun j => Y o i j * nth j f 0)) (seq 0 (size o))) else inl ValueError.
  Proof.
    intros HB H. unfold Hankel.ht. rewrite (dot_spec _ _ _ f HB H). destruct (Nat.eqb _ _); [|reflexivity]. f_equal. rewrite map_map. reflexivity.
  Qed.
  Lemma iht_spec nr rmax (o : obj) f : bessel -> init nr rmax = inr o ->
    iht o f = if Nat.eqb (size o) (length f)
              then inr (map (fun i => sumf (size o) (fun j => Y o i j * nth j f 0) / scale o) (seq 0 (size o))) else inl ValueError.
  Proof.
    intros HB H. unfold Hankel.iht. rewrite (dot_spec _ _ _ f HB H). destruct (Nat.eqb _ _); [|reflexivity]. f_equal. rewrite map_map. reflexivity.
  Qed.
  Lemma scale_pos nr rmax (o : obj) : bessel -> init nr rmax = inr o -> 0 < scale o.
  Proof.
    intros HB H. destruct (init_facts _ _ _ HB H) as (A & B & _). unfold scale, Rsqr. apply Rdiv_lt_0_compat; [nra|exact B].
  Qed.
  Lemma tabnth n f i d : (i < n)%nat -> nth i (map f (seq 0 n)) d = f i :> R.
  Proof. intros H. rewrite (nth_map' _ _ _ _ _ _ O) by (now rewrite seq_length). now rewrite seq_nth. Qed.

  (** C59, grids: [nr] points, increasing, in [(0, rmax)]; the wavenumbers are those for which
      [J_0 (k r)] vanishes at [r = rmax]. *)
  Theorem C59_grids (z : Z) rmax (o : obj) : bessel -> init (PInt z) rmax = inr o ->
    let r i := nth i (h_r Rops o) 0 in let k i := nth i (h_kr Rops o) 0 in
    (4 <= z)%Z /\ 0 < rm o /\ length (h_r Rops o) = Z.to_nat z /\ length (h_kr Rops o) = Z.to_nat z /\
    (forall i, (i < Z.to_nat z)%nat -> 0 < r i < rm o /\ 0 < k i /\ j0 (k i * rm o) = 0) /\
    (forall i i', (i < i' < Z.to_nat z)%nat -> r i < r i' /\ k i < k i').
  Proof.
    intros HB H r k. destruct (init_facts _ _ _ HB H) as (A & B & HL & HZ & HI & Er & Ek & _).
    assert (N : size o = Z.to_nat z) by (rewrite <- (HL z eq_refl); lia).
    assert (Z4 : (4 <= z)%Z).
    { destruct (init_eq Rops j0 j1 jn_zeros _ _ _ H) as (_ & _ & a1 & a2 & a3 & a4 & E & _). destruct (construct_ok Rops jn_zeros _ _ _ E) as (Q & _).
      cbn in Q. injection Q as Q. apply Z.ltb_ge in Q. exact Q. }
    rewrite <- N in *. split; [exact Z4|]. split; [exact A|]. rewrite Er, Ek, !map_length. split; [reflexivity|]. split; [reflexivity|].
    assert (Vr : forall i, (i < size o)%nat -> r i = zer o i * rm o / h_jN Rops o).
    { intros i Hi. subst r. cbn beta. rewrite Er. now rewrite (nth_map' _ _ _ _ _ _ 0). }
    assert (Vk : forall i, (i < size o)%nat -> k i = zer o i / rm o).
    { intros i Hi. subst k. cbn beta. rewrite Ek. now rewrite (nth_map' _ _ _ _ _ _ 0). }
    split.
    - intros i Hi. rewrite Vr, Vk by exact Hi. destruct (HZ i Hi) as ([P Q] & Z0 & _). repeat split.
      + apply Rdiv_lt_0_compat; [nra|exact B].
      + apply (Rmult_lt_reg_r (h_jN Rops o)); [exact B|]. unfold Rdiv. rewrite Rmult_assoc, Rinv_l by lra. nra.
      + apply Rdiv_lt_0_compat; assumption.
      + assert (Q0 : zer o i / rm o * rm o = zer o i) by (rfield; apply Rgt_not_eq; exact A). rewrite Q0. exact Z0.
    - intros i i' Hi. rewrite !Vr, !Vk by lia. pose proof (HI i i' Hi) as Lt. cbn beta in *. unfold Rdiv. split.
      + apply Rmult_lt_compat_r; [now apply Rinv_0_lt_compat|]. apply Rmult_lt_compat_r; assumption.
      + apply Rmult_lt_compat_r; [now apply Rinv_0_lt_compat|]. assumption.
  Qed.

  (** C59, values: [ht] is a quadrature rule for the Hankel integral at the wavenumbers, [iht] the
      partial sum of the Fourier-Bessel series on [(0, rmax)]. *)
  Theorem C59_fourier_bessel nr rmax (o : obj) f : bessel -> init nr rmax = inr o -> length f = size o ->
    let r i := nth i (h_r Rops o) 0 in let k i := nth i (h_kr Rops o) 0 in
    (exists g, ht o f = inr g /\ length g = size o /\ forall i, (i < size o)%nat ->
       nth i g 0 = sumf (size o) (fun j => 2 * (rm o)² / ((h_jN Rops o)² * (j1 (zer o j))²) * j0 (k i * r j) * nth j f 0)) /\
    (exists g, iht o f = inr g /\ length g = size o /\ forall i, (i < size o)%nat ->
       nth i g 0 = sumf (size o) (fun j => 2 / ((rm o)² * (j1 (k j * rm o))²) * nth j f 0 * j0 (k j * r i))).
  Proof.
    intros HB H L r k. destruct (init_facts _ _ _ HB H) as (A & B & _ & HZ & _ & Er & Ek & _).
    assert (Vr : forall i, (i < size o)%nat -> r i = zer o i * rm o / h_jN Rops o).
    { intros i Hi. subst r. cbn beta. rewrite Er. now rewrite (nth_map' _ _ _ _ _ _ 0). }
    assert (Vk : forall i, (i < size o)%nat -> k i = zer o i / rm o).
    { intros i Hi. subst k. cbn beta. rewrite Ek. now rewrite (nth_map' _ _ _ _ _ _ 0). }
    assert (KR : forall i j, (i < size o)%nat -> (j < size o)%nat -> k i * r j = zer o i * zer o j / h_jN Rops o).
    { intros i j Hi Hj. rewrite Vr, Vk by assumption. rfield. lra. }
    rewrite (ht_spec _ _ _ f HB H), (iht_spec _ _ _ f HB H), L, Nat.eqb_refl. split.
    - eexists. split; [reflexivity|]. rewrite map_length, seq_length. split; [reflexivity|]. intros i Hi. rewrite tabnth by exact Hi.
      rewrite <- sumf_scal. apply sumf_ext. intros j Hj. rewrite KR by assumption. unfold Y, scale, Rsqr. destruct (HZ j Hj) as (_ & _ & N1). cbn beta. rfield. split; [exact N1|lra].
    - eexists. split; [reflexivity|]. rewrite map_length, seq_length. split; [reflexivity|]. intros i Hi. rewrite tabnth by exact Hi.
      unfold Rdiv at 1. rewrite Rmult_comm, <- sumf_scal. apply sumf_ext. intros j Hj. rewrite KR by assumption. rewrite Vk by exact Hj.
      assert (Q0 : zer o j / rm o * rm o = zer o j) by (rfield; apply Rgt_not_eq; exact A). rewrite Q0. rewrite (Rmult_comm (zer o j)). unfold Y, scale, Rsqr. destruct (HZ j Hj) as (_ & _ & N1). cbn beta. rfield. repeat split; try exact N1; lra.
  Qed.

  (** C59: linearity. *)
  Theorem C59_linear nr rmax (o : obj) f g a b : bessel -> init nr rmax = inr o -> length f = size o -> length g = size o ->
    let comb u v := map (fun i => a * nth i u 0 + b * nth i v 0) (seq 0 (size o)) in
    exists hf hg hi hj, ht o f = inr hf /\ ht o g = inr hg /\ ht o (comb f g) = inr (comb hf hg) /\
      iht o f = inr hi /\ iht o g = inr hj /\ iht o (comb f g) = inr (comb hi hj).
  Proof.
    intros HB H Lf Lg comb.
    assert (Lc : @length (T Rops) (comb f g) = size o) by (unfold comb; now rewrite map_length, seq_length).
    rewrite !(ht_spec _ _ _ _ HB H), !(iht_spec _ _ _ _ HB H), Lf, Lg, Lc, Nat.eqb_refl.
    assert (S : forall i, sumf (size o) (fun j => Y o i j * nth j (comb f g) 0)
      = a * sumf (size o) (fun j => Y o i j * nth j f 0) + b * sumf (size o) (fun j => Y o i j * nth j g 0)).
    { intros i. rewrite <- !sumf_scal, <- sumf_plus. apply sumf_ext. intros j Hj. unfold comb. rewrite tabnth by exact Hj. rring. }
    do 4 eexists. repeat split.
    - f_equal. unfold comb at 2. apply map_ext_in. intros i Hi. apply in_seq in Hi. rewrite !tabnth by lia. rewrite S. rring.
    - f_equal. unfold comb at 2. apply map_ext_in. intros i Hi. apply in_seq in Hi. rewrite !tabnth by lia. rewrite S. unfold Rdiv. rring.
  Qed.

  (** C59: a round trip does not depend on [rmax], in either order. *)
  Theorem C59_round_trip nr rmax rmax' (o o' : obj) f : bessel -> init nr rmax = inr o -> init nr rmax' = inr o' -> length f = size o ->
    exists g g' u, ht o f = inr g /\ ht o' f = inr g' /\ iht o g = inr u /\ iht o' g' = inr u /\
      exists w w', iht o f = inr w /\ iht o' f = inr w' /\ ht o w = inr u /\ ht o' w' = inr u.
  Proof.
    intros HB H H' L.
    assert (Q : h_zeros Rops o' = h_zeros Rops o /\ h_jN Rops o' = h_jN Rops o).
    { destruct (init_eq Rops j0 j1 jn_zeros _ _ _ H) as (_ & _ & r & kr & bz & jN & E & ->). destruct (init_eq Rops j0 j1 jn_zeros _ _ _ H') as (_ & _ & r' & kr' & bz' & jN' & E' & ->).
      cbn. unfold construct_r_kr_hankel in E, E'. destruct (below4 Rops nr) as [[|]|]; try discriminate.
      destruct (nonpos Rops rmax) as [[|]|]; try discriminate. destruct (nonpos Rops rmax') as [[|]|]; try discriminate.
      destruct (jn_zeros (plus_one Rops nr)) as [e|[|b l]]; try discriminate. remember (b :: l) as LL. injection E as _ _ <- <-. injection E' as _ _ <- <-. split; reflexivity. }
    destruct Q as [Qz QN].
    assert (SY : forall i j, Y o' i j = Y o i j) by (intros; unfold Y; now rewrite Qz, QN).
    pose proof (scale_pos _ _ _ HB H) as P. pose proof (scale_pos _ _ _ HB H') as P'.
    exists (map (fun i => scale o * sumf (size o) (fun j => Y o i j * nth j f 0)) (seq 0 (size o))).
    exists (map (fun i => scale o' * sumf (size o) (fun j => Y o i j * nth j f 0)) (seq 0 (size o))).
    exists (map (fun i => sumf (size o) (fun j => Y o i j * sumf (size o) (fun l => Y o j l * nth l f 0))) (seq 0 (size o))).
    rewrite !(ht_spec _ _ _ _ HB H), !(ht_spec _ _ _ _ HB H'), !(iht_spec _ _ _ _ HB H), !(iht_spec _ _ _ _ HB H').
    rewrite Qz, L, !map_length, seq_length, Nat.eqb_refl. split; [reflexivity|].
    split; [apply (f_equal (@inr exn (list R))); apply map_ext; intros; f_equal; apply sumf_ext; intros; now rewrite SY|].
    split; [apply (f_equal (@inr exn (list R))); apply map_ext; intros; unfold Rdiv; rewrite Rmult_comm, <- sumf_scal; apply sumf_ext; intros j Hj; rewrite tabnth by exact Hj; rfield; lra|].
    split; [apply (f_equal (@inr exn (list R))); apply map_ext; intros; unfold Rdiv; rewrite Rmult_comm, <- sumf_scal; apply sumf_ext; intros j Hj; rewrite tabnth, SY by exact Hj; rfield; lra|].
    exists (map (fun i => sumf (size o) (fun j => Y o i j * nth j f 0) / scale o) (seq 0 (size o))).
    exists (map (fun i => sumf (size o) (fun j => Y o i j * nth j f 0) / scale o') (seq 0 (size o))).
    rewrite !(ht_spec _ _ _ _ HB H), !(ht_spec _ _ _ _ HB H'). rewrite Qz, !map_length, seq_length, Nat.eqb_refl. split; [reflexivity|].
    split; [apply (f_equal (@inr exn (list R))); apply map_ext; intros; f_equal; apply sumf_ext; intros; now rewrite SY|].
    split; [apply (f_equal (@inr exn (list R))); apply map_ext; intros; rewrite <- sumf_scal; apply sumf_ext; intros j Hj; rewrite tabnth by exact Hj; rfield; lra|].
    apply (f_equal (@inr exn (list R))); apply map_ext; intros; rewrite <- sumf_scal; apply sumf_ext; intros j Hj; rewrite tabnth, SY by exact Hj; rfield; lra.
  Qed.

  (** C59: with the quadrature weights [1 / J_1(j_i)^2] the transform is symmetric, and the weighted
      norm of [ht f] is the weighted inner product of [f] with its round trip. *)
  Theorem C59_weighted_symmetry nr rmax (o : obj) f g : bessel -> init nr rmax = inr o -> length f = size o -> length g = size o ->
    let w i := / (j1 (zer o i))² in let inner u v := sumf (size o) (fun i => w i * nth i u 0 * nth i v 0) in
    exists hf hg u, ht o f = inr hf /\ ht o g = inr hg /\ inner hf g = inner f hg /\
      iht o hf = inr u /\ inner hf hf = ((rm o)² / h_jN Rops o)² * inner f u.
  Proof.
    intros HB H Lf Lg w inner. pose proof (scale_pos _ _ _ HB H) as P.
    destruct (init_facts _ _ _ HB H) as (A & B & _ & HZ & _).
    assert (Sy : forall i j, (i < size o)%nat -> (j < size o)%nat -> w i * Y o i j = w j * Y o j i).
    { intros i j Hi Hj. unfold Y, w, Rsqr. destruct (HZ i Hi) as (_ & _ & N1). destruct (HZ j Hj) as (_ & _ & N2). cbn beta in *.
      rewrite (Rmult_comm (zer o j) (zer o i)). rfield. repeat split; try assumption; lra. }
    assert (Adj : forall u v : nat -> R, sumf (size o) (fun i => w i * sumf (size o) (fun j => Y o i j * u j) * v i) = sumf (size o) (fun i => w i * u i * sumf (size o) (fun j => Y o i j * v j))).
    { intros u v. rewrite (sumf_ext _ _ (fun i => sumf (size o) (fun j => w i * Y o i j * u j * v i))).
      2:{ intros i Hi. rewrite <- sumf_scal, Rmult_comm, <- sumf_scal. apply sumf_ext. intros. rring. }
      rewrite sumf_swap. apply sumf_ext. intros j Hj. rewrite <- sumf_scal. apply sumf_ext. intros i Hi. rewrite (Sy i j) by assumption. rring. }
    rewrite !(ht_spec _ _ _ _ HB H), Lf, Lg, Nat.eqb_refl.
    exists (map (fun i => scale o * sumf (size o) (fun j => Y o i j * nth j f 0)) (seq 0 (size o))).
    exists (map (fun i => scale o * sumf (size o) (fun j => Y o i j * nth j g 0)) (seq 0 (size o))).
    exists (map (fun i => sumf (size o) (fun j => Y o i j * sumf (size o) (fun l => Y o j l * nth l f 0))) (seq 0 (size o))).
    split; [reflexivity|]. split; [reflexivity|].
    assert (E1 : forall u v : list R, sumf (size o) (fun i => w i * nth i (map (fun i => scale o * sumf (size o) (fun j => Y o i j * nth j u 0)) (seq 0 (size o))) 0 * nth i v 0)
       = scale o * sumf (size o) (fun i => w i * sumf (size o) (fun j => Y o i j * nth j u 0) * nth i v 0)).
    { intros u v. rewrite <- sumf_scal. apply sumf_ext. intros i Hi. rewrite tabnth by exact Hi. rring. }
    split.
    { unfold inner. rewrite E1, Adj, <- sumf_scal. apply sumf_ext. intros i Hi. rewrite tabnth by exact Hi. rring. }
    rewrite (iht_spec _ _ _ _ HB H), map_length, seq_length, Nat.eqb_refl. split.
    { apply (f_equal (@inr exn (list R))); apply map_ext; intros; unfold Rdiv; rewrite Rmult_comm, <- sumf_scal; apply sumf_ext; intros j Hj; rewrite tabnth by exact Hj; rfield; lra. }
    change ((rm o)² / h_jN Rops o) with (scale o). unfold inner. rewrite E1, Adj.
    rewrite <- !sumf_scal. apply sumf_ext. intros i Hi. rewrite tabnth by exact Hi.
    rewrite (sumf_ext _ _ (fun j => scale o * (Y o i j * sumf (size o) (fun l => Y o j l * nth l f 0)))).
    - rewrite sumf_scal. unfold Rsqr. rring.
    - intros j Hj. rewrite tabnth by exact Hj. rring.
  Qed.

  (** Wrong lengths are refused. *)
  Theorem C59_wrong_length nr rmax (o : obj) f : bessel -> init nr rmax = inr o -> length f <> size o ->
    ht o f = inl ValueError /\ iht o f = inl ValueError.
  Proof.
    intros HB H L. rewrite (ht_spec _ _ _ _ HB H), (iht_spec _ _ _ _ HB H), (proj2 (Nat.eqb_neq _ _)) by congruence. split; reflexivity.
  Qed.
End Algebra.

(** ** Cases: the sine with its zeros has the assumed properties. *)
Definition sin_zeros (nt : pyval R) : exn + list R :=
  match nt with PInt z => inr (map (fun k => INR (S k) * PI) (seq 0 (Z.to_nat z))) | _ => inl TypeError end.
Lemma sin_cos_kpi k : sin (INR k * PI) = 0 /\ cos (INR k * PI) <> 0.
Proof.
  induction k as [|k [IS IC]]; [rewrite Rmult_0_l, sin_0, cos_0; lra|].
  rewrite S_INR, Rmult_plus_distr_r, Rmult_1_l, neg_sin, neg_cos, IS. split; lra.
Qed.
Example C59_case : bessel sin cos sin_zeros /\ lib_ok Rops sin_zeros /\
  exists o, hankel_init Rops sin cos sin_zeros (PInt 4) (PFloat 2) = inr o /\ length (h_zeros Rops o) = 4%nat.
Proof.
  assert (L : forall z, (4 <= z)%Z -> exists b l, sin_zeros (PInt (z + 1)) = inr (b :: l)).
  { intros z Hz. cbn [sin_zeros]. destruct (Z.to_nat (z + 1)) as [|n] eqn:E; [lia|]. cbn [seq map]. eauto. }
  split; [|split; [exact L|]].
  - intros nt l H. destruct nt as [z| | |]; try discriminate. cbn in H. injection H as <-. rewrite map_length, seq_length.
    assert (V : forall i, (i < Z.to_nat z)%nat -> nth i (map (fun k => (match k with O => 1 | S _ => INR k + 1 end) * PI) (seq 0 (Z.to_nat z))) 0 = INR (S i) * PI).
    { intros i Hi. rewrite (nth_map' _ _ _ _ _ _ O) by (now rewrite seq_length). now rewrite seq_nth. }
    change (forall i, (i < Z.to_nat z)%nat -> nth i (map (fun k => INR (S k) * PI) (seq 0 (Z.to_nat z))) 0 = INR (S i) * PI) in V.
    split; [intros z' E; now injection E as <-|]. split.
    + intros i Hi. change (T Rops) with R in *.
      match goal with |- 0 < ?x /\ _ => assert (X : x = INR (S i) * PI) by (apply V; exact Hi); rewrite !X end.
      destruct (sin_cos_kpi (S i)). repeat split; try assumption. apply Rmult_lt_0_compat; [apply lt_0_INR; lia|exact PI_RGT_0].
    + intros i k Hik. assert (X := V i ltac:(lia)). assert (Y' := V k ltac:(lia)).
      refine (eq_rect_r (fun x => x < _) _ X). refine (eq_rect_r (fun x => _ < x) _ Y').
      apply Rmult_lt_compat_r; [exact PI_RGT_0|apply lt_INR; lia].
  - unfold hankel_init, setnr_setrmax, construct_r_kr_hankel. cbn [below4 nonpos]. change (4 <? 4)%Z with false. cbv iota.
    assert (N : tleb Rops 2 (tofZ Rops 0) = false) by (cbn; unfold Rleb; destruct (Rle_dec 2 0); [lra|reflexivity]).
    rewrite N. cbn. eexists. split; reflexivity.
Qed.
(** An object and a failing library call as in C67. *)
Example C67_case : exists o, hankel_init Rops sin cos (fun v => match v with PInt z => if (z <? 10)%Z then sin_zeros v else inl (UserExn 0) | _ => inl TypeError end) (PInt 4) (PFloat 2) = inr o /\
  nonpos Rops (h_rmax Rops o) = Some false /\ nonpos Rops (PFloat 3) = Some false.
Proof.
  assert (N : forall x, 0 < x -> tleb Rops x (tofZ Rops 0) = false) by (intros x Hx; cbn; unfold Rleb; destruct (Rle_dec x 0); [lra|reflexivity]).
  unfold hankel_init, setnr_setrmax, construct_r_kr_hankel. cbn [below4 nonpos]. change (4 <? 4)%Z with false. cbv iota.
  rewrite (N 2) by lra. cbn [plus_one]. change (4 + 1 <? 10)%Z with true. cbv iota. cbn [sin_zeros].
  change (Z.to_nat (4 + 1)) with 5%nat. cbn [seq map]. eexists. split; [reflexivity|]. cbn [h_rmax nonpos]. rewrite !N by lra. split; reflexivity.
Qed.

Print Assumptions C58_equals_fresh_construction.
Print Assumptions C58_assignment.
Print Assumptions C58_accepted_iff.
Print Assumptions C67_failed_call_refuted.
Print Assumptions C59_grids.
Print Assumptions C59_fourier_bessel.
Print Assumptions C59_linear.
Print Assumptions C59_round_trip.
Print Assumptions C59_weighted_symmetry.
Print Assumptions C59_wrong_length.
