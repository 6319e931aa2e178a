(** * Whole runs of a solver on the heap

    Histories of a solver object (construction, [step], [evolve], [reset], with the caller creating
    and overwriting arrays in between) leave the stored arrays alone; and a session on the heap
    computes what the same session computes on values. *)

From Coq Require Import ZArith List Bool String Lia Arith.
From Verif Require Import Scalars Control ControlRel Arrays SchemeBase SchemeIF SchemeETD4 SchemeETD5 Solvers Heap HeapSchemes HeapModel HeapLink.
Import ListNotations.
Local Open Scope string_scope.

Set Implicit Arguments.

(** Arrays handed to the caller by an operation. *)
Definition refs_of {X} (f : X -> nat) (r : out X) : list nat := match r with Ret x => [f x] | _ => [] end.

Section Frame.
  Variable F : tops.
  Variable A : aops F.
  Variable W : Type.
  Variable hnl : nat -> heap A -> W -> (exn + nat) * heap A * W.
  Variables owned known : W -> nat -> Prop.
  Hypothesis HN : writes_own hnl owned known.
  Variable sc : scheme A.
  Hypothesis HD : disciplined sc.
  Notation Wd := (heap A * W)%type.
  Notation "0%py" := (PyN false (tofZ F 0)).

  Definition live (s : gst F env) (Hw : Wd) (u : href A) : Prop :=
    hprot sc owned s Hw (fst u) /\ hc (fst Hw) (fst u) = snd u.
  Definition diag (s1 : gst F env) (w1 : Wd) (s2 : gst F env) (w2 : Wd) (L : list (href A * href A)) : Prop :=
    s1 = s2 /\ w1 = w2 /\ hok sc owned known s1 w1 /\ forall u v, In (u, v) L -> u = v /\ live s1 w1 u.

  Lemma diag_reset s1 w1 s2 w2 L : diag s1 w1 s2 w2 L -> diag (g_reset s1) w1 (g_reset s2) w2 L.
  Proof. intros (-> & -> & O & P). split; [reflexivity|]. split; [reflexivity|]. split; [exact O|exact P]. Qed.

  Lemma diag_update a s w u h L : diag s w s w L -> In (u, u) L ->
    let '(r, s', w') := g_update (hex hnl) sc a h (set_arg u s) w in
    diag s' w' s' w' L /\ (r = inr tt -> diag s' w' s' w' ((handle (g_vars s') (fst w') (sc_ret sc), handle (g_vars s') (fst w') (sc_ret sc)) :: L)).
  Proof.
    intros (_ & _ & O & P) Hu. destruct (g_update (hex hnl) sc a h (set_arg u s) w) as [[r s'] w'] eqn:E.
    destruct (g_update_frame HN HD a h u O (proj1 (proj2 (P _ _ Hu))) E) as (O' & P' & R').
    assert (Q : forall x y, In (x, y) L -> x = y /\ live s' w' x).
    { intros x y Hxy. destruct (P _ _ Hxy) as [-> [P1 P2]]. split; [reflexivity|]. destruct (P' _ P1) as [Q1 Q2].
      split; [exact Q1|congruence]. }
    split; [split; [reflexivity|]; split; [reflexivity|]; split; [exact O'|exact Q]|].
    intros R. split; [reflexivity|]; split; [reflexivity|]; split; [exact O'|]. intros x y [E1|Hxy]; [|apply Q, Hxy].
    inversion E1; subst. split; [reflexivity|]. split; [apply R'; auto|reflexivity].
  Qed.

  Lemma cs_diag : cs_related F (hcs hnl sc) (hcs hnl sc) diag.
  Proof.
    split; [intros; apply diag_reset; assumption|].
    intros s1 w1 s2 w2 L u1 u2 h HR Hu. assert (HR' := HR). destruct HR' as (E1 & E2 & O & P). subst s2 w2.
    destruct (P _ _ Hu) as [<- _]. assert (Q := diag_update false u1 h HR Hu). cbn [hcs cs_upd]. unfold hcs_upd.
    destruct (g_update (hex hnl) sc false h (set_arg u1 s1) w1) as [[[e|[]] s'] w'].
    - split; [reflexivity|apply Q].
    - apply Q. reflexivity.
  Qed.
  Lemma as_diag compute : as_related F (has hnl sc) (has hnl sc) compute compute diag.
  Proof.
    split; [intros; apply diag_reset; assumption|].
    intros a s1 w1 s2 w2 L u1 u2 h HR Hu. assert (HR' := HR). destruct HR' as (E1 & E2 & O & P). subst s2 w2.
    destruct (P _ _ Hu) as [<- _]. assert (Q := diag_update a u1 h HR Hu). cbn [has as_upd]. unfold has_upd.
    destruct (g_update (hex hnl) sc a h (set_arg u1 s1) w1) as [[[e|[]] s'] w'].
    - split; [reflexivity|apply Q].
    - split; [apply Q|]; reflexivity.
  Qed.

  (** ** Histories *)

  (** State of memory and object before the first call: the nonlinear function reaches only
      allocated arrays, [Us] are arrays of the caller. *)
  Definition fresh_start (lin : nat) (H : heap A) (w : W) (Us : list nat) : Prop :=
    (forall l, known w l -> l < hn H) /\ (forall l, owned w l -> known w l) /\ lin < hn H /\
    forall l, In l Us -> l < hn H /\ ~ owned w l.

  Definition pairs (L : list (href A)) : list (href A * href A) := map (fun u => (u, u)) L.
  Definition contents (H : heap A) (Us : list nat) : list (href A) := map (fun l => (l, hc H l)) Us.

  (** What holds between two calls: [us] are the stored arrays with their contents when stored. *)
  Definition steady (s : gst F env) (us : list (href A)) (Hw : Wd) (Us : list nat) : Prop :=
    hok sc owned known s Hw /\ (forall l, In l Us -> hprot sc owned s Hw l) /\
    forall u, In u us -> In (fst u) Us /\ hc (fst Hw) (fst u) = snd u.

  Lemma steady_diag s us Hw Us : steady s us Hw Us -> diag s Hw s Hw (pairs (contents (fst Hw) Us)).
  Proof.
    intros (O & P & Q). split; [reflexivity|]. split; [reflexivity|]. split; [exact O|].
    intros u v Hu. unfold pairs, contents in Hu. rewrite map_map in Hu. apply in_map_iff in Hu. destruct Hu as (l & E & Hl).
    inversion E; subst. split; [reflexivity|]. split; [apply P, Hl|reflexivity].
  Qed.
  Lemma steady_snaps s us Hw Us : steady s us Hw Us ->
    Forall2 (fun a b => In (a, b) (pairs (contents (fst Hw) Us))) us us.
  Proof.
    intros (O & P & Q). induction us as [|[l c] us IH]; constructor.
    - unfold pairs, contents. rewrite map_map. apply in_map_iff. exists l. destruct (Q (l, c) (or_introl eq_refl)) as [Q1 Q2].
      cbn [fst snd] in Q2. rewrite Q2. split; [reflexivity|exact Q1].
    - apply IH. intros u Hu. apply Q. right. exact Hu.
  Qed.

  (** From the relation at the end of a run back to [steady]; the arrays of the caller are untouched. *)
  Lemma diag_steady s us Hw Us L s' us' Hw' new : steady s us Hw Us ->
    incl (pairs (contents (fst Hw) Us)) L -> diag s' Hw' s' Hw' L -> Forall2 (fun a b => In (a, b) L) us' us' ->
    (forall u, In u us' -> In (fst u) (new ++ Us)) ->
    (forall l, In l new -> exists c, In ((l, c), (l, c)) L) ->
    steady s' us' Hw' (new ++ Us) /\ forall l, In l Us -> hc (fst Hw') l = hc (fst Hw) l.
  Proof.
    intros _ HI (_ & _ & O & P) Fu Hus Hnew.
    assert (OLD : forall l, In l Us -> live s' Hw' (l, hc (fst Hw) l)).
    { intros l Hl. refine (proj2 (P _ _ (HI ((l, hc (fst Hw) l), (l, hc (fst Hw) l)) _))).
      unfold pairs, contents. rewrite map_map. apply in_map_iff. exists l. split; [reflexivity|exact Hl]. }
    split; [|intros l Hl; apply (OLD l Hl)]. split; [exact O|]. split.
    - intros l Hl. apply in_app_or in Hl. destruct Hl as [Hl|Hl].
      + destruct (Hnew l Hl) as [c Hc]. apply (proj2 (P _ _ Hc)).
      + apply (OLD l Hl).
    - intros u Hu. split; [apply Hus, Hu|].
      assert (In (u, u) L) as Huu.
      { clear -Fu Hu. remember us' as vs eqn:E in Fu at 2. assert (K : forall a b, Forall2 (fun a b => In (a, b) L) a b -> a = b -> In u a -> In (u, u) L).
        { induction 1; intros E' Hin; [destruct Hin|]. inversion E'; subst. destruct Hin as [<-|Hin]; [assumption|auto]. }
        apply (K _ _ Fu); [symmetry; exact E|exact Hu]. }
      apply (proj2 (P _ _ Huu)).
  Qed.

  Lemma steady_alloc s us H w Us c : steady s us (H, w) Us -> steady s us (hnew H c, w) (hn H :: Us).
  Proof.
    intros (O & P & Q). unfold steady, hok, hprot in *. cbn [fst snd] in *. split; [|split].
    - destruct O. constructor; auto.
      + intros x. cbn [hnew hn]. specialize (ok_alloc x). lia.
      + intros l Hl. cbn [hnew hn]. specialize (ok_known l Hl). lia.
    - intros l [<-|Hl].
      + split; [cbn [hnew hn]; lia|]. split.
        * intros X. apply (ok_owned O), (ok_known O) in X. lia.
        * intros x _ X. assert (Y := ok_alloc O x). lia.
      + destruct (P l Hl) as (P1 & P2 & P3). split; [cbn [hnew hn]; lia|]. split; assumption.
    - intros u Hu. destruct (Q u Hu) as [Q1 Q2]. split; [right; exact Q1|].
      rewrite hnew_old; [exact Q2|]. apply (P _ Q1).
  Qed.
  Lemma steady_write s us H w Us l c : steady s us (H, w) Us -> ~ In l (map fst us) -> steady s us (hput H l c, w) Us.
  Proof.
    intros (O & P & Q) Hl. unfold steady, hok, hprot in *. cbn [fst snd] in *. split; [|split].
    - destruct O. constructor; auto.
    - intros l' Hl'. exact (P l' Hl').
    - intros u Hu. destruct (Q u Hu) as [Q1 Q2]. split; [exact Q1|]. cbn [hput hc].
      destruct (Nat.eqb_spec (fst u) l) as [E|]; [|exact Q2]. elim Hl. rewrite <- E. apply in_map, Hu.
  Qed.
  Lemma steady_new lin H w Us s Hw : fresh_start lin H w Us -> h_new hnl sc lin H w = (s, Hw) -> steady s [] Hw Us.
  Proof.
    intros (K1 & K2 & K3 & K4) E. destruct (h_new_frame HN HD H w K1 K2 K3 E) as (O & _ & _ & _ & P).
    split; [exact O|]. split; [|intros u []]. intros l Hl. destruct (K4 l Hl) as [L1 L2]. apply (P l L1 L2).
  Qed.

  Section ConstantStep.
    Notation obj := (csobj F (href A) Wd (hcs hnl sc)).

    (** A solver object, the memory, and the arrays the caller has seen so far (their own, returned
        ones, stored ones). The caller passes any of them, creates arrays at will, and writes to any
        array that is not in [solver.u]. *)
    Inductive cs_history : obj -> Wd -> list nat -> Prop :=
    | ch_new lin H w Us s Hw : fresh_start lin H w Us -> h_new hnl sc lin H w = (s, Hw) ->
        cs_history (mk_csobj (m := hcs hnl sc) [] [] 0%py 0%py s) Hw Us
    | ch_step o Hw Us l h r o' Hw' : cs_history o Hw Us -> In l Us ->
        cs_step (l, hc (fst Hw) l) h o Hw = (r, o', Hw') -> cs_history o' Hw' (refs_of fst r ++ Us)
    | ch_evolve o Hw Us l fuel t0 tf h sd sf r o' Hw' : cs_history o Hw Us -> In l Us ->
        cs_evolve fuel (l, hc (fst Hw) l) t0 tf h sd sf o Hw = (r, o', Hw') ->
        cs_history o' Hw' ((refs_of fst r ++ map fst (c_u o')) ++ Us)
    | ch_reset o Hw Us : cs_history o Hw Us -> cs_history (cs_reset_obj o) Hw Us
    | ch_alloc o H w Us c : cs_history o (H, w) Us -> cs_history o (hnew H c, w) (hn H :: Us)
    | ch_write o H w Us l c : cs_history o (H, w) Us -> ~ In l (map fst (c_u o)) -> cs_history o (hput H l c, w) Us.

    Lemma cs_steady_objs (o : obj) Hw Us : steady (c_m o) (c_u o) Hw Us ->
      cs_objs (m1 := hcs hnl sc) (m2 := hcs hnl sc) diag (pairs (contents (fst Hw) Us)) o Hw o Hw.
    Proof. intros S. constructor; try reflexivity; [apply (steady_diag S)|apply (steady_snaps S)]. Qed.
    Lemma in_pairs H Us l : In l Us -> In ((l, hc H l), (l, hc H l)) (pairs (contents H Us)).
    Proof. intros Hl. unfold pairs, contents. rewrite map_map. apply in_map_iff. exists l. auto. Qed.

    Lemma cs_step_steady (o : obj) Hw Us l h r o' Hw' : steady (c_m o) (c_u o) Hw Us -> In l Us ->
      cs_step (l, hc (fst Hw) l) h o Hw = (r, o', Hw') ->
      steady (c_m o') (c_u o') Hw' (refs_of fst r ++ Us) /\ forall l, In l Us -> hc (fst Hw') l = hc (fst Hw) l.
    Proof.
      intros S Hl E. assert (Q := cs_step_related cs_diag _ _ h (cs_steady_objs _ S) (in_pairs (fst Hw) _ _ Hl)).
      rewrite E in Q. destruct Q as (L' & I' & [O1 _ _ _ O5] & R').
      assert (NU : c_u o' = c_u o).
      { unfold cs_step in E. destruct (tleb F (tofZ F 0) h); [|congruence].
        destruct (cs_upd (hcs hnl sc) (l, hc (fst Hw) l) h (c_m o) Hw) as [[rr ss] ww]. inversion E; subst. reflexivity. }
      eapply diag_steady; [exact S|exact I'|exact O1|exact O5| |].
      - rewrite NU. intros u Hu. apply in_or_app. right. apply S, Hu.
      - destruct r as [[lr cr]|e|]; cbn [refs_of]; [|intros ? []|intros ? []].
        intros l1 [<-|[]]. exists cr. exact R'.
    Qed.
    Lemma cs_evolve_steady (o : obj) Hw Us l fuel t0 tf h sd sf r o' Hw' : steady (c_m o) (c_u o) Hw Us -> In l Us ->
      cs_evolve fuel (l, hc (fst Hw) l) t0 tf h sd sf o Hw = (r, o', Hw') ->
      steady (c_m o') (c_u o') Hw' ((refs_of fst r ++ map fst (c_u o')) ++ Us) /\ forall l, In l Us -> hc (fst Hw') l = hc (fst Hw) l.
    Proof.
      intros S Hl E.
      assert (Q := cs_evolve_related cs_diag fuel _ _ t0 tf h sd sf (cs_steady_objs _ S) (in_pairs (fst Hw) _ _ Hl)).
      rewrite E in Q. destruct Q as (L' & I' & [O1 _ _ _ O5] & R').
      eapply diag_steady; [exact S|exact I'|exact O1|exact O5| |].
      - intros u Hu. apply in_or_app. left. apply in_or_app. right. apply in_map, Hu.
      - intros l1 Hl1. apply in_app_or in Hl1. destruct Hl1 as [Hl1|Hl1].
        + destruct r as [[lr cr]|e|]; cbn [refs_of] in Hl1; [|destruct Hl1|destruct Hl1].
          destruct Hl1 as [<-|[]]. exists cr. exact R'.
        + apply in_map_iff in Hl1. destruct Hl1 as ([l2 c2] & <- & Hin). exists c2. cbn [fst].
          clear -O5 Hin. assert (K : forall a b, Forall2 (fun a b => In (a, b) L') a b -> a = b -> In (l2, c2) a -> In ((l2, c2), (l2, c2)) L').
          { induction 1; intros E' Hi; [destruct Hi|]. inversion E'; subst. destruct Hi as [->|Hi]; [assumption|auto]. }
          apply (K _ _ O5 eq_refl Hin).
    Qed.

    Theorem cs_history_steady (o : obj) Hw Us : cs_history o Hw Us -> steady (c_m o) (c_u o) Hw Us.
    Proof.
      induction 1 as [lin H w Us s Hw Hs E|o Hw Us l h r o' Hw' _ IH Hl E|o Hw Us l fuel t0 tf h sd sf r o' Hw' _ IH Hl E
                     |o Hw Us _ IH|o H w Us c _ IH|o H w Us l c _ IH Hl].
      - exact (steady_new Hs E).
      - eapply cs_step_steady; [exact IH|exact Hl|exact E].
      - eapply cs_evolve_steady; [exact IH|exact Hl|exact E].
      - destruct IH as (O & P & Q). split; [exact O|]. split; [exact P|]. intros u [].
      - apply steady_alloc, IH.
      - apply steady_write; [exact IH|exact Hl].
    Qed.
  End ConstantStep.

  Section AdaptiveStep.
    Variable k : consts (T F).
    Variable scfg : config (T F).
    Variable compute : href A -> href A -> exn + sval (T F).
    Notation obj := (asobj F (href A) Wd (has hnl sc)).

    Inductive as_history : obj -> Wd -> list nat -> Prop :=
    | ah_new lin H w Us s Hw : fresh_start lin H w Us -> h_new hnl sc lin H w = (s, Hw) ->
        as_history (mk_asobj (m := has hnl sc) [] [] 0%py 0%py false s) Hw Us
    | ah_step o Hw Us l h r o' Hw' : as_history o Hw Us -> In l Us ->
        as_step k scfg compute (l, hc (fst Hw) l) h o Hw = (r, o', Hw') ->
        as_history o' Hw' (refs_of (fun x => fst (fst (fst x))) r ++ Us)
    | ah_evolve o Hw Us l fuel t0 tf hi sd sf r o' Hw' : as_history o Hw Us -> In l Us ->
        as_evolve k scfg compute fuel (l, hc (fst Hw) l) t0 tf hi sd sf o Hw = (r, o', Hw') ->
        as_history o' Hw' ((refs_of fst r ++ map fst (a_u o')) ++ Us)
    | ah_reset o Hw Us : as_history o Hw Us -> as_history (as_reset_obj o) Hw Us
    | ah_alloc o H w Us c : as_history o (H, w) Us -> as_history o (hnew H c, w) (hn H :: Us)
    | ah_write o H w Us l c : as_history o (H, w) Us -> ~ In l (map fst (a_u o)) -> as_history o (hput H l c, w) Us.

    Lemma as_steady_objs (o : obj) Hw Us : steady (a_m o) (a_u o) Hw Us ->
      as_objs (m1 := has hnl sc) (m2 := has hnl sc) diag (pairs (contents (fst Hw) Us)) o Hw o Hw.
    Proof. intros S. constructor; try reflexivity; [apply (steady_diag S)|apply (steady_snaps S)]. Qed.

    Lemma as_step_loop_u : forall fuel nl u h (o : obj) w r o' w',
      as_step_loop k scfg compute fuel nl u h o w = (r, o', w') -> a_u o' = a_u o.
    Proof.
      induction fuel as [|fuel IH]; intros nl u h o w r o' w' E; cbn [as_step_loop] in E; [congruence|].
      destruct (as_upd (has hnl sc) (a_accept o) u (val h) (a_m o) w) as [[[e|[v er]] s1] w1]; [inversion E; reflexivity|].
      destruct (compute v er) as [e|sv]; [inversion E; reflexivity|]. destruct (accepts sv); [inversion E; reflexivity|].
      destruct (Nat.ltb (MAX_LOOPS k) (S nl)); [inversion E; reflexivity|].
      destruct (tltb F (val (reject_size k scfg sv h)) (minh scfg)); [inversion E; reflexivity|].
      apply IH in E. exact E.
    Qed.

    Lemma as_step_steady (o : obj) Hw Us l h r o' Hw' : steady (a_m o) (a_u o) Hw Us -> In l Us ->
      as_step k scfg compute (l, hc (fst Hw) l) h o Hw = (r, o', Hw') ->
      steady (a_m o') (a_u o') Hw' (refs_of (fun x => fst (fst (fst x))) r ++ Us) /\ forall l, In l Us -> hc (fst Hw') l = hc (fst Hw) l.
    Proof.
      intros S Hl E. assert (Q := as_step_related k scfg (as_diag compute) _ _ h (as_steady_objs _ S) (in_pairs (fst Hw) _ _ Hl)).
      rewrite E in Q. destruct Q as (L' & I' & [O1 _ _ _ _ O5] & R').
      assert (NU : a_u o' = a_u o).
      { unfold as_step in E. destruct (tleb F (tofZ F 0) (val h)); [|congruence]. eapply as_step_loop_u. exact E. }
      eapply diag_steady; [exact S|exact I'|exact O1|exact O5| |].
      - rewrite NU. intros u Hu. apply in_or_app. right. apply S, Hu.
      - destruct r as [[[[lr cr] h1] h2]|e|]; cbn [refs_of]; [|intros ? []|intros ? []].
        intros l1 [<-|[]]. exists cr. exact (proj1 R').
    Qed.
    Lemma as_evolve_steady (o : obj) Hw Us l fuel t0 tf hi sd sf r o' Hw' : steady (a_m o) (a_u o) Hw Us -> In l Us ->
      as_evolve k scfg compute fuel (l, hc (fst Hw) l) t0 tf hi sd sf o Hw = (r, o', Hw') ->
      steady (a_m o') (a_u o') Hw' ((refs_of fst r ++ map fst (a_u o')) ++ Us) /\ forall l, In l Us -> hc (fst Hw') l = hc (fst Hw) l.
    Proof.
      intros S Hl E.
      assert (Q := as_evolve_related k scfg (as_diag compute) fuel _ _ t0 tf hi sd sf (as_steady_objs _ S) (in_pairs (fst Hw) _ _ Hl)).
      rewrite E in Q. destruct Q as (L' & I' & [O1 _ _ _ _ O5] & R').
      eapply diag_steady; [exact S|exact I'|exact O1|exact O5| |].
      - intros u Hu. apply in_or_app. left. apply in_or_app. right. apply in_map, Hu.
      - intros l1 Hl1. apply in_app_or in Hl1. destruct Hl1 as [Hl1|Hl1].
        + destruct r as [[lr cr]|e|]; cbn [refs_of] in Hl1; [|destruct Hl1|destruct Hl1].
          destruct Hl1 as [<-|[]]. exists cr. exact R'.
        + apply in_map_iff in Hl1. destruct Hl1 as ([l2 c2] & <- & Hin). exists c2. cbn [fst].
          clear -O5 Hin. assert (K : forall a b, Forall2 (fun a b => In (a, b) L') a b -> a = b -> In (l2, c2) a -> In ((l2, c2), (l2, c2)) L').
          { induction 1; intros E' Hi; [destruct Hi|]. inversion E'; subst. destruct Hi as [->|Hi]; [assumption|auto]. }
          apply (K _ _ O5 eq_refl Hin).
    Qed.

    Theorem as_history_steady (o : obj) Hw Us : as_history o Hw Us -> steady (a_m o) (a_u o) Hw Us.
    Proof.
      induction 1 as [lin H w Us s Hw Hs E|o Hw Us l h r o' Hw' _ IH Hl E|o Hw Us l fuel t0 tf hi sd sf r o' Hw' _ IH Hl E
                     |o Hw Us _ IH|o H w Us c _ IH|o H w Us l c _ IH Hl].
      - exact (steady_new Hs E).
      - eapply as_step_steady; [exact IH|exact Hl|exact E].
      - eapply as_evolve_steady; [exact IH|exact Hl|exact E].
      - destruct IH as (O & P & Q). split; [exact O|]. split; [exact P|]. intros u [].
      - apply steady_alloc, IH.
      - apply steady_write; [exact IH|exact Hl].
    Qed.
  End AdaptiveStep.
End Frame.
