(** * Arrays as heap objects

    The scheme files treat arrays as values. In the Python code they are mutable objects and
    attributes are references to them. This file models that: a small language of array statements
    (everything the solver classes do with arrays), its execution on a heap of arrays shared with
    the user's nonlinear function, and its execution on plain values. Two theorems relate them:

    - [hexec_frame]: arrays that are not written in place by the program and do not belong to the
      nonlinear function keep their contents, whatever the nonlinear function does with its own arrays;
    - [hexec_value]: if the nonlinear function never overwrites an array it has returned, the heap
      execution computes the same values as the execution on values. *)

From Coq Require Import ZArith List Bool String FunctionalExtensionality Lia Arith.
From Verif Require Import Scalars Control Arrays SchemeBase.
Import ListNotations.

Set Implicit Arguments.

(** Attributes and local variables as references. *)
Notation env := (string -> nat) (only parsing).

Section Heap.
  Variable F : tops.
  Variable A : aops F.
  (** State of the outside world: in the execution on values; and in the execution on the heap,
      where it also tells which arrays the nonlinear function holds. *)
  Variables V W : Type.
  Variable pw : W -> V.

  (** Contents of an array object: 1-D, 2-D, or (IF45DP only) a plain float held by an attribute. *)
  Inductive cell := Vc (v : vec A) | Mc (m : mat A) | Sc (x : T F).
  Definition asv (c : cell) : vec A := match c with Vc v => v | _ => fun _ => lit A 0 end.
  Definition asm' (c : cell) : mat A := match c with Mc m => m | _ => mzero A end.
  Definition ass (c : cell) : T F := match c with Sc x => x | _ => tofZ F 0 end.

  (** Attributes and local variables by name, with their current contents. *)
  Local Notation store := (string -> cell).
  Definition sset {X} (s : string -> X) (x : string) (v : X) : string -> X :=
    fun y => if String.eqb x y then v else s y.

  (** Array statements. The right-hand sides are functions of the contents of the variables.
      - [Set_ x e]: [x = <numpy expression>]; numpy expressions build a new array;
      - [Try_ x e]: [x = f(...)] with a library routine that returns a new array or raises;
      - [Alias x y]: [x = y], no copy;
      - [Call x y]: [x = self.nl_func(y)];
      - [Write x e]: [x[idx] = ...] or [x += ...]: the array [x] refers to is changed in place and
        its new contents are [e]. *)
  Inductive instr :=
  | Set_ (x : string) (e : store -> cell)
  | Try_ (x : string) (e : store -> exn + cell)
  | Alias (x y : string)
  | Call (x y : string)
  | Write (x : string) (e : store -> cell).

  (** ** Execution on values *)
  Variable nl : vec A -> V -> (exn + vec A) * V.
  Fixpoint vexec (p : list instr) (s : store) (w : V) : (exn + unit) * store * V :=
    match p with
    | [] => (inr tt, s, w)
    | Set_ x e :: p => vexec p (sset s x (e s)) w
    | Try_ x e :: p => match e s with inl ex => (inl ex, s, w) | inr c => vexec p (sset s x c) w end
    | Alias x y :: p => vexec p (sset s x (s y)) w
    | Call x y :: p =>
        match nl (asv (s y)) w with
        | (inl ex, w') => (inl ex, s, w')
        | (inr v, w') => vexec p (sset s x (Vc v)) w'
        end
    | Write x e :: p => vexec p (sset s x (e s)) w
    end.

  (** ** Execution on a heap *)
  Record heap := mk_heap { hn : nat; hc : nat -> cell }.
  Definition hnew (H : heap) (c : cell) : heap :=
    mk_heap (S (hn H)) (fun l => if Nat.eqb l (hn H) then c else hc H l).
  Definition hput (H : heap) (l : nat) (c : cell) : heap :=
    mk_heap (hn H) (fun l' => if Nat.eqb l' l then c else hc H l').

  (** The nonlinear function as Python sees it: it receives a reference and the heap. *)
  Variable hnl : nat -> heap -> W -> (exn + nat) * heap * W.
  Definition look (en : env) (H : heap) : store := fun x => hc H (en x).
  Fixpoint hexec (p : list instr) (en : env) (H : heap) (w : W) : (exn + unit) * env * heap * W :=
    match p with
    | [] => (inr tt, en, H, w)
    | Set_ x e :: p => hexec p (sset en x (hn H)) (hnew H (e (look en H))) w
    | Try_ x e :: p =>
        match e (look en H) with
        | inl ex => (inl ex, en, H, w)
        | inr c => hexec p (sset en x (hn H)) (hnew H c) w
        end
    | Alias x y :: p => hexec p (sset en x (en y)) H w
    | Call x y :: p =>
        match hnl (en y) H w with
        | (inl ex, H', w') => (inl ex, en, H', w')
        | (inr l, H', w') => hexec p (sset en x l) H' w'
        end
    | Write x e :: p => hexec p en (hput H (en x) (e (look en H))) w
    end.

  (** ** What is asked of the nonlinear function

      [owned w l]: array [l] belongs to the nonlinear function, which may overwrite it at any call.
      [known w l]: the nonlinear function can reach [l] (its own arrays, arrays it was passed). *)
  Variables owned known : W -> nat -> Prop.

  (** It writes only to arrays of its own, gains only arrays it has created, reaches only what it
      was given, and returns an array it can reach (possibly its argument, possibly one of its own). *)
  Definition writes_own : Prop := forall x H w,
    (forall l, known w l -> l < hn H) -> (forall l, owned w l -> known w l) -> x < hn H -> ~ owned w x ->
    let '(r, H', w') := hnl x H w in
    hn H <= hn H' /\
    (forall l, l < hn H -> ~ owned w l -> hc H' l = hc H l) /\
    (forall l, owned w' l -> owned w l \/ hn H <= l) /\
    (forall l, owned w' l -> known w' l) /\
    (forall l, known w' l -> l < hn H' /\ (known w l \/ l = x \/ hn H <= l)) /\
    (forall l, r = inr l -> known w' l).

  (** It computes [nl] and keeps no right to overwrite the array it returns. *)
  Definition gives_away : Prop := forall x H w, (forall l, known w l -> l < hn H) -> x < hn H -> ~ owned w x ->
    let '(r, H', w') := hnl x H w in
    nl (asv (hc H x)) (pw w) = (match r with inl e => inl e | inr l => inr (asv (hc H' l)) end, pw w') /\
    (forall l, r = inr l -> ~ owned w' l /\ exists v, hc H' l = Vc v).

  (** ** Well-formed programs

      [mut] are the variables written in place. [D]: those of them that hold an array of their own.
      [G]: variables that hold an array not owned by the nonlinear function. *)
  Definition mem_s (x : string) (l : list string) : bool := existsb (String.eqb x) l.
  Definition rem_s (x : string) (l : list string) : list string := filter (fun y => negb (String.eqb x y)) l.
  Fixpoint wf (mut : list string) (p : list instr) (D G : list string) : option (list string * list string) :=
    match p with
    | [] => Some (D, G)
    | Set_ x _ :: p | Try_ x _ :: p =>
        if mem_s x mut then wf mut p (x :: D) (rem_s x G) else wf mut p D (x :: G)
    | Alias x y :: p =>
        if mem_s x mut || mem_s y mut then None
        else wf mut p D (if mem_s y G then x :: G else rem_s x G)
    | Call x y :: p =>
        if mem_s x mut || mem_s y mut || negb (mem_s y G) then None else wf mut p D (rem_s x G)
    | Write x _ :: p => if mem_s x mut && mem_s x D then wf mut p D G else None
    end.

  Lemma mem_In x l : mem_s x l = true <-> In x l.
  Proof.
    unfold mem_s. rewrite existsb_exists. split.
    - intros (y & Hy & E). apply String.eqb_eq in E. subst. exact Hy.
    - intros H. exists x. split; [exact H|apply String.eqb_refl].
  Qed.
  Lemma mem_notIn x l : mem_s x l = false <-> ~ In x l.
  Proof. rewrite <- mem_In. destruct (mem_s x l); split; congruence. Qed.
  Lemma rem_In x y l : In y (rem_s x l) <-> In y l /\ x <> y.
  Proof.
    unfold rem_s. rewrite filter_In, negb_true_iff, String.eqb_neq. tauto.
  Qed.

  Lemma sset_same {X} (s : string -> X) x v : sset s x v x = v.
  Proof. unfold sset. rewrite String.eqb_refl. reflexivity. Qed.
  Lemma sset_other {X} (s : string -> X) x y v : x <> y -> sset s x v y = s y.
  Proof. intros H. unfold sset. apply String.eqb_neq in H. rewrite H. reflexivity. Qed.

  (** ** State of a solver between two statements *)
  Variable mut : list string.
  Record ok (D G : list string) (en : env) (H : heap) (w : W) : Prop := {
    ok_mut : incl D mut;
    ok_alloc : forall x, en x < hn H;
    ok_sep : forall x, In x D -> ~ known w (en x) /\ forall y, y <> x -> en y <> en x;
    ok_good : forall x, In x G -> ~ In x mut /\ ~ owned w (en x);
    ok_known : forall l, known w l -> l < hn H;
    ok_owned : forall l, owned w l -> known w l }.

  (** Arrays the solver must leave alone: allocated, not owned by the nonlinear function, and not
      one of the arrays written in place. *)
  Definition prot (D : list string) (en : env) (H : heap) (w : W) (l : nat) : Prop :=
    l < hn H /\ ~ owned w l /\ forall x, In x D -> en x <> l.

  Lemma ok_weaken D D' G G' en H w : ok D' G' en H w -> incl D D' -> incl G G' -> ok D G en H w.
  Proof.
    intros [H1 H2 H3 H4 H5 H6] HD HG. constructor; auto. intros x Hx. apply H1, HD, Hx.
  Qed.
  Lemma prot_weaken D D' en H w l : prot D' en H w l -> incl D D' -> prot D en H w l.
  Proof. intros (H1 & H2 & H3) HD. repeat split; auto. Qed.

  Lemma hnew_old H c l : l < hn H -> hc (hnew H c) l = hc H l.
  Proof. intros Hl. cbn [hnew hc]. destruct (Nat.eqb_spec l (hn H)); [lia|reflexivity]. Qed.
  Lemma hnew_new H c : hc (hnew H c) (hn H) = c.
  Proof. cbn [hnew hc]. rewrite Nat.eqb_refl. reflexivity. Qed.

  (** Rebinding [x] to a new array. *)
  Lemma ok_new D G en H w x c : ok D G en H w ->
    ok (if mem_s x mut then x :: D else D) (if mem_s x mut then rem_s x G else x :: G)
       (sset en x (hn H)) (hnew H c) w.
  Proof.
    intros [H1 H2 H3 H4 H5 H6]. constructor.
    - destruct (mem_s x mut) eqn:E; [|exact H1]. apply mem_In in E. intros y [<-|Hy]; auto.
    - intros y. cbn [hnew hn]. destruct (String.eqb_spec x y) as [<-|N].
      + rewrite sset_same. lia.
      + rewrite sset_other by exact N. specialize (H2 y). lia.
    - intros y Hy.
      assert (HX : y = x -> ~ known w (sset en x (hn H) y) /\
                   forall z, z <> y -> sset en x (hn H) z <> sset en x (hn H) y).
      { intros ->. rewrite sset_same. split.
        - intros K. apply H5 in K. lia.
        - intros z Hz. rewrite sset_other by congruence. specialize (H2 z). lia. }
      destruct (string_dec y x) as [->|N]; [exact (HX eq_refl)|].
      assert (HyD : In y D). { destruct (mem_s x mut); [|exact Hy]. destruct Hy as [->|Hy]; [congruence|exact Hy]. }
      destruct (H3 y HyD) as [K1 K2]. rewrite (sset_other _ _ (not_eq_sym N)). split; [exact K1|].
      intros z Hz. destruct (string_dec z x) as [->|Nz].
      + rewrite sset_same. specialize (H2 y). lia.
      + rewrite (sset_other _ _ (not_eq_sym Nz)). apply K2, Hz.
    - intros y Hy. destruct (mem_s x mut) eqn:E.
      + apply rem_In in Hy. destruct Hy as [Hy N]. rewrite sset_other by exact N. apply H4, Hy.
      + apply mem_notIn in E. destruct (string_dec x y) as [<-|N].
        * rewrite sset_same. split; [exact E|]. intros O. apply H6, H5 in O. lia.
        * rewrite sset_other by exact N. destruct Hy as [Hy|Hy]; [congruence|]. apply H4, Hy.
    - intros l K. apply H5 in K. cbn [hnew hn]. lia.
    - exact H6.
  Qed.

  Lemma prot_new D en H w x c l : prot D en H w l ->
    prot (if mem_s x mut then x :: D else D) (sset en x (hn H)) (hnew H c) w l /\
    hc (hnew H c) l = hc H l.
  Proof.
    intros (H1 & H2 & H3). split; [|apply hnew_old, H1]. split; [cbn [hnew hn]; lia|]. split; [exact H2|].
    intros y Hy. destruct (string_dec x y) as [<-|N].
    - rewrite sset_same. lia.
    - rewrite sset_other by exact N. apply H3. destruct (mem_s x mut); [|exact Hy].
      destruct Hy as [->|Hy]; [congruence|exact Hy].
  Qed.

  (** The same with an empty continuation of [G]: enough for the state left by an exception. *)
  Hypothesis HN : writes_own.

  Theorem hexec_frame : forall p D G D' G' en H w r en' H' w',
    wf mut p D G = Some (D', G') -> ok D G en H w -> hexec p en H w = (r, en', H', w') ->
    exists D2 G2, ok D2 G2 en' H' w' /\ incl D D2 /\ (r = inr tt -> D2 = D' /\ G2 = G') /\ hn H <= hn H' /\
      forall l, prot D en H w l -> prot D2 en' H' w' l /\ hc H' l = hc H l.
  Proof.
    assert (TR : forall D D1 G1 D' G' r en H w en1 H1 w1 en' H' w',
      incl D D1 -> hn H <= hn H1 ->
      (forall l, prot D en H w l -> prot D1 en1 H1 w1 l /\ hc H1 l = hc H l) ->
      (exists D2 G2, ok D2 G2 en' H' w' /\ incl D1 D2 /\ (r = inr tt :> exn + unit -> D2 = D' /\ G2 = G') /\
         hn H1 <= hn H' /\ forall l, prot D1 en1 H1 w1 l -> prot D2 en' H' w' l /\ hc H' l = hc H1 l) ->
      ok D1 G1 en1 H1 w1 ->
      exists D2 G2, ok D2 G2 en' H' w' /\ incl D D2 /\ (r = inr tt -> D2 = D' /\ G2 = G') /\ hn H <= hn H' /\
        forall l, prot D en H w l -> prot D2 en' H' w' l /\ hc H' l = hc H l).
    { intros D D1 G1 D' G' r en H w en1 H1 w1 en' H' w' I1 L1 P1 (D2 & G2 & O2 & I2 & E2 & L2 & P2) _.
      exists D2, G2. split; [exact O2|]. split; [eapply incl_tran; eauto|]. split; [exact E2|]. split; [lia|].
      intros l Hl. destruct (P1 l Hl) as [Q1 C1]. destruct (P2 l Q1) as [Q2 C2]. split; [exact Q2|congruence]. }
    assert (ST : forall D G en H w, ok D G en H w ->
      forall D' G' r en' H' w', (r : exn + unit, en, H, w) = (r, en', H', w') -> (r = inr tt -> D = D' /\ G = G') ->
      exists D2 G2, ok D2 G2 en' H' w' /\ incl D D2 /\ (r = inr tt -> D2 = D' /\ G2 = G') /\ hn H <= hn H' /\
        forall l, prot D en H w l -> prot D2 en' H' w' l /\ hc H' l = hc H l).
    { intros D G en H w O D' G' r en' H' w' E HR. inversion E; subst. exists D, G.
      split; [exact O|]. split; [apply incl_refl|]. split; [exact HR|]. split; [lia|]. auto. }
    induction p as [|i p IH]; intros D G D' G' en H w r en' H' w' Hwf O E.
    { cbn [wf hexec] in *. inversion E; subst. inversion Hwf; subst. eapply ST; eauto. }
    destruct i as [x e|x e|x y|x y|x e]; cbn [wf hexec] in *.
    - (* Set_ *)
      assert (O1 := ok_new x (e (look en H)) O).
      assert (P1 : forall l, prot D en H w l -> prot (if mem_s x mut then x :: D else D) (sset en x (hn H)) (hnew H (e (look en H))) w l /\ hc (hnew H (e (look en H))) l = hc H l) by (intros l; apply prot_new).
      destruct (mem_s x mut); (eapply TR; [| | exact P1 | eapply IH; [exact Hwf|exact O1|exact E] | exact O1];
        [intros z Hz; try right; exact Hz | cbn [hnew hn]; lia]).
    - (* Try_ *)
      destruct (e (look en H)) as [ex|c].
      + inversion E; subst. exists D, G. split; [exact O|]. split; [apply incl_refl|]. split; [discriminate|].
        split; [lia|]. auto.
      + assert (O1 := ok_new x c O).
        assert (P1 : forall l, prot D en H w l -> prot (if mem_s x mut then x :: D else D) (sset en x (hn H)) (hnew H c) w l /\ hc (hnew H c) l = hc H l) by (intros l; apply prot_new).
        destruct (mem_s x mut); (eapply TR; [| | exact P1 | eapply IH; [exact Hwf|exact O1|exact E] | exact O1];
          [intros z Hz; try right; exact Hz | cbn [hnew hn]; lia]).
    - (* Alias *)
      destruct (mem_s x mut) eqn:Ex; [discriminate|]. destruct (mem_s y mut) eqn:Ey; [discriminate|]. cbn [orb] in Hwf.
      apply mem_notIn in Ex. apply mem_notIn in Ey.
      assert (O1 : ok D (if mem_s y G then x :: G else rem_s x G) (sset en x (en y)) H w).
      { destruct O as [H1 H2 H3 H4 H5 H6]. constructor; auto.
        - intros z. destruct (string_dec x z) as [<-|N]; [rewrite sset_same|rewrite sset_other by exact N]; apply H2.
        - intros z Hz. assert (Nz : x <> z) by (intros ->; apply Ex, H1, Hz). rewrite (sset_other _ _ Nz).
          destruct (H3 z Hz) as [K1 K2]. split; [exact K1|]. intros a Ha. destruct (string_dec x a) as [<-|N].
          + rewrite sset_same. apply K2. intros ->. apply Ey, H1, Hz.
          + rewrite sset_other by exact N. apply K2, Ha.
        - intros z Hz. destruct (mem_s y G) eqn:Eg.
          + apply mem_In in Eg. destruct (string_dec x z) as [<-|N].
            * rewrite sset_same. split; [exact Ex|apply H4, Eg].
            * rewrite sset_other by exact N. destruct Hz as [Hz|Hz]; [congruence|]. apply H4, Hz.
          + apply rem_In in Hz. destruct Hz as [Hz N]. rewrite sset_other by exact N. apply H4, Hz. }
      eapply TR; [apply incl_refl | | | eapply IH; [exact Hwf|exact O1|exact E] | exact O1]; [lia|].
      intros l (L1 & L2 & L3). split; [|reflexivity]. split; [exact L1|]. split; [exact L2|].
      intros z Hz. assert (Nz : x <> z) by (intros ->; apply Ex, (ok_mut O), Hz). rewrite (sset_other _ _ Nz). apply L3, Hz.
    - (* Call *)
      destruct (mem_s x mut) eqn:Ex; [discriminate|]. destruct (mem_s y mut) eqn:Ey; [discriminate|].
      destruct (mem_s y G) eqn:Eg; [|discriminate]. cbn [orb negb] in Hwf.
      apply mem_notIn in Ex. apply mem_notIn in Ey. apply mem_In in Eg.
      assert (C := @HN (en y) H w (ok_known O) (ok_owned O) (ok_alloc O y) (proj2 (ok_good O _ Eg))).
      destruct (hnl (en y) H w) as [[rr H1] w1]. destruct C as (C1 & C2 & C3 & C4 & C5 & C6).
      assert (OO : forall en1 G1, (forall z, en1 z < hn H1) -> (forall z, In z D -> en1 z = en z) ->
        (forall z, ~ In z D -> forall a, In a D -> en1 z <> en a) ->
        (forall z, In z G1 -> ~ In z mut /\ ~ owned w1 (en1 z)) -> ok D G1 en1 H1 w1).
      { intros en1 G1 A1 A2 A3 A4. destruct O as [O1 O2 O3 O4 O5 O6]. constructor; auto.
        - intros z Hz. rewrite (A2 z Hz). destruct (O3 z Hz) as [K1 K2]. split.
          + intros K. destruct (C5 _ K) as [_ [Q|[Q|Q]]].
            * exact (K1 Q).
            * symmetry in Q. revert Q. apply K2. intros ->. apply Ey, O1, Hz.
            * specialize (O2 z). lia.
          + intros a Ha. destruct (in_dec string_dec a D) as [Hd|Hd].
            * rewrite (A2 a Hd). apply K2, Ha.
            * apply A3; [exact Hd|exact Hz].
        - intros l K. apply (C5 l K). }
      assert (P1 : forall l, prot D en H w l -> l < hn H1 /\ ~ owned w1 l /\ hc H1 l = hc H l).
      { intros l (L1 & L2 & L3). split; [lia|]. split.
        - intros Q. destruct (C3 l Q) as [Q'|Q']; [exact (L2 Q')|lia].
        - apply C2; [exact L1|exact L2]. }
      destruct rr as [ex|lr].
      + inversion E; subst. exists D, []. split.
        { apply OO.
          - intros z. assert (Q := ok_alloc O z). lia.
          - reflexivity.
          - intros z Hz a Ha. apply (ok_sep O _ Ha). intros ->. exact (Hz Ha).
          - intros z []. }
        split; [apply incl_refl|]. split; [discriminate|]. split; [lia|].
        intros l Hl. destruct (P1 l Hl) as (Q1 & Q2 & Q3). split; [|exact Q3]. split; [exact Q1|]. split; [exact Q2|].
        apply Hl.
      + assert (KL := C6 _ eq_refl).
        assert (NL : forall a, In a D -> lr <> en a).
        { intros a Ha Q. subst lr. destruct (C5 _ KL) as [_ [Q|[Q|Q]]].
          - exact (proj1 (ok_sep O _ Ha) Q).
          - symmetry in Q. revert Q. apply (ok_sep O _ Ha). intros ->. apply Ey, (ok_mut O), Ha.
          - assert (Z := ok_alloc O a). lia. }
        assert (O1 : ok D (rem_s x G) (sset en x lr) H1 w1).
        { apply OO.
          - intros z. destruct (string_dec x z) as [<-|N]; [rewrite sset_same; apply (C5 _ KL)|].
            rewrite sset_other by exact N. assert (Q := ok_alloc O z). lia.
          - intros z Hz. apply sset_other. intros ->. apply Ex, (ok_mut O), Hz.
          - intros z Hz a Ha. destruct (string_dec x z) as [<-|N].
            + rewrite sset_same. apply NL, Ha.
            + rewrite sset_other by exact N. apply (ok_sep O _ Ha). intros ->. exact (Hz Ha).
          - intros z Hz. apply rem_In in Hz. destruct Hz as [Hz N]. rewrite sset_other by exact N.
            destruct (ok_good O _ Hz) as [Q1 Q2]. split; [exact Q1|]. intros Q. destruct (C3 _ Q) as [Q'|Q']; [exact (Q2 Q')|].
            assert (Z := ok_alloc O z). lia. }
        eapply TR; [apply incl_refl | | | eapply IH; [exact Hwf|exact O1|exact E] | exact O1]; [lia|].
        intros l Hl. destruct (P1 l Hl) as (Q1 & Q2 & Q3). split; [|exact Q3]. split; [exact Q1|]. split; [exact Q2|].
        intros z Hz. rewrite sset_other; [apply Hl, Hz|]. intros ->. apply Ex, (ok_mut O), Hz.
    - (* Write *)
      destruct (mem_s x mut) eqn:Ex; [|discriminate]. destruct (mem_s x D) eqn:Ed; [|discriminate]. cbn [andb] in Hwf.
      apply mem_In in Ed.
      assert (O1 : ok D G en (hput H (en x) (e (look en H))) w) by (destruct O; constructor; auto).
      eapply TR; [apply incl_refl | | | eapply IH; [exact Hwf|exact O1|exact E] | exact O1]; [cbn; lia|].
      intros l (L1 & L2 & L3). split; [repeat split; auto|]. cbn [hput hc].
      destruct (Nat.eqb_spec l (en x)) as [->|]; [elim (L3 x Ed eq_refl)|reflexivity].
  Qed.

  (** ** Agreement with the execution on values *)
  Hypothesis HG : gives_away.
  Definition agrees (en : env) (H : heap) (w : W) (s : store) : Prop :=
    forall x, ~ owned w (en x) /\ hc H (en x) = s x.

  Lemma agrees_look en H w s : agrees en H w s -> look en H = s.
  Proof. intros HA. apply functional_extensionality. intros x. apply HA. Qed.

  Theorem hexec_value : forall p D G D' G' en H w s r en' H' w',
    wf mut p D G = Some (D', G') -> ok D G en H w -> agrees en H w s -> hexec p en H w = (r, en', H', w') ->
    exists s', vexec p s (pw w) = (r, s', pw w') /\ agrees en' H' w' s'.
  Proof.
    induction p as [|i p IH]; intros D G D' G' en H w s r en' H' w' Hwf O HA E.
    { cbn [hexec vexec] in *. inversion E; subst; exists s. split; [reflexivity|exact HA]. }
    assert (EL := agrees_look HA).
    assert (NEW : forall x c, agrees (sset en x (hn H)) (hnew H c) w (sset s x c)).
    { intros x c y. destruct (string_dec x y) as [<-|N].
      - rewrite !sset_same, hnew_new. split; [|reflexivity]. intros Q. apply (ok_owned O), (ok_known O) in Q. lia.
      - rewrite !(sset_other _ _ N). rewrite hnew_old by apply (ok_alloc O). apply HA. }
    destruct i as [x e|x e|x y|x y|x e]; cbn [wf hexec vexec] in *.
    - rewrite EL in E. assert (O1 := ok_new x (e s) O).
      destruct (mem_s x mut); (eapply IH; [exact Hwf|exact O1|apply NEW|exact E]).
    - rewrite EL in E. destruct (e s) as [ex|c].
      + clear EL NEW; inversion E; subst; exists s. split; [reflexivity|exact HA].
      + assert (O1 := ok_new x c O).
        destruct (mem_s x mut); (eapply IH; [exact Hwf|exact O1|apply NEW|exact E]).
    - destruct (mem_s x mut) eqn:Ex; [discriminate|]. destruct (mem_s y mut) eqn:Ey; [discriminate|]. cbn [orb] in Hwf.
      destruct (hexec_frame [Alias x y] (D := D) (G := G) (en := en) (H := H) (w := w)
                  (r := inr tt) (en' := sset en x (en y)) (H' := H) (w' := w)
                  (D' := D) (G' := if mem_s y G then x :: G else rem_s x G)) as (D2 & G2 & O1 & _ & Q & _);
        [cbn [wf]; rewrite Ex, Ey; reflexivity|exact O|reflexivity|].
      destruct (Q eq_refl) as [-> ->].
      eapply IH; [exact Hwf|exact O1| |exact E].
      intros z. destruct (string_dec x z) as [<-|N]; [rewrite !sset_same|rewrite !(sset_other _ _ N)]; apply HA.
    - destruct (mem_s x mut) eqn:Ex; [discriminate|]. destruct (mem_s y mut) eqn:Ey; [discriminate|].
      destruct (mem_s y G) eqn:Eg; [|discriminate]. cbn [orb negb] in Hwf.
      assert (C := @HG (en y) H w (ok_known O) (ok_alloc O y) (proj1 (HA y))).
      assert (C' := @HN (en y) H w (ok_known O) (ok_owned O) (ok_alloc O y) (proj1 (HA y))).
      assert (FR : forall r1 H1 w1 en1, hexec [Call x y] en H w = (r1, en1, H1, w1) ->
        exists D2 G2, ok D2 G2 en1 H1 w1 /\ (r1 = inr tt -> D2 = D /\ G2 = rem_s x G)).
      { intros r1 H1 w1 en1 E1.
        destruct (hexec_frame [Call x y] (D := D) (G := G) (D' := D) (G' := rem_s x G) (en := en) (H := H) (w := w)
                    (r := r1) (en' := en1) (H' := H1) (w' := w1)) as (D2 & G2 & O1 & _ & Q & _);
          [cbn [wf]; rewrite Ex, Ey, Eg; reflexivity|exact O|exact E1|]. exists D2, G2. split; assumption. }
      cbn [hexec] in FR.
      rewrite <- (proj2 (HA y)). destruct (hnl (en y) H w) as [[rr H1] w1]. destruct C as [C1 C2].
      destruct C' as (C3 & C4 & C5 & _ & _ & _). rewrite C1.
      assert (OLD : forall z, ~ owned w1 (en z) /\ hc H1 (en z) = s z).
      { intros z. destruct (HA z) as [Q1 Q2]. split.
        - intros Q. destruct (C5 _ Q) as [Q'|Q']; [exact (Q1 Q')|]. assert (Z := ok_alloc O z). lia.
        - rewrite C4; [exact Q2|apply (ok_alloc O)|exact Q1]. }
      destruct rr as [ex|lr].
      + clear EL NEW; inversion E; subst; exists s. split; [reflexivity|exact OLD].
      + destruct (FR _ _ _ _ eq_refl) as (D2 & G2 & O1 & Q). destruct (Q eq_refl) as [-> ->].
        destruct (C2 _ eq_refl) as [C6 [v Cv]].
        eapply IH; [exact Hwf|exact O1| |exact E].
        intros z. destruct (string_dec x z) as [<-|N].
        * rewrite !sset_same. split; [exact C6|]. rewrite Cv. reflexivity.
        * rewrite !(sset_other _ _ N). apply OLD.
    - destruct (mem_s x mut) eqn:Ex; [|discriminate]. destruct (mem_s x D) eqn:Ed; [|discriminate]. cbn [andb] in Hwf.
      apply mem_In in Ed. rewrite EL in E.
      assert (O1 : ok D G en (hput H (en x) (e s)) w) by (destruct O; constructor; auto).
      eapply IH; [exact Hwf|exact O1| |exact E].
      intros z. cbn [hput hc]. split; [apply HA|]. destruct (string_dec x z) as [<-|N].
      + rewrite sset_same, Nat.eqb_refl. reflexivity.
      + rewrite (sset_other _ _ N). destruct (Nat.eqb_spec (en z) (en x)) as [Q|_]; [|apply HA].
        elim (proj2 (ok_sep O _ Ed) z (not_eq_sym N) Q).
  Qed.
End Heap.

(** Attributes and local variables by name, with their current contents. *)
Notation store A := (string -> cell A) (only parsing).
