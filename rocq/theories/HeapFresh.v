(** * Every step returns a new array

    No strategy hands out an array it has handed out before, so the entries of [solver.u] never
    share memory with each other. *)

From Coq Require Import ZArith List Bool String Lia Arith.
From Verif Require Import Scalars Control ControlCS ControlCSReal ControlAS ControlRel Arrays SchemeBase SchemeIF SchemeETD4 SchemeETD5 Solvers
  Heap HeapSchemes HeapModel HeapRuns.
Import ListNotations.
Local Open Scope string_scope.
Local Open Scope list_scope.

Set Implicit Arguments.

Lemma map_NoDup {X Y} (g : X -> Y) l : (forall a b, In a l -> In b l -> g a = g b -> a = b) -> NoDup l -> NoDup (map g l).
Proof.
  intros Hg. induction l as [|x l IH]; intros N; [constructor|]. inversion N; subst. cbn [map]. constructor.
  - intros Hx. apply in_map_iff in Hx. destruct Hx as (y & E & Hy).
    assert (y = x) by (apply Hg; [right; exact Hy|left; reflexivity|exact E]). subst. contradiction.
  - apply IH; [|assumption]. intros a b Ha Hb. apply Hg; right; assumption.
Qed.

Section Fresh.
  Variable F : tops.
  Variable A : aops F.
  Variable W : Type.
  Variable hnl : nat -> heap A -> W -> (exn + nat) * heap A * W.
  Variables owned known : W -> nat -> Prop.
  Hypothesis HN : writes_own hnl owned known.
  Notation Wd := (heap A * W)%type.

  (** Does [x] hold an array built by this program (as opposed to an alias, or an array returned by
      the nonlinear function) when it ends? [b]: already so before. *)
  Fixpoint builds (x : string) (p : list (instr A)) (b : bool) : bool :=
    match p with
    | [] => b
    | Set_ y _ :: p | Try_ y _ :: p => builds x p (String.eqb y x || b)
    | Alias _ y _ :: p | Call _ y _ :: p => builds x p (negb (String.eqb y x) && b)
    | Write _ _ :: p => builds x p b
    end.

  Lemma hexec_builds mut x n0 : forall p D G D' G' b en H w en' H' w',
    wf mut p D G = Some (D', G') -> ok owned known mut D G en H w -> hexec hnl p en H w = (inr tt, en', H', w') ->
    n0 <= hn H -> (b = true -> n0 <= en x) -> builds x p b = true -> n0 <= en' x.
  Proof.
    induction p as [|i p IH]; intros D G D' G' b en H w en' H' w' Hwf O E Hn Hb HB.
    { cbn [hexec builds] in *. inversion E; subst. auto. }
    assert (ONE : forall en1 H1 w1, hexec hnl [i] en H w = (inr tt, en1, H1, w1) ->
      exists D1 G1, ok owned known mut D1 G1 en1 H1 w1 /\ hn H <= hn H1 /\ wf mut p D1 G1 = Some (D', G')).
    { intros en1 H1 w1 E1.
      assert (X : exists D1 G1, wf mut [i] D G = Some (D1, G1) /\ wf mut p D1 G1 = Some (D', G')).
      { destruct i as [y e|y e|y z|y z|y e]; cbn [wf] in Hwf |- *.
        - destruct (mem_s y mut); eauto.
        - destruct (mem_s y mut); eauto.
        - destruct (mem_s y mut || mem_s z mut); [discriminate|eauto].
        - destruct (mem_s y mut || mem_s z mut || negb (mem_s z G)); [discriminate|eauto].
        - destruct (mem_s y mut && mem_s y D); [eauto|discriminate]. }
      destruct X as (D1 & G1 & X1 & X2). destruct (hexec_frame HN [i] X1 O E1) as (D2 & G2 & O2 & _ & R2 & L2 & _).
      destruct (R2 eq_refl) as [-> ->]. eauto. }
    destruct i as [y e|y e|y z|y z|y e]; cbn [hexec] in E, ONE; cbn [builds] in HB.
    - destruct (ONE _ _ _ eq_refl) as (D1 & G1 & O1 & L1 & Hwf1).
      eapply IH; [exact Hwf1|exact O1|exact E|lia| |exact HB]. intros Hy. destruct (String.eqb_spec y x) as [->|N].
      + rewrite sset_same. exact Hn.
      + rewrite sset_other by exact N. auto.
    - destruct (e (look en H)) as [ex|c]; [discriminate|]. destruct (ONE _ _ _ eq_refl) as (D1 & G1 & O1 & L1 & Hwf1).
      eapply IH; [exact Hwf1|exact O1|exact E|lia| |exact HB]. intros Hy. destruct (String.eqb_spec y x) as [->|N].
      + rewrite sset_same. exact Hn.
      + rewrite sset_other by exact N. auto.
    - destruct (ONE _ _ _ eq_refl) as (D1 & G1 & O1 & L1 & Hwf1).
      eapply IH; [exact Hwf1|exact O1|exact E|lia| |exact HB]. intros Hy. destruct (String.eqb_spec y x) as [->|N]; [discriminate|].
      rewrite sset_other by exact N. auto.
    - destruct (hnl (en z) H w) as [[[ex|lr] H1] w1]; [discriminate|]. destruct (ONE _ _ _ eq_refl) as (D1 & G1 & O1 & L1 & Hwf1).
      eapply IH; [exact Hwf1|exact O1|exact E|lia| |exact HB]. intros Hy. destruct (String.eqb_spec y x) as [->|N]; [discriminate|].
      rewrite sset_other by exact N. auto.
    - destruct (ONE _ _ _ eq_refl) as (D1 & G1 & O1 & L1 & Hwf1).
      eapply IH; [exact Hwf1|exact O1|exact E|lia|exact Hb|exact HB].
  Qed.

  Variable sc : scheme A.
  Hypothesis HD : disciplined sc.
  Hypothesis HB : forall b a h, builds (sc_ret sc) (sc_stage sc b a h) false = true.

  Lemma g_update_fresh accept h (u : href A) s Hw s' Hw' : hok sc owned known s Hw -> hprot sc owned s Hw (fst u) ->
    g_update (hex hnl) sc accept h (set_arg u s) Hw = (inr tt, s', Hw') -> hn (fst Hw) <= g_vars s' (sc_ret sc).
  Proof.
    intros O P E. destruct Hw as [H w]. unfold hok, hprot in *. cbn [fst snd] in *.
    destruct (ok_arg HD O P) as [O0 P0]. unfold g_update, set_arg in E. cbn [g_h g_init g_vars] in E.
    set (h1 := if same_h F h (g_h s) then g_h s else Some h) in E.
    set (en0 := sset (g_vars s) "u" (fst u)) in *.
    assert (E1 : exists r1 en1 H1 w1,
      (if same_h F h (g_h s) then (inr tt, en0, (H, w)) else hex hnl (sc_coef sc h) en0 (H, w)) = (r1, en1, (H1, w1)) /\
      hn H <= hn H1 /\ (r1 = inr tt -> ok owned known (sc_mut sc) (sc_att sc) ["u"] en1 H1 w1)).
    { destruct (same_h F h (g_h s)).
      - exists (inr tt), en0, H, w. auto.
      - unfold hex. cbn [fst snd]. destruct (hexec hnl (sc_coef sc h) en0 H w) as [[[r1 en1] H1] w1] eqn:EC.
        destruct (d_coef HD h) as (D & G & Hwf & Hu). destruct (phase _ HN _ Hwf O0 EC) as (S1 & O1 & R1).
        exists r1, en1, H1, w1. split; [reflexivity|]. split; [apply S1|].
        intros R. apply (R1 R). intros x [<-|[]]. exact Hu. }
    destruct E1 as (r1 & en1 & H1 & w1 & E1 & S1 & R1). rewrite E1 in E. clear E1.
    destruct r1 as [e|[]]; [discriminate|].
    assert (E2 : exists r2 en2 H2 w2,
      (if g_init s then (inr tt, en1, (H1, w1)) else hex hnl (sc_init sc) en1 (H1, w1)) = (r2, en2, (H2, w2)) /\
      hn H1 <= hn H2 /\ (r2 = inr tt -> ok owned known (sc_mut sc) (sc_att sc) ["u"] en2 H2 w2)).
    { destruct (g_init s).
      - exists (inr tt), en1, H1, w1. split; [reflexivity|]. split; [lia|exact R1].
      - unfold hex. cbn [fst snd]. destruct (hexec hnl (sc_init sc) en1 H1 w1) as [[[r2 en2] H2] w2] eqn:EC.
        destruct (d_init HD) as (D & G & Hwf & Hu). destruct (phase _ HN _ Hwf (R1 eq_refl) EC) as (S2 & O2 & R2).
        exists r2, en2, H2, w2. split; [reflexivity|]. split; [apply S2|].
        intros R. apply (R2 R). intros x [<-|[]]. exact Hu. }
    destruct E2 as (r2 & en2 & H2 & w2 & E2 & S2 & R2). rewrite E2 in E. clear E2.
    destruct r2 as [e|[]]; [discriminate|]. unfold hex in E. cbn [fst snd] in E.
    destruct (hexec hnl (sc_stage sc (g_init s) accept h) en2 H2 w2) as [[[r3 en3] H3] w3] eqn:EC.
    destruct (d_stage HD (g_init s) accept h) as (D & G & Hwf & Hu).
    inversion E; subst. cbn [g_vars].
    eapply hexec_builds; [exact Hwf|exact (R2 eq_refl)|exact EC|lia| |apply HB]. discriminate.
  Qed.

  (** One update from a good state: again a good state, the candidate is a newer array than [u]. *)
  Lemma update_newer accept h (u : href A) s Hw s' Hw' : hok sc owned known s Hw -> hprot sc owned s Hw (fst u) ->
    g_update (hex hnl) sc accept h (set_arg u s) Hw = (inr tt, s', Hw') ->
    hok sc owned known s' Hw' /\ hprot sc owned s' Hw' (g_vars s' (sc_ret sc)) /\ fst u < g_vars s' (sc_ret sc).
  Proof.
    intros O P E. destruct (g_update_frame HN HD accept h u O P E) as (O' & _ & R').
    split; [exact O'|]. split; [apply R'; reflexivity|]. assert (Q := g_update_fresh accept h u O P E).
    destruct P as [P _]. cbn [fst] in P. lia.
  Qed.

  Definition good (s : gst F env) (Hw : Wd) (l : nat) : Prop := hok sc owned known s Hw /\ hprot sc owned s Hw l.

  (** Consecutive newer arrays: no repetition. *)
  Lemma newer_all (f : nat -> nat) n : (forall j, j < n -> f j < f (S j)) -> forall i j, i < j -> j <= n -> f i < f j.
  Proof.
    intros Hf i j Hij. induction Hij as [|j Hij IH]; intros Hj; [apply Hf; lia|].
    apply Nat.lt_trans with (f j); [apply IH; lia|apply Hf; lia].
  Qed.
  Lemma newer_snapshots (us : nat -> href A) f n : 1 <= f -> (forall j, j < n -> fst (us j) < fst (us (S j))) ->
    NoDup (map fst (snapshots f n us)).
  Proof.
    intros Hf Hn. unfold snapshots. rewrite map_map. apply map_NoDup.
    - intros i j Hi Hj E. apply in_seq in Hi, Hj. assert (f * (n / f) <= n) by (apply Nat.mul_div_le; lia).
      destruct (Nat.lt_trichotomy i j) as [X|[X|X]]; [|exact X|]; exfalso.
      + assert (Y : fst (us (i * f)) < fst (us (j * f))) by (apply (@newer_all (fun j => fst (us j)) n Hn); nia). lia.
      + assert (Y : fst (us (j * f)) < fst (us (i * f))) by (apply (@newer_all (fun j => fst (us j)) n Hn); nia). lia.
    - apply seq_NoDup.
  Qed.

  Theorem cs_snapshots_distinct fuel u t0 tf h f (o : csobj F (href A) Wd (hcs hnl sc)) Hw u' o' Hw' : 1 <= f ->
    good (c_m o) Hw (fst u) -> cs_evolve fuel u t0 tf h true (Z.of_nat f) o Hw = (Ret u', o', Hw') -> NoDup (map fst (c_u o')).
  Proof.
    intros Hf G E. apply cs_evolve_snapshots in E; [|exact Hf].
    destruct E as (n & us & sts & ws & H1 & H2 & H3 & H4 & H5 & H6 & H7 & H8 & H9).
    rewrite H9. apply newer_snapshots; [exact Hf|].
    assert (X : forall j, j <= n -> good (sts j) (ws j) (fst (us j)) /\ forall i, i < j -> fst (us i) < fst (us (S i))).
    { induction j as [|j IH]; intros Hj.
      - split; [|intros i Hi; lia]. rewrite H1, H2, H3. destruct G as [G1 G2]. split; [exact G1|exact G2].
      - destruct (IH ltac:(lia)) as [[G1 G2] I]. assert (S1 := H4 j Hj). cbn [hcs cs_upd] in S1. unfold hcs_upd in S1.
        destruct (g_update (hex hnl) sc false (val h) (set_arg (us j) (sts j)) (ws j)) as [[[e|[]] s1] w1] eqn:EG; [discriminate|].
        edestruct update_newer as (N1 & N2 & N3); [exact G1|exact G2|exact EG|]. injection S1 as S2 S3 S4. rewrite <- S2, <- S3, <- S4. cbn [handle fst].
        split; [split; [exact N1|exact N2]|]. intros i Hi. destruct (Nat.eq_dec i j) as [->|]; [|apply I; lia].
        rewrite <- S2. exact N3. }
    intros j Hj. apply (proj2 (X n (Nat.le_refl n))), Hj.
  Qed.

  Section AS.
    Variable k : consts (T F).
    Variable scfg : config (T F).
    Variable compute : href A -> href A -> exn + sval (T F).
    Notation obj := (asobj F (href A) Wd (has hnl sc)).

    Lemma as_step_loop_newer : forall fuel nl u h (o : obj) Hw u' h1 h2 o' Hw', good (a_m o) Hw (fst u) ->
      as_step_loop k scfg compute fuel nl u h o Hw = (Ret (u', h1, h2), o', Hw') -> good (a_m o') Hw' (fst u') /\ fst u < fst u'.
    Proof.
      induction fuel as [|fuel IH]; intros nl u h o Hw u' h1 h2 o' Hw' G E; cbn [as_step_loop] in E; [discriminate|].
      cbn [has as_upd] in E. unfold has_upd in E.
      destruct (g_update (hex hnl) sc (a_accept o) (val h) (set_arg u (a_m o)) Hw) as [[[e|[]] s1] w1] eqn:EG; [discriminate|].
      destruct G as [G1 G2]. edestruct update_newer as (N1 & N2 & N3); [exact G1|exact G2|exact EG|].
      destruct (g_update_frame HN HD _ _ u G1 G2 EG) as (_ & P' & _).
      match type of E with context [compute ?a ?b] => destruct (compute a b) as [e|sv]; [discriminate|] end.
      destruct (accepts sv).
      - inversion E; subst. cbn [set_accept set_meth a_m handle fst]. split; [split; [exact N1|exact N2]|exact N3].
      - destruct (Nat.ltb (MAX_LOOPS k) (S nl)); [discriminate|].
        destruct (tltb F (val (reject_size k scfg sv h)) (minh scfg)); [discriminate|].
        eapply IH; [|exact E]. split; [exact N1|]. apply P', G2.
    Qed.

    Theorem as_snapshots_distinct fuel u t0 tf hi f (o : obj) Hw u' o' Hw' : 1 <= f ->
      good (a_m o) Hw (fst u) -> as_evolve k scfg compute fuel u t0 tf hi true (Z.of_nat f) o Hw = (Ret u', o', Hw') -> NoDup (map fst (a_u o')).
    Proof.
      intros Hf G E. apply as_evolve_snapshots in E; [|exact Hf].
      destruct E as (n & us & os & ws & hin & hacc & hsug & tau & H1 & H2 & H3 & H4 & H5 & H6 & H7 & H8 & H9 & H10 & H11 & H12).
      rewrite H12. apply newer_snapshots; [exact Hf|].
      assert (X : forall j, j <= n -> good (a_m (os j)) (ws j) (fst (us j)) /\ forall i, i < j -> fst (us i) < fst (us (S i))).
      { induction j as [|j IH]; intros Hj.
        - split; [|intros i Hi; lia]. rewrite H1, H2, H4. destruct G as [G1 G2]. split; [exact G1|exact G2].
        - destruct (IH ltac:(lia)) as [GJ I]. destruct (H7 j Hj) as [(o1 & S1 & S2 & S3) _]. unfold as_step in S1.
          destruct (tleb F (tofZ F 0) (val (hin j))); [|discriminate].
          edestruct as_step_loop_newer as [N1 N2]; [exact GJ|exact S1|]. rewrite S3. split; [exact N1|].
          intros i Hi. destruct (Nat.eq_dec i j) as [->|]; [exact N2|apply I; lia]. }
      intros j Hj. apply (proj2 (X n (Nat.le_refl n))), Hj.
    Qed.
  End AS.
End Fresh.

(** All strategies build the array they return. *)
Section Builds.
  Variable F : tops.
  Variable A : aops F.
  Variable cfg : etdcfg F.
  Variable n : nat.
  Variables expm inv : mat A -> exn + mat A.
  Lemma cs_builds k b a h : let sc := cs_scheme cfg n expm inv k in builds (sc_ret sc) (sc_stage sc b a h) false = true.
  Proof. destruct k; lazy; reflexivity. Qed.
  Variables (Smat Sinv : mat A) (lam : vec A).
  Lemma as_builds k b a h : let sc := as_scheme cfg n expm inv Smat Sinv lam k in builds (sc_ret sc) (sc_stage sc b a h) false = true.
  Proof. destruct k, b, a; lazy; reflexivity. Qed.
End Builds.
