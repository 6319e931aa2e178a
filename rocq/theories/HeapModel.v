(** * The solver objects on the heap

    The wrapper methods of the sixteen strategies ([_update_stages], [_update_coeffs], [_reset])
    over the array programs of [HeapSchemes.v], as methods for the control layer of [Control.v],
    and the guarantee that they never write to an array they should leave alone. *)

From Coq Require Import ZArith List Bool String Lia Arith.
From Verif Require Import Scalars Control Arrays SchemeBase SchemeIF SchemeETD4 SchemeETD5 Solvers Heap HeapSchemes.
Import ListNotations.
Local Open Scope string_scope.

Set Implicit Arguments.

(** Attributes of a solver object: step size of the cached coefficients, first-stage flag, array
    attributes (with the local variables of the last call, which no later call reads). *)
Record gst (F : tops) (S : Type) := mk_gst { g_h : option (T F); g_init : bool; g_vars : S }.
Arguments mk_gst {F S} _ _ _.  Arguments g_h {F S} g.  Arguments g_init {F S} g.  Arguments g_vars {F S} g.

Section Wrapper.
  Variable F : tops.
  Variable A : aops F.
  Variables S WW : Type.
  (** Execution of a list of array statements, on values or on the heap. *)
  Variable ex : list (instr A) -> S -> WW -> (exn + unit) * S * WW.
  Variable sc : scheme A.

  (** [_update_stages] with the calls it makes, same lines as [s_update_coeffs],
      [cs_update_stages] and [as_update_stages] in [SchemeBase.v] and [dp_update_stages] in
      [SchemeIF.v]. *)
  Definition g_update (accept : bool) (h : T F) (s : gst F S) (w : WW) : (exn + unit) * gst F S * WW :=
    let h1 := if same_h F h (g_h s) then g_h s else Some h in
    let '(r1, v1, w1) := if same_h F h (g_h s) then (inr tt, g_vars s, w) else ex (sc_coef sc h) (g_vars s) w in
    match r1 with
    | inl e => (inl e, mk_gst h1 (g_init s) v1, w1)
    | inr _ =>
        let '(r2, v2, w2) := if g_init s then (inr tt, v1, w1) else ex (sc_init sc) v1 w1 in
        match r2 with
        | inl e => (inl e, mk_gst h1 (g_init s) v2, w2)
        | inr _ => let '(r3, v3, w3) := ex (sc_stage sc (g_init s) accept h) v2 w2 in (r3, mk_gst h1 true v3, w3)
        end
    end.

  (** [_reset] (cited at [s_reset] in [SchemeBase.v]). *)
  Definition g_reset (s : gst F S) : gst F S := mk_gst None false (g_vars s).
End Wrapper.

(** A reference, and the contents of the array when the reference was handed over. Only the
    reference is used by [update_stages]; [_compute_s] reads the arrays right after it returned. *)
Notation href A := (nat * cell A)%type (only parsing).

Section HeapObjects.
  Variable F : tops.
  Variable A : aops F.
  Variable W : Type.
  Variable hnl : nat -> heap A -> W -> (exn + nat) * heap A * W.
  Variable sc : scheme A.

  Definition hex (p : list (instr A)) (en : env) (Hw : heap A * W) : (exn + unit) * env * (heap A * W) :=
    let '(r, en', H', w') := hexec hnl p en (fst Hw) (snd Hw) in (r, en', (H', w')).

  Definition set_arg (u : (href A)) (s : gst F env) : gst F env :=
    mk_gst (g_h s) (g_init s) (sset (g_vars s) "u" (fst u)).
  Definition handle (en : env) (H : heap A) (x : string) : (href A) := (en x, hc H (en x)).

  Definition hcs_upd (u : (href A)) (h : T F) (s : gst F env) (Hw : heap A * W) : (exn + (href A)) * gst F env * (heap A * W) :=
    let '(r, s', Hw') := g_update hex sc false h (set_arg u s) Hw in
    (match r with inl e => inl e | inr _ => inr (handle (g_vars s') (fst Hw') (sc_ret sc)) end, s', Hw').
  Definition has_upd (accept : bool) (u : (href A)) (h : T F) (s : gst F env) (Hw : heap A * W)
    : (exn + (href A) * (href A)) * gst F env * (heap A * W) :=
    let '(r, s', Hw') := g_update hex sc accept h (set_arg u s) Hw in
    (match r with
     | inl e => inl e
     | inr _ => inr (handle (g_vars s') (fst Hw') (sc_ret sc), handle (g_vars s') (fst Hw') (sc_err sc))
     end, s', Hw').
  Definition hcs : csm (T F) (href A) (heap A * W) := mk_csm (T F) (href A) (heap A * W) (gst F env) (@g_reset F env) hcs_upd.
  Definition has : asm (T F) (href A) (heap A * W) := mk_asm (T F) (href A) (heap A * W) (gst F env) (@g_reset F env) has_upd.

  (** Constructor, given the user's [lin_op]: names not yet bound refer to that array too. *)
  Definition h_new (lin : nat) (H : heap A) (w : W) : gst F env * (heap A * W) :=
    let '(_, en, Hw) := hex (sc_new sc) (fun _ => lin) (H, w) in (mk_gst None false en, Hw).

  (** ** Frame *)
  Variables owned known : W -> nat -> Prop.
  Hypothesis HN : writes_own hnl owned known.
  Notation mut := (sc_mut sc).
  Notation att := (sc_att sc).

  Definition is_set (i : instr A) : bool := match i with Set_ _ _ => true | _ => false end.
  Lemma plain_runs : forall p, forallb is_set p = true -> forall en H w r en' H' w',
    hexec hnl p en H w = (r, en', H', w') -> r = inr tt.
  Proof.
    induction p as [|i p IH]; intros Hp en H w r en' H' w' E; cbn [hexec] in E; [congruence|].
    destruct i; try discriminate. eapply IH; [exact Hp|exact E].
  Qed.

  (** The programs obey the discipline of [wf]; the constructor only binds new arrays. *)
  Record disciplined : Prop := {
    d_att : incl att mut;
    d_u : ~ In "u" mut;
    d_plain : forallb is_set (sc_new sc) = true;
    d_new : exists D G, wf mut (sc_new sc) [] [] = Some (D, G) /\ incl att D;
    d_coef : forall h, exists D G, wf mut (sc_coef sc h) att ["u"] = Some (D, G) /\ In "u" G;
    d_init : exists D G, wf mut (sc_init sc) att ["u"] = Some (D, G) /\ In "u" G;
    d_stage : forall b a h, exists D G, wf mut (sc_stage sc b a h) att ["u"] = Some (D, G) /\ In (sc_ret sc) G }.
  Hypothesis HD : disciplined.

  (** State of a solver between two calls. *)
  Definition hok (s : gst F env) (Hw : heap A * W) : Prop := ok owned known mut att [] (g_vars s) (fst Hw) (snd Hw).
  (** Arrays to be left alone. *)
  Definition hprot (s : gst F env) (Hw : heap A * W) (l : nat) : Prop := prot owned att (g_vars s) (fst Hw) (snd Hw) l.

  (** Several phases: what [hexec_frame] gives, with [att] as the set of in-place arrays. *)
  Definition step_frame (en : env) (H : heap A) (w : W) (en' : env) (H' : heap A) (w' : W) : Prop :=
    hn H <= hn H' /\ forall l, prot owned att en H w l -> prot owned att en' H' w' l /\ hc H' l = hc H l.

  Lemma step_frame_trans en H w en1 H1 w1 en2 H2 w2 :
    step_frame en H w en1 H1 w1 -> step_frame en1 H1 w1 en2 H2 w2 -> step_frame en H w en2 H2 w2.
  Proof.
    intros [A1 B1] [A2 B2]. split; [lia|]. intros l Hl. destruct (B1 l Hl) as [C1 E1]. destruct (B2 l C1) as [C2 E2].
    split; [exact C2|congruence].
  Qed.
  Lemma step_frame_refl en H w : step_frame en H w en H w.
  Proof. split; [lia|]. auto. Qed.

  Lemma phase p G0 D G en H w r en' H' w' : wf mut p att G0 = Some (D, G) -> ok owned known mut att G0 en H w ->
    hexec hnl p en H w = (r, en', H', w') ->
    step_frame en H w en' H' w' /\ ok owned known mut att [] en' H' w' /\
    (r = inr tt -> forall G1, incl G1 G -> ok owned known mut att G1 en' H' w').
  Proof.
    intros Hwf O E. destruct (hexec_frame HN p Hwf O E) as (D2 & G2 & O2 & I2 & R2 & L2 & P2).
    split; [|split].
    - split; [exact L2|]. intros l Hl. destruct (P2 l Hl) as [Q1 Q2]. split; [|exact Q2].
      eapply prot_weaken; [exact Q1|exact I2].
    - eapply ok_weaken; [exact O2|exact I2|intros x []].
    - intros R G1 HG1. destruct (R2 R) as [-> ->]. eapply ok_weaken; [exact O2|exact I2|exact HG1].
  Qed.

  Lemma ok_arg G en (H : heap A) w l : ok owned known mut att G en H w -> prot owned att en H w l ->
    ok owned known mut att ["u"] (sset en "u" l) H w /\
    forall l', prot owned att en H w l' -> prot owned att (sset en "u" l) H w l'.
  Proof.
    intros [H1 H2 H3 H4 H5 H6] (L1 & L2 & L3).
    assert (Nu : forall x, In x att -> "u" <> x) by (intros x Hx <-; apply (d_u HD), H1, Hx).
    split.
    - constructor; auto.
      + intros x. destruct (string_dec "u" x) as [<-|N]; [rewrite sset_same; exact L1|rewrite sset_other by exact N; apply H2].
      + intros x Hx. rewrite (sset_other _ _ (Nu x Hx)). destruct (H3 x Hx) as [K1 K2]. split; [exact K1|].
        intros y Hy. destruct (string_dec "u" y) as [<-|N].
        * rewrite sset_same. apply not_eq_sym, L3, Hx.
        * rewrite sset_other by exact N. apply K2, Hy.
      + intros x [<-|[]]. rewrite sset_same. split; [apply (d_u HD)|exact L2].
    - intros l' (M1 & M2 & M3). split; [exact M1|]. split; [exact M2|]. intros x Hx.
      rewrite (sset_other _ _ (Nu x Hx)). apply M3, Hx.
  Qed.

  (** One call of [_update_stages] from any state of the object, whatever its outcome: the arrays
      to be left alone keep their contents and stay so; the candidate is one of them. *)
  Theorem g_update_frame accept h u s Hw r s' Hw' : hok s Hw -> hprot s Hw (fst u) ->
    g_update hex sc accept h (set_arg u s) Hw = (r, s', Hw') ->
    hok s' Hw' /\ (forall l, hprot s Hw l -> hprot s' Hw' l /\ hc (fst Hw') l = hc (fst Hw) l) /\
    (r = inr tt -> hprot s' Hw' (g_vars s' (sc_ret sc))).
  Proof.
    intros O P E. destruct Hw as [H w]. unfold hok, hprot in *. cbn [fst snd] in *.
    destruct (ok_arg O P) as [O0 P0]. unfold g_update, set_arg in E. cbn [g_h g_init g_vars] in E.
    set (h1 := if same_h F h (g_h s) then g_h s else Some h) in E.
    set (en0 := sset (g_vars s) "u" (fst u)) in *.
    assert (E1 : exists r1 en1 H1 w1,
      (if same_h F h (g_h s) then (inr tt, en0, (H, w)) else hex (sc_coef sc h) en0 (H, w)) = (r1, en1, (H1, w1)) /\
      step_frame en0 H w en1 H1 w1 /\ ok owned known mut att [] en1 H1 w1 /\
      (r1 = inr tt -> ok owned known mut att ["u"] en1 H1 w1)).
    { destruct (same_h F h (g_h s)).
      - exists (inr tt), en0, H, w. split; [reflexivity|]. split; [apply step_frame_refl|].
        split; [eapply ok_weaken; [exact O0|apply incl_refl|intros x []]|auto].
      - unfold hex. cbn [fst snd]. destruct (hexec hnl (sc_coef sc h) en0 H w) as [[[r1 en1] H1] w1] eqn:EC.
        destruct (d_coef HD h) as (D & G & Hwf & Hu). destruct (phase _ Hwf O0 EC) as (S1 & O1 & R1).
        exists r1, en1, H1, w1. split; [reflexivity|]. split; [exact S1|]. split; [exact O1|].
        intros R. apply (R1 R). intros x [<-|[]]. exact Hu. }
    destruct E1 as (r1 & en1 & H1 & w1 & E1 & S1 & O1 & R1). rewrite E1 in E. clear E1.
    destruct r1 as [e|[]].
    { inversion E; subst. cbn [g_vars fst snd]. split; [exact O1|]. split; [|discriminate].
      intros l Hl. apply S1, P0, Hl. }
    assert (E2 : exists r2 en2 H2 w2,
      (if g_init s then (inr tt, en1, (H1, w1)) else hex (sc_init sc) en1 (H1, w1)) = (r2, en2, (H2, w2)) /\
      step_frame en1 H1 w1 en2 H2 w2 /\ ok owned known mut att [] en2 H2 w2 /\
      (r2 = inr tt -> ok owned known mut att ["u"] en2 H2 w2)).
    { destruct (g_init s).
      - exists (inr tt), en1, H1, w1. split; [reflexivity|]. split; [apply step_frame_refl|].
        split; [exact O1|exact R1].
      - unfold hex. cbn [fst snd]. destruct (hexec hnl (sc_init sc) en1 H1 w1) as [[[r2 en2] H2] w2] eqn:EC.
        destruct (d_init HD) as (D & G & Hwf & Hu). destruct (phase _ Hwf (R1 eq_refl) EC) as (S2 & O2 & R2).
        exists r2, en2, H2, w2. split; [reflexivity|]. split; [exact S2|]. split; [exact O2|].
        intros R. apply (R2 R). intros x [<-|[]]. exact Hu. }
    destruct E2 as (r2 & en2 & H2 & w2 & E2 & S2 & O2 & R2). rewrite E2 in E. clear E2.
    assert (S12 := step_frame_trans S1 S2).
    destruct r2 as [e|[]].
    { inversion E; subst. cbn [g_vars fst snd]. split; [exact O2|]. split; [|discriminate].
      intros l Hl. apply S12, P0, Hl. }
    unfold hex in E. cbn [fst snd] in E.
    destruct (hexec hnl (sc_stage sc (g_init s) accept h) en2 H2 w2) as [[[r3 en3] H3] w3] eqn:EC.
    destruct (d_stage HD (g_init s) accept h) as (D & G & Hwf & Hu).
    destruct (phase _ Hwf (R2 eq_refl) EC) as (S3 & O3 & R3). inversion E; subst. cbn [g_vars fst snd].
    split; [exact O3|]. split.
    - intros l Hl. apply (step_frame_trans S12 S3), P0, Hl.
    - intros R. assert (O4 := R3 R [sc_ret sc] ltac:(intros x [<-|[]]; exact Hu)).
      destruct (ok_good O4 _ (or_introl eq_refl)) as [N1 N2].
      split; [apply (ok_alloc O4)|]. split; [exact N2|].
      intros x Hx. apply not_eq_sym, (ok_sep O4 _ Hx). intros <-. apply N1, (d_att HD), Hx.
  Qed.

  (** The constructor: a good state, and no array that existed before is touched. *)
  Theorem h_new_frame lin H w s Hw' : (forall l, known w l -> l < hn H) -> (forall l, owned w l -> known w l) ->
    lin < hn H -> h_new lin H w = (s, Hw') ->
    hok s Hw' /\ g_init s = false /\ g_h s = None /\ hn H <= hn (fst Hw') /\
    forall l, l < hn H -> ~ owned w l -> hprot s Hw' l /\ hc (fst Hw') l = hc H l.
  Proof.
    intros K1 K2 HL E. unfold h_new, hex in E. cbn [fst snd] in E.
    destruct (hexec hnl (sc_new sc) (fun _ => lin) H w) as [[[r en] H'] w'] eqn:EC.
    inversion E; subst. unfold hok, hprot. cbn [g_vars g_init g_h fst snd].
    destruct (d_new HD) as (D & G & Hwf & HI).
    assert (O0 : ok owned known mut [] [] (fun _ => lin) H w).
    { constructor; auto; intros x []. }
    destruct (hexec_frame HN (sc_new sc) Hwf O0 EC) as (D2 & G2 & O2 & I2 & R2 & L2 & P2).
    assert (RR := plain_runs _ (d_plain HD) _ _ _ EC).
    destruct (R2 RR) as [-> ->].
    split; [eapply ok_weaken; [exact O2|exact HI|intros x []]|]. split; [reflexivity|]. split; [reflexivity|].
    split; [exact L2|]. intros l Hl No.
    destruct (P2 l) as [Q1 Q2]; [split; [exact Hl|]; split; [exact No|intros x []]|].
    split; [|exact Q2]. eapply prot_weaken; [exact Q1|exact HI].
  Qed.
End HeapObjects.

(** ** The sixteen strategies obey the discipline *)
Section Discipline.
  Variable F : tops.
  Variable A : aops F.
  Variable cfg : etdcfg F.
  Variable n : nat.
  Variables expm inv : mat A -> exn + mat A.

  Lemma wf_points4 : forall pts p D G, incl ["psi1_12"; "psi2_12"; "psi1_1"; "psi2_1"; "psi3_1"] D ->
    exists G', wf ["psi1_12"; "psi2_12"; "psi1_1"; "psi2_1"; "psi3_1"] (flat_map (hetd4_point cfg inv) pts ++ p) D G =
               wf ["psi1_12"; "psi2_12"; "psi1_1"; "psi2_1"; "psi3_1"] p D G' /\ incl G G'.
  Proof.
    induction pts as [|x pts IH]; intros p D G HI.
    { exists G. split; [reflexivity|apply incl_refl]. }
    destruct (IH p D ("Q2" :: "Q" :: G) HI) as (G' & E & I). exists G'. split; [|intros y Hy; apply I; right; right; exact Hy].
    cbn [flat_map]. rewrite <- app_assoc. rewrite <- E. unfold hetd4_point, lib. cbn [app wf].
    assert (M : forall y, In y ["psi1_12"; "psi2_12"; "psi1_1"; "psi2_1"; "psi3_1"] -> mem_s y D = true).
    { intros y Hy. apply mem_In, HI, Hy. }
    rewrite !M by (cbn [In]; tauto). reflexivity.
  Qed.
  Lemma wf_points5 : forall pts p D G,
    incl ["psi1_14"; "psi2_14"; "psi1_12"; "psi2_12"; "psi1_34"; "psi2_34"; "psi1_1"; "psi2_1"; "psi3_1"] D ->
    exists G', wf ["psi1_14"; "psi2_14"; "psi1_12"; "psi2_12"; "psi1_34"; "psi2_34"; "psi1_1"; "psi2_1"; "psi3_1"]
                 (flat_map (hetd5_point cfg inv) pts ++ p) D G =
               wf ["psi1_14"; "psi2_14"; "psi1_12"; "psi2_12"; "psi1_34"; "psi2_34"; "psi1_1"; "psi2_1"; "psi3_1"] p D G' /\
      incl G G'.
  Proof.
    induction pts as [|x pts IH]; intros p D G HI.
    { exists G. split; [reflexivity|apply incl_refl]. }
    destruct (IH p D ("Q" :: "Q34" :: "Q12" :: "Q14" :: G) HI) as (G' & E & I). exists G'.
    split; [|intros y Hy; apply I; do 4 right; exact Hy].
    cbn [flat_map]. rewrite <- app_assoc. rewrite <- E. unfold hetd5_point, lib. cbn [app wf].
    assert (M : forall y, In y ["psi1_14"; "psi2_14"; "psi1_12"; "psi2_12"; "psi1_34"; "psi2_34"; "psi1_1"; "psi2_1"; "psi3_1"] ->
                mem_s y D = true).
    { intros y Hy. apply mem_In, HI, Hy. }
    rewrite !M by (cbn [In]; tauto). reflexivity.
  Qed.

  Ltac inc := first [apply mem_In; reflexivity | cbn [In]; tauto].
  Ltac straight := do 2 eexists; split; [lazy; reflexivity|apply mem_In; lazy; reflexivity].
  Ltac notin := let H := fresh in intros H; apply mem_In in H; discriminate H.
  Ltac incl_lists := let x := fresh in let H := fresh in intros x H; apply mem_In; cbn [In] in H;
    repeat (destruct H as [<-|H]; [reflexivity|]); destruct H.

  Lemma wf_coef4 h : forall c, c = hetd4n_coef cfg expm inv h \/ c = hetd34n_coef cfg expm inv h ->
    exists D G, wf ["psi1_12"; "psi2_12"; "psi1_1"; "psi2_1"; "psi3_1"] c [] ["u"] = Some (D, G) /\ In "u" G.
  Proof.
    intros c [->| ->]; unfold hetd4n_coef, hetd34n_coef, zeros_m, lib; cbn [map app];
      cbn [wf mem_s existsb String.eqb Ascii.eqb Bool.eqb orb rem_s filter negb];
      match goal with |- context [wf _ (flat_map _ ?pts ++ ?p) ?D ?G] =>
        destruct (@wf_points4 pts p D G) as (G' & -> & I); [incl_lists|] end;
      (do 2 eexists; split; [reflexivity|]); cbn [In]; do 8 right; apply I; apply mem_In; reflexivity.
  Qed.
  Lemma wf_coef5 h : forall c, c = hetd5n_coef cfg expm inv h \/ c = hetd35n_coef cfg expm inv h ->
    exists D G, wf ["psi1_14"; "psi2_14"; "psi1_12"; "psi2_12"; "psi1_34"; "psi2_34"; "psi1_1"; "psi2_1"; "psi3_1"] c [] ["u"] = Some (D, G) /\ In "u" G.
  Proof.
    intros c [->| ->]; unfold hetd5n_coef, hetd35n_coef, zeros_m, lib; cbn [map app];
      cbn [wf mem_s existsb String.eqb Ascii.eqb Bool.eqb orb rem_s filter negb];
      match goal with |- context [wf _ (flat_map _ ?pts ++ ?p) ?D ?G] =>
        destruct (@wf_points5 pts p D G) as (G' & -> & I); [incl_lists|] end;
      (do 2 eexists; split; [reflexivity|]); cbn [In]; do 17 right; apply I; apply mem_In; reflexivity.
  Qed.

  Theorem cs_disciplined k : disciplined (cs_scheme cfg n expm inv k).
  Proof.
    destruct k; constructor; cbn [cs_scheme sc_new sc_coef sc_init sc_stage sc_ret sc_err sc_mut sc_att].
    all: try solve [intros x []].
    all: try solve [notin].
    all: try solve [incl_lists].
    all: try solve [reflexivity].
    all: try solve [intros; do 2 eexists; split; [lazy; reflexivity|intros x []]].
    all: try solve [intros; do 2 eexists; split; [lazy; reflexivity|incl_lists]].
    all: try solve [intros; straight].
    all: intros h; (apply wf_coef4 with (h := h); (left; reflexivity) || (right; reflexivity)) || (apply wf_coef5 with (h := h); (left; reflexivity) || (right; reflexivity)).
  Qed.

  Variables (Smat Sinv : mat A) (lam : vec A).
  Theorem as_disciplined k : disciplined (as_scheme cfg n expm inv Smat Sinv lam k).
  Proof.
    destruct k; constructor; cbn [as_scheme sc_new sc_coef sc_init sc_stage sc_ret sc_err sc_mut sc_att].
    all: try solve [intros x []].
    all: try solve [notin].
    all: try solve [incl_lists].
    all: try solve [reflexivity].
    all: try solve [intros; do 2 eexists; split; [lazy; reflexivity|intros x []]].
    all: try solve [intros; do 2 eexists; split; [lazy; reflexivity|incl_lists]].
    all: try solve [intros; straight].
    all: try solve [intros h; (apply wf_coef4 with (h := h); (left; reflexivity) || (right; reflexivity)) || (apply wf_coef5 with (h := h); (left; reflexivity) || (right; reflexivity))].
    all: intros [] [] h; straight.
  Qed.
End Discipline.
