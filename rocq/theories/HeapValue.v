(** * Sessions on the heap compute the sessions on values

    If the nonlinear function writes only to arrays of its own and hands over the arrays it
    returns, then any sequence of calls to a solver object on the heap has the outcomes, times and
    array contents of the same sequence in the models of [Solvers.v]. *)

From Coq Require Import ZArith List Bool String Lia Arith.
From Verif Require Import Scalars Control ControlRel Arrays SchemeBase SchemeIF SchemeETD4 SchemeETD5 Solvers Heap HeapSchemes HeapModel HeapLink HeapRuns.
Import ListNotations.
Local Open Scope string_scope.
Local Open Scope list_scope.

Set Implicit Arguments.

(** ** Sessions, for any representation of arrays

    The caller keeps a list of arrays: those created by the caller and those returned by the
    solver; operations refer to it by position (a position that does not exist: no operation). *)
Section Sessions.
  Variable F : tops.
  Variable A : aops F.
  Variables U W : Type.
  Variable create : vec A -> W -> U * W.
  (** An array as an argument: on the heap, the reference with the present contents. *)
  Variable pass : U -> W -> U.
  Notation PT := (pynum (T F)).

  Inductive cs_op :=
  | CNew (v : vec A)
  | CStep (i : nat) (h : T F)
  | CEvolve (i fuel : nat) (t0 tf h : PT) (sd : bool) (sf : Z)
  | CReset.
  Inductive as_op :=
  | ANew (v : vec A)
  | AStep (i : nat) (h : PT)
  | AEvolve (i fuel : nat) (t0 tf : PT) (hi : option PT) (sd : bool) (sf : Z)
  | AReset.

  Definition returned {X} (f : X -> U) (r : out X) : list U := match r with Ret x => [f x] | _ => [] end.
  Definition event {X Y} (f : X -> Y) (r : out X) : out Y := match r with Ret x => Ret (f x) | Exc e => Exc e | Fuel => Fuel end.

  Section CS.
    Variable m : csm (T F) U W.
    Definition cs_do (op : cs_op) (o : csobj F U W m) (w : W) (us : list U) : csobj F U W m * W * list U * list (out (list PT)) :=
      match op with
      | CNew v => let '(u, w') := create v w in (o, w', us ++ [u], [])
      | CStep i h =>
          match nth_error us i with
          | None => (o, w, us, [])
          | Some u => let '(r, o', w') := cs_step (pass u w) h o w in (o', w', us ++ returned (fun x => x) r, [event (fun _ => []) r])
          end
      | CEvolve i fuel t0 tf h sd sf =>
          match nth_error us i with
          | None => (o, w, us, [])
          | Some u =>
              let '(r, o', w') := cs_evolve fuel (pass u w) t0 tf h sd sf o w in
              (o', w', us ++ returned (fun x => x) r, [event (fun _ => []) r])
          end
      | CReset => (cs_reset_obj o, w, us, [])
      end.
    Fixpoint cs_session (ops : list cs_op) (o : csobj F U W m) (w : W) (us : list U)
      : csobj F U W m * W * list U * list (out (list PT)) :=
      match ops with
      | [] => (o, w, us, [])
      | op :: ops =>
          let '(o1, w1, us1, ev) := cs_do op o w us in
          let '(o2, w2, us2, evs) := cs_session ops o1 w1 us1 in (o2, w2, us2, ev ++ evs)
      end.
  End CS.

  Section AS.
    Variable m : asm (T F) U W.
    Variable k : consts (T F).
    Variable scfg : config (T F).
    Variable compute : U -> U -> exn + sval (T F).
    Definition as_do (op : as_op) (o : asobj F U W m) (w : W) (us : list U) : asobj F U W m * W * list U * list (out (list PT)) :=
      match op with
      | ANew v => let '(u, w') := create v w in (o, w', us ++ [u], [])
      | AStep i h =>
          match nth_error us i with
          | None => (o, w, us, [])
          | Some u =>
              let '(r, o', w') := as_step k scfg compute (pass u w) h o w in
              (o', w', us ++ returned (fun x => fst (fst x)) r, [event (fun x => [snd (fst x); snd x]) r])
          end
      | AEvolve i fuel t0 tf hi sd sf =>
          match nth_error us i with
          | None => (o, w, us, [])
          | Some u =>
              let '(r, o', w') := as_evolve k scfg compute fuel (pass u w) t0 tf hi sd sf o w in
              (o', w', us ++ returned (fun x => x) r, [event (fun _ => []) r])
          end
      | AReset => (as_reset_obj o, w, us, [])
      end.
    Fixpoint as_session (ops : list as_op) (o : asobj F U W m) (w : W) (us : list U)
      : asobj F U W m * W * list U * list (out (list PT)) :=
      match ops with
      | [] => (o, w, us, [])
      | op :: ops =>
          let '(o1, w1, us1, ev) := as_do op o w us in
          let '(o2, w2, us2, evs) := as_session ops o1 w1 us1 in (o2, w2, us2, ev ++ evs)
      end.
  End AS.
End Sessions.

(** The two representations: values; references. *)
Definition v_create {F} {A : aops F} {W} (v : vec A) (w : W) : vec A * W := (v, w).
Definition v_pass {F} {A : aops F} {W} (u : vec A) (w : W) : vec A := u.
Definition h_create {F} {A : aops F} {W} (v : vec A) (Hw : heap A * W) : (href A) * (heap A * W) :=
  ((hn (fst Hw), Vc v), (hnew (fst Hw) (Vc v), snd Hw)).
Definition h_pass {F} {A : aops F} {W} (u : href A) (Hw : heap A * W) : href A := (fst u, hc (fst Hw) (fst u)).
(** [_compute_s] on the arrays it is given. *)
Definition h_compute {F} {A : aops F} (compute_s : vec A -> vec A -> exn + sval (T F)) (u e : href A) : exn + sval (T F) :=
  compute_s (asv (snd u)) (asv (snd e)).

Section Value.
  Variable F : tops.
  Variable A : aops F.
  Variables V W : Type.
  Variable pw : W -> V.
  Variable nl : vec A -> V -> (exn + vec A) * V.
  Variable hnl : nat -> heap A -> W -> (exn + nat) * heap A * W.
  Variables owned known : W -> nat -> Prop.
  Hypothesis HN : writes_own hnl owned known.
  Hypothesis HG : gives_away pw nl hnl owned known.
  Variable sc : scheme A.
  Hypothesis HD : disciplined sc.
  Notation Wd := (heap A * W)%type.

  Theorem g_update_value accept h (u : href A) s H w vs v r s' Hw' :
    hok sc owned known s (H, w) -> hprot sc owned s (H, w) (fst u) ->
    agrees owned (g_vars s) H w vs -> hc H (fst u) = Vc v ->
    g_update (hex hnl) sc accept h (set_arg u s) (H, w) = (r, s', Hw') ->
    exists vs', g_update (vexec nl) sc accept h (put_u (mk_gst (g_h s) (g_init s) vs) v) (pw w) =
      (r, mk_gst (g_h s') (g_init s') vs', pw (snd Hw')) /\ agrees owned (g_vars s') (fst Hw') (snd Hw') vs'.
  Proof.
    intros O P AG Cu E. unfold hok, hprot in *. cbn [fst snd] in *.
    destruct (ok_arg HD O P) as [O0 P0]. unfold g_update, set_arg in E. unfold g_update, put_u. cbn [g_h g_init g_vars] in *.
    set (h1 := if same_h F h (g_h s) then g_h s else Some h) in *.
    set (en0 := sset (g_vars s) "u" (fst u)) in *.
    assert (A0 : agrees owned en0 H w (sset vs "u" (Vc v))).
    { intros x. unfold en0. destruct (string_dec "u" x) as [<-|N].
      - rewrite !sset_same. split; [apply P|exact Cu].
      - rewrite !sset_other by exact N. apply AG. }
    set (v0 := sset vs "u" (Vc v)) in *.
    assert (E1 : exists r1 en1 H1 w1 v1,
      (if same_h F h (g_h s) then (inr tt, en0, (H, w)) else hex hnl (sc_coef sc h) en0 (H, w)) = (r1, en1, (H1, w1)) /\
      (if same_h F h (g_h s) then (inr tt, v0, pw w) else vexec nl (sc_coef sc h) v0 (pw w)) = (r1, v1, pw w1) /\
      agrees owned en1 H1 w1 v1 /\
      (r1 = inr tt -> ok owned known (sc_mut sc) (sc_att sc) ["u"] en1 H1 w1)).
    { destruct (same_h F h (g_h s)).
      - exists (inr tt), en0, H, w, v0. split; [reflexivity|]. split; [reflexivity|]. split; [exact A0|]. intros _. exact O0.
      - unfold hex. cbn [fst snd]. destruct (hexec hnl (sc_coef sc h) en0 H w) as [[[r1 en1] H1] w1] eqn:EC.
        destruct (d_coef HD h) as (D & G & Hwf & Hu). destruct (phase _ HN _ Hwf O0 EC) as (S1 & O1 & R1).
        destruct (hexec_value HN HG _ Hwf O0 A0 EC) as (v1 & V1 & A1).
        exists r1, en1, H1, w1, v1. split; [reflexivity|]. split; [exact V1|]. split; [exact A1|].
        intros R. apply (R1 R). intros x [<-|[]]. exact Hu. }
    destruct E1 as (r1 & en1 & H1 & w1 & v1 & E1 & V1 & A1 & R1). rewrite E1 in E. rewrite V1. clear E1 V1.
    destruct r1 as [e|[]].
    { inversion E; subst. cbn [g_vars g_h g_init fst snd]. exists v1. split; [reflexivity|exact A1]. }
    assert (E2 : exists r2 en2 H2 w2 v2,
      (if g_init s then (inr tt, en1, (H1, w1)) else hex hnl (sc_init sc) en1 (H1, w1)) = (r2, en2, (H2, w2)) /\
      (if g_init s then (inr tt, v1, pw w1) else vexec nl (sc_init sc) v1 (pw w1)) = (r2, v2, pw w2) /\
      agrees owned en2 H2 w2 v2 /\
      (r2 = inr tt -> ok owned known (sc_mut sc) (sc_att sc) ["u"] en2 H2 w2)).
    { destruct (g_init s).
      - exists (inr tt), en1, H1, w1, v1. split; [reflexivity|]. split; [reflexivity|]. split; [exact A1|exact R1].
      - unfold hex. cbn [fst snd]. destruct (hexec hnl (sc_init sc) en1 H1 w1) as [[[r2 en2] H2] w2] eqn:EC.
        destruct (d_init HD) as (D & G & Hwf & Hu). destruct (phase _ HN _ Hwf (R1 eq_refl) EC) as (S2 & O2 & R2).
        destruct (hexec_value HN HG _ Hwf (R1 eq_refl) A1 EC) as (v2 & V2 & A2).
        exists r2, en2, H2, w2, v2. split; [reflexivity|]. split; [exact V2|]. split; [exact A2|].
        intros R. apply (R2 R). intros x [<-|[]]. exact Hu. }
    destruct E2 as (r2 & en2 & H2 & w2 & v2 & E2 & V2 & A2 & R2). rewrite E2 in E. rewrite V2. clear E2 V2.
    destruct r2 as [e|[]].
    { inversion E; subst. cbn [g_vars g_h g_init fst snd]. exists v2. split; [reflexivity|exact A2]. }
    unfold hex in E. cbn [fst snd] in E.
    destruct (hexec hnl (sc_stage sc (g_init s) accept h) en2 H2 w2) as [[[r3 en3] H3] w3] eqn:EC.
    destruct (d_stage HD (g_init s) accept h) as (D & G & Hwf & Hu).
    destruct (hexec_value HN HG _ Hwf (R2 eq_refl) A2 EC) as (v3 & V3 & A3). rewrite V3.
    inversion E; subst. cbn [g_vars g_h g_init fst snd]. exists v3. split; [reflexivity|exact A3].
  Qed.

  (** What it means for a model to be the execution on values of the programs of [sc]. *)
  Section CS.
    Variable m : csm (T F) (vec A) V.
    Definition cs_represents (cok : store A -> Prop) (ab : gst F (store A) -> cs_st m) (lin : cell A) (new : cs_st m) : Prop :=
      (forall g, ab (g_reset g) = cs_reset m (ab g)) /\
      (forall g u h w, cok (g_vars g) ->
        let '(r, g', w') := g_update (vexec nl) sc false h (put_u g u) w in
        cs_upd m u h (ab g) w = (match r with inl e => inl e | inr _ => inr (asv (g_vars g' (sc_ret sc))) end, ab g', w') /\
        cok (g_vars g') /\ (r = inr tt -> exists v, g_vars g' (sc_ret sc) = Vc v)) /\
      (forall w, exists s, vexec nl (sc_new sc) (fun _ => lin) w = (inr tt, s, w) /\ cok s /\ ab (mk_gst None false s) = new).

    Variable cok : store A -> Prop.
    Variable ab : gst F (store A) -> cs_st m.
    Variable lin : cell A.
    Variable new : cs_st m.
    Hypothesis HM : cs_represents cok ab lin new.

    Definition c_rel (s1 : gst F env) (Hw : Wd) (s2 : cs_st m) (w2 : V) (L : list (href A * vec A)) : Prop :=
      pw (snd Hw) = w2 /\ hok sc owned known s1 Hw /\
      (exists vs, agrees owned (g_vars s1) (fst Hw) (snd Hw) vs /\ cok vs /\ ab (mk_gst (g_h s1) (g_init s1) vs) = s2) /\
      forall u v, In (u, v) L -> live owned sc s1 Hw u /\ snd u = Vc v.

    Lemma c_related : cs_related F (hcs hnl sc) m c_rel.
    Proof.
      destruct HM as (HR & HU & _). split.
      - intros s1 w1 s2 w2 L (E & O & (vs & AG & CK & AB) & P). split; [exact E|]. split; [exact O|]. split; [|exact P].
        exists vs. split; [exact AG|]. split; [exact CK|]. rewrite <- AB. rewrite <- HR. reflexivity.
      - intros s1 [H w] s2 w2 L u1 u2 h (E & O & (vs & AG & CK & AB) & P) Hu. cbn [fst snd] in *. subst w2.
        destruct (P _ _ Hu) as [[P1 P2] P3]. cbn [fst] in P2. cbn [hcs cs_upd]. unfold hcs_upd.
        destruct (g_update (hex hnl) sc false h (set_arg u1 s1) (H, w)) as [[r s'] Hw'] eqn:EG.
        assert (P3' : hc H (fst u1) = Vc u2) by congruence.
        destruct (g_update_value false h u1 O P1 AG P3' EG) as (vs' & VV & AG').
        destruct (g_update_frame HN HD false h u1 O P1 EG) as (O' & P' & R').
        assert (Q := HU (mk_gst (g_h s1) (g_init s1) vs) u2 h (pw w) CK). rewrite VV in Q. rewrite AB in Q. destruct Q as (Q1 & Q2 & Q3).
        rewrite Q1.
        assert (KL : forall u v, In (u, v) L -> live owned sc s' Hw' u /\ snd u = Vc v).
        { intros u v Huv. destruct (P _ _ Huv) as [[X1 X2] X3]. destruct (P' _ X1) as [Y1 Y2]. split; [|exact X3].
          split; [exact Y1|]. exact (eq_trans Y2 X2). }
        assert (ST : exists vs0, agrees owned (g_vars s') (fst Hw') (snd Hw') vs0 /\ cok vs0 /\ ab (mk_gst (g_h s') (g_init s') vs0) = ab (mk_gst (g_h s') (g_init s') vs')).
        { exists vs'. split; [exact AG'|]. split; [exact Q2|reflexivity]. }
        destruct r as [e|[]].
        + split; [reflexivity|]. split; [reflexivity|]. split; [exact O'|]. split; [exact ST|exact KL].
        + split; [reflexivity|]. split; [exact O'|]. split; [exact ST|]. intros u v [X|X]; [|apply KL, X].
          inversion X; subst. split; [split; [apply R'; reflexivity|reflexivity]|].
          unfold handle. cbn [snd]. rewrite (proj2 (AG' _)). cbn [g_vars]. destruct (Q3 eq_refl) as [v0 E0].
          cbn [g_vars] in E0. rewrite E0. reflexivity.
    Qed.

    Theorem c_rel_new l H w s Hw : (forall l, known w l -> l < hn H) -> (forall l, owned w l -> known w l) ->
      l < hn H -> ~ owned w l -> hc H l = lin -> h_new hnl sc l H w = (s, Hw) ->
      forall L, (forall u v, In (u, v) L -> fst u < hn H /\ ~ owned w (fst u) /\ hc H (fst u) = snd u /\ snd u = Vc v) ->
      c_rel s Hw new (pw w) L.
    Proof.
      intros K1 K2 Hl No Hc E L HL. destruct (h_new_frame HN HD H w K1 K2 Hl E) as (O & I0 & H0 & Ln & P).
      destruct HM as (_ & _ & HW). destruct (HW (pw w)) as (vs & VV & CK & AB).
      assert (Z : pw (snd Hw) = pw w /\ agrees owned (g_vars s) (fst Hw) (snd Hw) vs).
      { unfold h_new, hex in E. cbn [fst snd] in E.
        destruct (hexec hnl (sc_new sc) (fun _ => l) H w) as [[[r en] H'] w'] eqn:EC. inversion E; subst. cbn [g_vars fst snd].
        destruct (d_new HD) as (D & G & Hwf & HI).
        assert (O0 : ok owned known (sc_mut sc) [] [] (fun _ => l) H w).
        { constructor; auto; intros x []. }
        destruct (hexec_value HN HG _ Hwf O0 (s := fun _ => hc H l) (fun _ => conj No eq_refl) EC) as (s2 & V2 & AG).
        rewrite VV in V2. inversion V2; subst. split; [congruence|exact AG]. }
      destruct Z as [Z1 Z2]. split; [exact Z1|]. split; [exact O|]. split.
      - exists vs. rewrite H0, I0. split; [exact Z2|]. split; [exact CK|exact AB].
      - intros u v Hu. destruct (HL _ _ Hu) as (L1 & L2 & L3 & L4). destruct (P _ L1 L2) as [P1 P2].
        split; [|exact L4]. split; [exact P1|congruence].
    Qed.

    Notation same H := (fun (r : href A) (v : vec A) => hc H (fst r) = Vc v).

    Lemma cs_session_related : forall ops o1 Hw us1 o2 w us2 L,
      cs_objs (m1 := hcs hnl sc) (m2 := m) c_rel L o1 Hw o2 w -> Forall2 (fun a b => In (a, b) L) us1 us2 ->
      let '(o1', Hw', us1', ev1) := cs_session h_create h_pass ops o1 Hw us1 in
      let '(o2', w', us2', ev2) := cs_session v_create v_pass ops o2 w us2 in
      exists L', cs_objs (m1 := hcs hnl sc) (m2 := m) c_rel L' o1' Hw' o2' w' /\ Forall2 (fun a b => In (a, b) L') us1' us2' /\ ev1 = ev2.
    Proof.
      assert (NTH : forall (us1 : list (href A)) (us2 : list (vec A)) L, Forall2 (fun a b => In (a, b) L) us1 us2 -> forall i,
        match nth_error us1 i, nth_error us2 i with Some a, Some b => In (a, b) L | None, None => True | _, _ => False end).
      { intros us1 us2 L FF. induction FF as [|x y a b Hx FF IHF]; intros [|i]; [exact I|exact I|exact Hx|exact (IHF i)]. }
      induction ops as [|op ops IH]; intros o1 Hw us1 o2 w us2 L O FU; cbn [cs_session].
      { exists L. split; [exact O|]. split; [exact FU|reflexivity]. }
      assert (ONE : let '(o1', Hw', us1', ev1) := cs_do h_create h_pass op o1 Hw us1 in
        let '(o2', w', us2', ev2) := cs_do v_create v_pass op o2 w us2 in
        exists L', cs_objs (m1 := hcs hnl sc) (m2 := m) c_rel L' o1' Hw' o2' w' /\ Forall2 (fun a b => In (a, b) L') us1' us2' /\ ev1 = ev2).
      { assert (SELF : forall u v, In (u, v) L -> h_pass u Hw = u).
        { intros u v Hu. destruct (proj2 (proj2 (proj2 (co_R O))) _ _ Hu) as [[_ X] _]. unfold h_pass. rewrite X. destruct u; reflexivity. }
        assert (END : forall r1 r2 L' , Forall2 (fun a b => In (a, b) L') us1 us2 -> out_rel (fun a b => In (a, b) L') r1 r2 ->
          Forall2 (fun a b => In (a, b) L') (us1 ++ returned (fun x => x) r1) (us2 ++ returned (fun x => x) r2) /\
          [event (fun _ : href A => @nil (pynum (T F))) r1] = [event (fun _ : vec A => []) r2]).
        { intros r1 r2 L' F1 R1. destruct r1 as [a|e|], r2 as [b|e'|]; try contradiction; cbn [returned event] in *.
          - split; [apply Forall2_snoc; assumption|reflexivity].
          - rewrite !app_nil_r. split; [exact F1|congruence].
          - rewrite !app_nil_r. split; [exact F1|reflexivity]. }
        destruct op as [v|i h|i fuel t0 tf h sd sf|]; cbn [cs_do].
        - unfold h_create, v_create. exists (((hn (fst Hw), Vc v), v) :: L). split; [|split; [|reflexivity]].
          2:{ apply Forall2_snoc; [|left; reflexivity]. eapply Forall2_grow; [|exact FU]. intros x Hx; right; exact Hx. }
          destruct O as [O1 O2 O3 O4 O5]. constructor; auto.
          2:{ eapply Forall2_grow; [|exact O5]. intros x Hx; right; exact Hx. }
          destruct Hw as [H w0]. destruct O1 as (E & O & (vs & AG & CK & AB) & P). cbn [fst snd] in *. subst w.
          assert (LV : forall u v0, In (u, v0) L -> fst u < hn H).
          { intros u v0 Hu. destruct (P _ _ Hu) as [[X _] _]. apply X. }
          assert (ST : steady owned known sc (c_m o1 : gst F env) [] (H, w0) (map (fun x => fst (fst x)) L)).
          { split; [exact O|]. split; [|intros ? []]. intros l Hl. apply in_map_iff in Hl. destruct Hl as ([u v0] & <- & Hu).
            apply (proj1 (P _ _ Hu)). }
          apply (steady_alloc (Vc v)) in ST. destruct ST as (S1 & S2 & _).
          split; [reflexivity|]. split; [exact S1|]. split.
          + exists vs. split; [|split; [exact CK|exact AB]]. intros x. cbn [fst snd]. rewrite hnew_old by apply (ok_alloc O). apply AG.
          + intros u v0 [X|Hu].
            * inversion X; subst. split; [|reflexivity]. split; [apply S2; left; reflexivity|]. cbn [fst snd]. apply hnew_new.
            * destruct (P _ _ Hu) as [[X1 X2] X3]. split; [|exact X3]. split.
              -- apply S2. right. apply in_map_iff. exists (u, v0). auto.
              -- cbn [fst snd] in *. rewrite hnew_old by apply (LV _ _ Hu). exact X2.
        - assert (N := NTH _ _ _ FU i). destruct (nth_error us1 i) as [a|], (nth_error us2 i) as [b|]; try contradiction.
          2:{ exists L. split; [exact O|]. split; [exact FU|reflexivity]. }
          rewrite (SELF _ _ N). unfold v_pass. assert (Q := cs_step_related c_related _ _ h O N).
          destruct (cs_step a h o1 Hw) as [[r1 o1'] Hw']. destruct (cs_step b h o2 w) as [[r2 o2'] w'].
          destruct Q as (L' & I' & O' & R'). exists L'. split; [exact O'|]. apply END; [|exact R'].
          eapply Forall2_grow; [exact I'|exact FU].
        - assert (N := NTH _ _ _ FU i). destruct (nth_error us1 i) as [a|], (nth_error us2 i) as [b|]; try contradiction.
          2:{ exists L. split; [exact O|]. split; [exact FU|reflexivity]. }
          rewrite (SELF _ _ N). unfold v_pass. assert (Q := cs_evolve_related c_related fuel _ _ t0 tf h sd sf O N).
          destruct (cs_evolve fuel a t0 tf h sd sf o1 Hw) as [[r1 o1'] Hw']. destruct (cs_evolve fuel b t0 tf h sd sf o2 w) as [[r2 o2'] w'].
          destruct Q as (L' & I' & O' & R'). exists L'. split; [exact O'|]. apply END; [|exact R'].
          eapply Forall2_grow; [exact I'|exact FU].
        - exists L. split; [apply (cs_reset_related c_related O)|]. split; [exact FU|reflexivity]. }
      destruct (cs_do h_create h_pass op o1 Hw us1) as [[[p1 x1] a1] e1]. destruct (cs_do v_create v_pass op o2 w us2) as [[[p2 x2] a2] e2].
      destruct ONE as (L1 & O1 & F1 & <-). specialize (IH p1 x1 a1 p2 x2 a2 L1 O1 F1).
      destruct (cs_session h_create h_pass ops p1 x1 a1) as [[[q1 y1] b1] f1]. destruct (cs_session v_create v_pass ops p2 x2 a2) as [[[q2 y2] b2] f2].
      destruct IH as (L2 & O2 & F2 & <-). exists L2. split; [exact O2|]. split; [exact F2|reflexivity].
    Qed.
  End CS.
  Section AS.
    Variable m : asm (T F) (vec A) V.
    Variable k : consts (T F).
    Variable scfg : config (T F).
    Variable compute_s : vec A -> vec A -> exn + sval (T F).
    Definition as_represents (cok : store A -> Prop) (ab : gst F (store A) -> as_st m) (lin : cell A) (new : as_st m) : Prop :=
      (forall g, ab (g_reset g) = as_reset m (ab g)) /\
      (forall g a u h w, cok (g_vars g) ->
        let '(r, g', w') := g_update (vexec nl) sc a h (put_u g u) w in
        as_upd m a u h (ab g) w =
          (match r with inl e => inl e | inr _ => inr (asv (g_vars g' (sc_ret sc)), asv (g_vars g' (sc_err sc))) end, ab g', w') /\
        cok (g_vars g') /\ (r = inr tt -> exists v e, g_vars g' (sc_ret sc) = Vc v /\ g_vars g' (sc_err sc) = Vc e)) /\
      (forall w, exists s, vexec nl (sc_new sc) (fun _ => lin) w = (inr tt, s, w) /\ cok s /\ ab (mk_gst None false s) = new).

    Variable cok : store A -> Prop.
    Variable ab : gst F (store A) -> as_st m.
    Variable lin : cell A.
    Variable new : as_st m.
    Hypothesis HM : as_represents cok ab lin new.

    Definition a_rel (s1 : gst F env) (Hw : Wd) (s2 : as_st m) (w2 : V) (L : list (href A * vec A)) : Prop :=
      pw (snd Hw) = w2 /\ hok sc owned known s1 Hw /\
      (exists vs, agrees owned (g_vars s1) (fst Hw) (snd Hw) vs /\ cok vs /\ ab (mk_gst (g_h s1) (g_init s1) vs) = s2) /\
      forall u v, In (u, v) L -> live owned sc s1 Hw u /\ snd u = Vc v.

    Lemma a_related : as_related F (has hnl sc) m (h_compute compute_s) compute_s a_rel.
    Proof.
      destruct HM as (HR & HU & _). split.
      - intros s1 w1 s2 w2 L (E & O & (vs & AG & CK & AB) & P). split; [exact E|]. split; [exact O|]. split; [|exact P].
        exists vs. split; [exact AG|]. split; [exact CK|]. rewrite <- AB. rewrite <- HR. reflexivity.
      - intros a s1 [H w] s2 w2 L u1 u2 h (E & O & (vs & AG & CK & AB) & P) Hu. cbn [fst snd] in *. subst w2.
        destruct (P _ _ Hu) as [[P1 P2] P3]. cbn [fst] in P2. cbn [has as_upd]. unfold has_upd.
        destruct (g_update (hex hnl) sc a h (set_arg u1 s1) (H, w)) as [[r s'] Hw'] eqn:EG.
        assert (P3' : hc H (fst u1) = Vc u2) by congruence.
        destruct (g_update_value a h u1 O P1 AG P3' EG) as (vs' & VV & AG').
        destruct (g_update_frame HN HD a h u1 O P1 EG) as (O' & P' & R').
        assert (Q := HU (mk_gst (g_h s1) (g_init s1) vs) a u2 h (pw w) CK). rewrite VV in Q. rewrite AB in Q. destruct Q as (Q1 & Q2 & Q3).
        rewrite Q1.
        assert (KL : forall u v, In (u, v) L -> live owned sc s' Hw' u /\ snd u = Vc v).
        { intros u v Huv. destruct (P _ _ Huv) as [[X1 X2] X3]. destruct (P' _ X1) as [Y1 Y2]. split; [|exact X3].
          split; [exact Y1|]. exact (eq_trans Y2 X2). }
        assert (ST : exists vs0, agrees owned (g_vars s') (fst Hw') (snd Hw') vs0 /\ cok vs0 /\ ab (mk_gst (g_h s') (g_init s') vs0) = ab (mk_gst (g_h s') (g_init s') vs')).
        { exists vs'. split; [exact AG'|]. split; [exact Q2|reflexivity]. }
        destruct r as [e|[]].
        + split; [reflexivity|]. split; [reflexivity|]. split; [exact O'|]. split; [exact ST|exact KL].
        + destruct (Q3 eq_refl) as (v0 & e0 & E0 & E0'). cbn [g_vars] in E0, E0'. cbn [g_vars]. rewrite E0, E0'. cbn [asv].
          assert (CR : hc (fst Hw') (g_vars s' (sc_ret sc)) = Vc v0) by (rewrite (proj2 (AG' _)); exact E0).
          assert (CE : hc (fst Hw') (g_vars s' (sc_err sc)) = Vc e0) by (rewrite (proj2 (AG' _)); exact E0').
          split; [|unfold h_compute, handle; cbn [snd]; rewrite CR, CE; reflexivity].
          split; [reflexivity|]. split; [exact O'|]. split; [exact ST|]. intros u v [X|X]; [|apply KL, X].
          inversion X; subst. split; [split; [apply R'; reflexivity|reflexivity]|]. exact CR.
    Qed.

    Theorem a_rel_new l H w s Hw : (forall l, known w l -> l < hn H) -> (forall l, owned w l -> known w l) ->
      l < hn H -> ~ owned w l -> hc H l = lin -> h_new hnl sc l H w = (s, Hw) ->
      forall L, (forall u v, In (u, v) L -> fst u < hn H /\ ~ owned w (fst u) /\ hc H (fst u) = snd u /\ snd u = Vc v) ->
      a_rel s Hw new (pw w) L.
    Proof.
      intros K1 K2 Hl No Hc E L HL. destruct (h_new_frame HN HD H w K1 K2 Hl E) as (O & I0 & H0 & Ln & P).
      destruct HM as (_ & _ & HW). destruct (HW (pw w)) as (vs & VV & CK & AB).
      assert (Z : pw (snd Hw) = pw w /\ agrees owned (g_vars s) (fst Hw) (snd Hw) vs).
      { unfold h_new, hex in E. cbn [fst snd] in E.
        destruct (hexec hnl (sc_new sc) (fun _ => l) H w) as [[[r en] H'] w'] eqn:EC. inversion E; subst. cbn [g_vars fst snd].
        destruct (d_new HD) as (D & G & Hwf & HI).
        assert (O0 : ok owned known (sc_mut sc) [] [] (fun _ => l) H w).
        { constructor; auto; intros x []. }
        destruct (hexec_value HN HG _ Hwf O0 (s := fun _ => hc H l) (fun _ => conj No eq_refl) EC) as (s2 & V2 & AG).
        rewrite VV in V2. inversion V2; subst. split; [congruence|exact AG]. }
      destruct Z as [Z1 Z2]. split; [exact Z1|]. split; [exact O|]. split.
      - exists vs. rewrite H0, I0. split; [exact Z2|]. split; [exact CK|exact AB].
      - intros u v Hu. destruct (HL _ _ Hu) as (L1 & L2 & L3 & L4). destruct (P _ L1 L2) as [P1 P2].
        split; [|exact L4]. split; [exact P1|congruence].
    Qed.

    Notation same H := (fun (r : href A) (v : vec A) => hc H (fst r) = Vc v).

    Lemma as_session_related : forall ops o1 Hw us1 o2 w us2 L,
      as_objs (m1 := has hnl sc) (m2 := m) a_rel L o1 Hw o2 w -> Forall2 (fun a b => In (a, b) L) us1 us2 ->
      let '(o1', Hw', us1', ev1) := as_session h_create h_pass k scfg (h_compute compute_s) ops o1 Hw us1 in
      let '(o2', w', us2', ev2) := as_session v_create v_pass k scfg compute_s ops o2 w us2 in
      exists L', as_objs (m1 := has hnl sc) (m2 := m) a_rel L' o1' Hw' o2' w' /\ Forall2 (fun a b => In (a, b) L') us1' us2' /\ ev1 = ev2.
    Proof.
      assert (NTH : forall (us1 : list (href A)) (us2 : list (vec A)) L, Forall2 (fun a b => In (a, b) L) us1 us2 -> forall i,
        match nth_error us1 i, nth_error us2 i with Some a, Some b => In (a, b) L | None, None => True | _, _ => False end).
      { intros us1 us2 L FF. induction FF as [|x y a b Hx FF IHF]; intros [|i]; [exact I|exact I|exact Hx|exact (IHF i)]. }
      induction ops as [|op ops IH]; intros o1 Hw us1 o2 w us2 L O FU; cbn [as_session].
      { exists L. split; [exact O|]. split; [exact FU|reflexivity]. }
      assert (ONE : let '(o1', Hw', us1', ev1) := as_do h_create h_pass k scfg (h_compute compute_s) op o1 Hw us1 in
        let '(o2', w', us2', ev2) := as_do v_create v_pass k scfg compute_s op o2 w us2 in
        exists L', as_objs (m1 := has hnl sc) (m2 := m) a_rel L' o1' Hw' o2' w' /\ Forall2 (fun a b => In (a, b) L') us1' us2' /\ ev1 = ev2).
      { assert (SELF : forall u v, In (u, v) L -> h_pass u Hw = u).
        { intros u v Hu. destruct (proj2 (proj2 (proj2 (ao_R O))) _ _ Hu) as [[_ X] _]. unfold h_pass. rewrite X. destruct u; reflexivity. }
        assert (END : forall r1 r2 L' , Forall2 (fun a b => In (a, b) L') us1 us2 -> out_rel (fun a b => In (a, b) L') r1 r2 ->
          Forall2 (fun a b => In (a, b) L') (us1 ++ returned (fun x => x) r1) (us2 ++ returned (fun x => x) r2) /\
          [event (fun _ : href A => @nil (pynum (T F))) r1] = [event (fun _ : vec A => []) r2]).
        { intros r1 r2 L' F1 R1. destruct r1 as [a|e|], r2 as [b|e'|]; try contradiction; cbn [returned event] in *.
          - split; [apply Forall2_snoc; assumption|reflexivity].
          - rewrite !app_nil_r. split; [exact F1|congruence].
          - rewrite !app_nil_r. split; [exact F1|reflexivity]. }
        assert (END3 : forall r1 r2 L', Forall2 (fun a b => In (a, b) L') us1 us2 -> out_rel (trip F L') r1 r2 ->
          Forall2 (fun a b => In (a, b) L') (us1 ++ returned (fun x => fst (fst x)) r1) (us2 ++ returned (fun x => fst (fst x)) r2) /\
          [event (fun x : href A * pynum (T F) * pynum (T F) => [snd (fst x); snd x]) r1] =
          [event (fun x : vec A * pynum (T F) * pynum (T F) => [snd (fst x); snd x]) r2]).
        { intros r1 r2 L' F1 R1. destruct r1 as [[[a ha] hb]|e|], r2 as [[[b ha'] hb']|e'|]; try contradiction; cbn [returned event fst snd] in *.
          - destruct R1 as (R1 & <- & <-). split; [apply Forall2_snoc; assumption|reflexivity].
          - rewrite !app_nil_r. split; [exact F1|]. cbn [out_rel] in R1. congruence.
          - rewrite !app_nil_r. split; [exact F1|reflexivity]. }
        destruct op as [v|i h|i fuel t0 tf hi sd sf|]; cbn [as_do].
        - unfold h_create, v_create. exists (((hn (fst Hw), Vc v), v) :: L). split; [|split; [|reflexivity]].
          2:{ apply Forall2_snoc; [|left; reflexivity]. eapply Forall2_grow; [|exact FU]. intros x Hx; right; exact Hx. }
          destruct O as [O1 O2 O3 O4 O5 O6]. constructor; auto.
          2:{ eapply Forall2_grow; [|exact O6]. intros x Hx; right; exact Hx. }
          destruct Hw as [H w0]. destruct O1 as (E & O & (vs & AG & CK & AB) & P). cbn [fst snd] in *. subst w.
          assert (LV : forall u v0, In (u, v0) L -> fst u < hn H).
          { intros u v0 Hu. destruct (P _ _ Hu) as [[X _] _]. apply X. }
          assert (ST : steady owned known sc (a_m o1 : gst F env) [] (H, w0) (map (fun x => fst (fst x)) L)).
          { split; [exact O|]. split; [|intros ? []]. intros l Hl. apply in_map_iff in Hl. destruct Hl as ([u v0] & <- & Hu).
            apply (proj1 (P _ _ Hu)). }
          apply (steady_alloc (Vc v)) in ST. destruct ST as (S1 & S2 & _).
          split; [reflexivity|]. split; [exact S1|]. split.
          + exists vs. split; [|split; [exact CK|exact AB]]. intros x. cbn [fst snd]. rewrite hnew_old by apply (ok_alloc O). apply AG.
          + intros u v0 [X|Hu].
            * inversion X; subst. split; [|reflexivity]. split; [apply S2; left; reflexivity|]. cbn [fst snd]. apply hnew_new.
            * destruct (P _ _ Hu) as [[X1 X2] X3]. split; [|exact X3]. split.
              -- apply S2. right. apply in_map_iff. exists (u, v0). auto.
              -- cbn [fst snd] in *. rewrite hnew_old by apply (LV _ _ Hu). exact X2.
        - assert (N := NTH _ _ _ FU i). destruct (nth_error us1 i) as [a|], (nth_error us2 i) as [b|]; try contradiction.
          2:{ exists L. split; [exact O|]. split; [exact FU|reflexivity]. }
          rewrite (SELF _ _ N). unfold v_pass. assert (Q := as_step_related k scfg a_related _ _ h O N).
          destruct (as_step k scfg (h_compute compute_s) a h o1 Hw) as [[r1 o1'] Hw']. destruct (as_step k scfg compute_s b h o2 w) as [[r2 o2'] w'].
          destruct Q as (L' & I' & O' & R'). exists L'. split; [exact O'|]. apply END3; [|exact R'].
          eapply Forall2_grow; [exact I'|exact FU].
        - assert (N := NTH _ _ _ FU i). destruct (nth_error us1 i) as [a|], (nth_error us2 i) as [b|]; try contradiction.
          2:{ exists L. split; [exact O|]. split; [exact FU|reflexivity]. }
          rewrite (SELF _ _ N). unfold v_pass. assert (Q := as_evolve_related k scfg a_related fuel _ _ t0 tf hi sd sf O N).
          destruct (as_evolve k scfg (h_compute compute_s) fuel a t0 tf hi sd sf o1 Hw) as [[r1 o1'] Hw']. destruct (as_evolve k scfg compute_s fuel b t0 tf hi sd sf o2 w) as [[r2 o2'] w'].
          destruct Q as (L' & I' & O' & R'). exists L'. split; [exact O'|]. apply END; [|exact R'].
          eapply Forall2_grow; [exact I'|exact FU].
        - exists L. split; [apply (as_reset_related a_related O)|]. split; [exact FU|reflexivity]. }
      destruct (as_do h_create h_pass k scfg (h_compute compute_s) op o1 Hw us1) as [[[p1 x1] a1] e1]. destruct (as_do v_create v_pass k scfg compute_s op o2 w us2) as [[[p2 x2] a2] e2].
      destruct ONE as (L1 & O1 & F1 & <-). specialize (IH p1 x1 a1 p2 x2 a2 L1 O1 F1).
      destruct (as_session h_create h_pass k scfg (h_compute compute_s) ops p1 x1 a1) as [[[q1 y1] b1] f1]. destruct (as_session v_create v_pass k scfg compute_s ops p2 x2 a2) as [[[q2 y2] b2] f2].
      destruct IH as (L2 & O2 & F2 & <-). exists L2. split; [exact O2|]. split; [exact F2|reflexivity].
    Qed.
  End AS.
End Value.

(** ** The sixteen models are the value executions of the sixteen array programs *)
Section Representation.
  Variable F : tops.
  Variable A : aops F.
  Variable W : Type.
  Variable p : problem A W.
  Definition css_of (k : cs_kind) : scheme A := cs_scheme (p_cfg p) (p_size p) (p_expm p) (p_inv p) k.
  Definition ass_of (k : as_kind) : scheme A :=
    as_scheme (p_cfg p) (p_size p) (p_expm p) (p_inv p) (p_S p) (p_Sinv p) (p_eigs p) k.
  (** The array passed as [lin_op]. *)
  Definition cs_lin (k : cs_kind) : cell A :=
    match k with IF4d | ETD4d | ETD5d => Vc (p_vec p) | IF4n | ETD4n | ETD5n => Mc (p_mat p) end.
  Definition as_lin (k : as_kind) : cell A :=
    match k with IF34d | IF45DPd | ETD34d | ETD35d => Vc (p_vec p) | _ => Mc (p_mat p) end.

  Ltac rep ck K X lem :=
    exists (ck p), (fun g : gst F (store A) => mk_sst (g_h g) (g_init g) (K (g_vars g)) (X (g_vars g)));
    split; [reflexivity|]; split; [exact lem|];
    intros w; eexists; split; [refine (@sets_run F A W p _ _ _ w); reflexivity|]; split; [repeat split|reflexivity].

  Theorem cs_represented k : exists cok ab,
    cs_represents (p_nl p) (css_of k) (cs_model p k) cok ab (cs_lin k) (cs_new p k).
  Proof.
    destruct k; unfold css_of, cs_lin, cs_model, cs_new.
    - rep (@k_v F A W) (@ab_ifv F A) (@ab_1 F A) (cs_linked (@lk_u_IF4d F A W p) (@lk_c_IF4d F A W p) (@lk_i_IF4d F A W p) (@lk_s_IF4d F A W p)).
    - rep (@k_m F A W) (@ab_ifm F A) (@ab_1 F A) (cs_linked (@lk_u_IF4n F A W p) (@lk_c_IF4n F A W p) (@lk_i_IF4n F A W p) (@lk_s_IF4n F A W p)).
    - rep (@k_v F A W) (@ab_e4v F A) (@ab_1 F A) (cs_linked (@lk_u_ETD4d F A W p) (@lk_c_ETD4d F A W p) (@lk_i_ETD4d F A W p) (@lk_s_ETD4d F A W p)).
    - rep (@k_m F A W) (@ab_e4m F A) (@ab_1 F A) (cs_linked (@lk_u_ETD4n F A W p) (@lk_c_ETD4n F A W p) (@lk_i_ETD4n F A W p) (@lk_s_ETD4n F A W p)).
    - rep (@k_v F A W) (@ab_e5v F A) (@ab_1 F A) (cs_linked (@lk_u_ETD5d F A W p) (@lk_c_ETD5d F A W p) (@lk_i_ETD5d F A W p) (@lk_s_ETD5d F A W p)).
    - rep (@k_m F A W) (@ab_e5m F A) (@ab_1 F A) (cs_linked (@lk_u_ETD5n F A W p) (@lk_c_ETD5n F A W p) (@lk_i_ETD5n F A W p) (@lk_s_ETD5n F A W p)).
  Qed.
  Theorem as_represented k : exists cok ab,
    as_represents (p_nl p) (ass_of k) (as_model p k) cok ab (as_lin k) (as_new p k).
  Proof.
    destruct k; unfold ass_of, as_lin, as_model, as_new.
    - rep (@k_v F A W) (@ab_ifv F A) (@ab_2 F A) (as_linked (@lk_u_IF34d F A W p) (@lk_c_IF34d F A W p) (@lk_i_IF34d F A W p) (@lk_s_IF34d F A W p)).
    - rep (@k_m F A W) (@ab_ifm F A) (@ab_2 F A) (as_linked (@lk_u_IF34n F A W p) (@lk_c_IF34n F A W p) (@lk_i_IF34n F A W p) (@lk_s_IF34n F A W p)).
    - rep (@k_z F A W) (@ab_ifv F A) (@ab_3 F A) (as_linked (@lk_u_IF34z F A W p) (@lk_c_IF34z F A W p) (@lk_i_IF34z F A W p) (@lk_s_IF34z F A W p)).
    - rep (@k_v F A W) (@ab_dp F A) (@ab_2' F A) (@lk_IF45DPd F A W p).
    - rep (@k_v F A W) (@ab_e34v F A) (@ab_2 F A) (as_linked (@lk_u_ETD34d F A W p) (@lk_c_ETD34d F A W p) (@lk_i_ETD34d F A W p) (@lk_s_ETD34d F A W p)).
    - rep (@k_m F A W) (@ab_e34m F A) (@ab_2 F A) (as_linked (@lk_u_ETD34n F A W p) (@lk_c_ETD34n F A W p) (@lk_i_ETD34n F A W p) (@lk_s_ETD34n F A W p)).
    - rep (@k_z F A W) (@ab_e34v F A) (@ab_3 F A) (as_linked (@lk_u_ETD34z F A W p) (@lk_c_ETD34z F A W p) (@lk_i_ETD34z F A W p) (@lk_s_ETD34z F A W p)).
    - rep (@k_v F A W) (@ab_e35v F A) (@ab_1 F A) (as_linked (@lk_u_ETD35d F A W p) (@lk_c_ETD35d F A W p) (@lk_i_ETD35d F A W p) (@lk_s_ETD35d F A W p)).
    - rep (@k_m F A W) (@ab_e35m F A) (@ab_1 F A) (as_linked (@lk_u_ETD35n F A W p) (@lk_c_ETD35n F A W p) (@lk_i_ETD35n F A W p) (@lk_s_ETD35n F A W p)).
    - rep (@k_z F A W) (@ab_e35v F A) (@ab_4 F A) (as_linked (@lk_u_ETD35z F A W p) (@lk_c_ETD35z F A W p) (@lk_i_ETD35z F A W p) (@lk_s_ETD35z F A W p)).
  Qed.
End Representation.
