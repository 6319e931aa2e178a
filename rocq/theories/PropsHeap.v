(** * Arrays as shared mutable objects: C63, C69, C70 *)

From Coq Require Import ZArith List Bool String Lia Arith Reals Lra.
From Coquelicot Require Import Complex.
From Verif Require Import Scalars Control ControlCS ControlCSReal ControlRel Arrays CInst SchemeBase SchemeIF SchemeETD4 SchemeETD5 Solvers
  Heap HeapSchemes HeapModel HeapLink HeapRuns HeapValue HeapFresh PropsControl PropsCache.
Import ListNotations.

Set Implicit Arguments.

(** ** C63: stored arrays are left alone

    Any nonlinear function that writes only to arrays of its own ([writes_own]; it may keep what it
    is given, return its argument or one of its own arrays, and raise); any arithmetic; any result
    of the library routines. [Us] are the arrays the caller has seen. *)
Theorem C63_constant_step : forall (F : tops) (A : aops F) (W : Type) hnl (owned known : W -> nat -> Prop) cfg n expm inv k
    (o : csobj F (href A) (heap A * W) (hcs hnl (cs_scheme cfg n expm inv k))) Hw Us,
  writes_own hnl owned known -> cs_history owned known o Hw Us ->
  (* solver.u holds what was stored *)
  (forall u, In u (c_u o) -> hc (fst Hw) (fst u) = snd u) /\
  (* no further call changes an array the caller has seen *)
  (forall l h r o' Hw', In l Us -> cs_step (l, hc (fst Hw) l) h o Hw = (r, o', Hw') ->
     forall l', In l' Us -> hc (fst Hw') l' = hc (fst Hw) l') /\
  (forall l fuel t0 tf h sd sf r o' Hw', In l Us -> cs_evolve fuel (l, hc (fst Hw) l) t0 tf h sd sf o Hw = (r, o', Hw') ->
     forall l', In l' Us -> hc (fst Hw') l' = hc (fst Hw) l').
Proof.
  intros F A W hnl owned known cfg n expm inv k o Hw Us HN HH.
  assert (HD := @cs_disciplined F A cfg n expm inv k). assert (S := cs_history_steady HN HD HH).
  split; [intros u Hu; apply S, Hu|]. split.
  - intros l h r o' Hw' Hl E. exact (proj2 (cs_step_steady HN HD _ _ _ S Hl E)).
  - intros l fuel t0 tf h sd sf r o' Hw' Hl E. exact (proj2 (cs_evolve_steady HN HD _ _ _ _ _ _ _ _ S Hl E)).
Qed.

Theorem C63_adaptive : forall (F : tops) (A : aops F) (W : Type) hnl (owned known : W -> nat -> Prop) cfg n expm inv Smat Sinv lam k
    c scfg compute (o : asobj F (href A) (heap A * W) (has hnl (as_scheme cfg n expm inv Smat Sinv lam k))) Hw Us,
  writes_own hnl owned known -> as_history owned known c scfg compute o Hw Us ->
  (forall u, In u (a_u o) -> hc (fst Hw) (fst u) = snd u) /\
  (forall l h r o' Hw', In l Us -> as_step c scfg compute (l, hc (fst Hw) l) h o Hw = (r, o', Hw') ->
     forall l', In l' Us -> hc (fst Hw') l' = hc (fst Hw) l') /\
  (forall l fuel t0 tf hi sd sf r o' Hw', In l Us -> as_evolve c scfg compute fuel (l, hc (fst Hw) l) t0 tf hi sd sf o Hw = (r, o', Hw') ->
     forall l', In l' Us -> hc (fst Hw') l' = hc (fst Hw) l').
Proof.
  intros F A W hnl owned known cfg n expm inv Smat Sinv lam k c scfg compute o Hw Us HN HH.
  assert (HD := @as_disciplined F A cfg n expm inv Smat Sinv lam k). assert (S := as_history_steady HN HD HH).
  split; [intros u Hu; apply S, Hu|]. split.
  - intros l h r o' Hw' Hl E. exact (proj2 (as_step_steady HN HD _ _ _ _ _ _ S Hl E)).
  - intros l fuel t0 tf hi sd sf r o' Hw' Hl E. exact (proj2 (as_evolve_steady HN HD _ _ _ _ _ _ _ _ _ _ _ S Hl E)).
Qed.

(** Non-vacuity: two nonlinear functions that write only to arrays of their own. One returns a new
    array each time and remembers all of them; the other fills one buffer again and again. *)
Section Functions.
  Variable F : tops.
  Variable A : aops F.
  Variable N : vec A -> vec A.
  Definition fresh_nl (x : nat) (H : heap A) (w : list nat) : (exn + nat) * heap A * list nat :=
    (inr (hn H), hnew H (Vc (N (asv (hc H x)))), hn H :: w).
  Definition buffer_nl (x : nat) (H : heap A) (w : option nat) : (exn + nat) * heap A * option nat :=
    match w with
    | None => (inr (hn H), hnew H (Vc (N (asv (hc H x)))), Some (hn H))
    | Some b => (inr b, hput H b (Vc (N (asv (hc H x)))), Some b)
    end.
  Definition none (w : list nat) (l : nat) : Prop := False.
  Definition recorded (w : list nat) (l : nat) : Prop := In l w.
  Definition is_buffer (w : option nat) (l : nat) : Prop := w = Some l.

  Lemma fresh_writes_own : writes_own fresh_nl none recorded.
  Proof.
    intros x H w K O Hx No. unfold fresh_nl, none, recorded in *. cbn [hnew hn].
    split; [lia|]. split; [intros l Hl _; apply hnew_old, Hl|]. split; [intros l []|]. split; [intros l []|].
    split.
    - intros l [<-|Hl]; [split; [lia|right; right; lia]|]. specialize (K l Hl). split; [lia|left; exact Hl].
    - intros l E. injection E as <-. left. reflexivity.
  Qed.
  Lemma fresh_gives_away : gives_away (fun _ => tt) (pure_nl N) fresh_nl none recorded.
  Proof.
    intros x H w K Hx No. unfold fresh_nl, pure_nl. rewrite hnew_new. split; [reflexivity|].
    intros l E. injection E as <-. split; [intros []|]. exists (N (asv (hc H x))). apply hnew_new.
  Qed.
  Lemma buffer_writes_own : writes_own buffer_nl is_buffer is_buffer.
  Proof.
    intros x H w K O Hx No. unfold buffer_nl, is_buffer in *. destruct w as [b|].
    - specialize (K b eq_refl). cbn [hput hn]. split; [lia|]. split.
      { intros l Hl Nl. cbn [hput hc]. destruct (Nat.eqb_spec l b) as [->|]; [elim Nl; reflexivity|reflexivity]. }
      split; [intros l E; left; exact E|]. split; [auto|]. split.
      + intros l E. injection E as <-. split; [exact K|left; reflexivity].
      + intros l E. injection E as <-. reflexivity.
    - cbn [hnew hn]. split; [lia|]. split; [intros l Hl _; apply hnew_old, Hl|].
      split; [intros l E; injection E as <-; right; lia|]. split; [auto|]. split.
      + intros l E. injection E as <-. split; [lia|right; right; lia].
      + intros l E. injection E as <-. reflexivity.
  Qed.
End Functions.

(** Memory of the examples: [lin_op] (zero) at 0, the initial state at 1. *)
Definition ex_heap (x : R) : heap Cops := mk_heap 2 (fun l => if Nat.eqb l 0 then Vc (const_vec 0) else Vc (const_vec x)).

Ltac heap_run := lazy beta iota zeta delta [h_new hex hcs_upd g_update set_arg handle hexec sset hnew hput look hn hc
  Nat.eqb String.eqb Ascii.eqb Bool.eqb eqb css_of cs_scheme sc_new sc_coef sc_init sc_stage sc_ret zeros_v map hif_coef_v hinit_v hif4d_stage
  buffer_nl fresh_nl g_h g_init g_vars fst snd same_h asv ex_heap].

Notation new_obj hnl sc s := (mk_csobj (m := hcs hnl sc) [] [] (PyN false (tofZ _ 0)) (PyN false (tofZ _ 0)) s).
Notation new_aobj hnl sc s := (mk_asobj (m := has hnl sc) [] [] (PyN false (tofZ _ 0)) (PyN false (tofZ _ 0)) false s).

(** One step of size 1 of IF4 for u' = u from u = 1 with the buffer. *)
Lemma buffer_step :
  let '(s, Hw) := h_new (buffer_nl (fun v : vec Cops => v)) (css_of growth IF4d) 0 (ex_heap 1) None in
  let '(r, s', Hw') := hcs_upd (buffer_nl (fun v : vec Cops => v)) (css_of growth IF4d) (1%nat, Vc (const_vec 1)) 1%R s Hw in
  r = inr (16%nat, Vc (const_vec (15 / 4))) /\ snd Hw' = Some 12%nat /\ hc (fst Hw) 1 = Vc (const_vec 1).
Proof.
  heap_run. split; [|split; reflexivity]. cvec. do 4 f_equal.
  replace (exp (1 * 0)) with 1%R by (rewrite Rmult_0_r, exp_0; reflexivity).
  replace (exp (1 * 0 / 2)) with 1%R by (rewrite Rmult_0_r; unfold Rdiv; rewrite Rmult_0_l, exp_0; reflexivity). lra.
Qed.

(** A history with the buffer: construction, a step from the caller's array 1, then the caller
    overwrites the array returned (16). *)
Example C63_case : exists o Hw,
  cs_history (hnl := buffer_nl (fun v : vec Cops => v)) (sc := css_of growth IF4d) (@is_buffer) (@is_buffer) o Hw [16%nat; 1%nat] /\
  hc (fst Hw) 16 = Vc (const_vec 0) /\ snd Hw = Some 12%nat.
Proof.
  set (hnl := buffer_nl (fun v : vec Cops => v)).
  destruct (h_new hnl (css_of growth IF4d) 0 (ex_heap 1) None) as [s Hw] eqn:E.
  assert (HS : fresh_start (@is_buffer) (@is_buffer) 0 (ex_heap 1) None [1%nat]).
  { split; [discriminate|]. split; [auto|]. split; [cbn; lia|]. intros l [<-|[]]. split; [cbn; lia|discriminate]. }
  assert (HH := @ch_new Rops Cops _ hnl _ _ (css_of growth IF4d) _ _ _ _ _ _ HS E).
  destruct (cs_step (F := Rops) (1%nat, hc (fst Hw) 1) 1%R (new_obj hnl (css_of growth IF4d) s) Hw) as [[r o'] Hw'] eqn:ES.
  assert (HH' := ch_step _ _ HH (or_introl eq_refl) ES).
  assert (Z : r = Ret (16%nat, Vc (const_vec (15 / 4))) /\ snd Hw' = Some 12%nat /\ c_u o' = []).
  { unfold cs_step in ES. replace (tleb Rops (tofZ Rops 0) 1%R) with true in ES by (symmetry; apply Rleb_true; cbn; lra).
    assert (B := buffer_step). fold hnl in B. rewrite E in B. cbn [hcs cs_upd c_m] in ES.
    destruct (hcs_upd hnl (css_of growth IF4d) (1%nat, Vc (const_vec 1)) 1%R s Hw) as [[r0 s0] Hw0] eqn:EB.
    destruct B as (B1 & B2 & B3). rewrite B3, EB, B1 in ES. inversion ES; subst. cbn [c_u]. auto. }
  destruct Z as (-> & Z2 & Z3). destruct Hw' as [H' w']. cbn [refs_of fst app] in HH'.
  exists o', (hput H' 16 (Vc (const_vec 0)), w'). split; [|split; [reflexivity|exact Z2]].
  apply ch_write; [exact HH'|]. rewrite Z3. intros [].
Qed.

(** ** C69: the code on shared arrays computes what the models on values compute

    If the nonlinear function also keeps no right to overwrite the arrays it returns
    ([gives_away]), then any sequence of constructions, steps, runs and resets on the heap has the
    same outcomes, times, step sizes and contents as the same sequence on values, which is what all
    other theorems are about. [Us]: the caller's arrays at the start, with contents [vs]. *)
Notation holds H := (fun (r : nat * cell _) v => hc H (fst r) = Vc v).

Theorem C69_constant_step : forall (F : tops) (A : aops F) (V W : Type) (pw : W -> V) (p : problem A V) hnl (owned known : W -> nat -> Prop) k
    lin H w Us vs s Hw ops,
  writes_own hnl owned known -> gives_away pw (p_nl p) hnl owned known ->
  fresh_start owned known lin H w Us -> ~ owned w lin -> hc H lin = cs_lin p k -> Forall2 (fun l v => hc H l = Vc v) Us vs ->
  h_new hnl (css_of p k) lin H w = (s, Hw) ->
  let '(o1, Hw1, us1, ev1) := HeapValue.cs_session h_create h_pass ops (new_obj hnl (css_of p k) s) Hw (map (fun l => (l, hc H l)) Us) in
  let '(o2, w2, us2, ev2) := HeapValue.cs_session v_create v_pass ops (cs_new_obj p k) (pw w) vs in
  ev1 = ev2 /\ c_t o1 = c_t o2 /\ pw (snd Hw1) = w2 /\ Forall2 (holds (fst Hw1)) us1 us2 /\ Forall2 (holds (fst Hw1)) (c_u o1) (c_u o2).
Proof.
  intros F A V W pw p hnl owned known k lin H w Us vs s Hw ops HN HG (K1 & K2 & K3 & K4) No HL HU E.
  assert (HD : disciplined (css_of p k)) by apply cs_disciplined.
  destruct (cs_represented p k) as (cok & ab & HM).
  set (L := combine (map (fun l => (l, hc H l)) Us) vs).
  assert (HL' : forall u v, In (u, v) L -> fst u < hn H /\ ~ owned w (fst u) /\ hc H (fst u) = snd u /\ snd u = Vc v).
  { unfold L. clear -HU K4. induction HU as [|l v Us vs E _ IH]; intros u v' Hu; [destruct Hu|].
    destruct Hu as [X|X]; [|apply IH; [intros l' Hl'; apply K4; right; exact Hl'|exact X]].
    inversion X; subst. cbn [fst snd]. destruct (K4 l (or_introl eq_refl)). auto. }
  assert (R := c_rel_new HN HG HD HM H w K1 K2 K3 No HL E L HL').
  assert (FU : Forall2 (fun a b => In (a, b) L) (map (fun l => (l, hc H l)) Us) vs).
  { unfold L. clear -HU. induction HU as [|l v Us vs E HU IH]; [constructor|]. constructor; [left; reflexivity|].
    eapply Forall2_grow; [|exact IH]. intros x Hx. right. exact Hx. }
  assert (O : cs_objs (m1 := hcs hnl (css_of p k)) (m2 := cs_model p k) (c_rel pw owned known (css_of p k) (cs_model p k) cok ab) L
    (new_obj hnl (css_of p k) s) Hw (cs_new_obj p k) (pw w)).
  { constructor; try reflexivity; [exact R|constructor]. }
  assert (Q := cs_session_related HN HG HD HM ops O FU).
  destruct (HeapValue.cs_session h_create h_pass ops (new_obj hnl (css_of p k) s) Hw (map (fun l => (l, hc H l)) Us)) as [[[o1 Hw1] us1] ev1].
  destruct (HeapValue.cs_session v_create v_pass ops (cs_new_obj p k) (pw w) vs) as [[[o2 w2] us2] ev2].
  destruct Q as (L' & [(Q1 & _ & _ & Q4) O2 _ _ O5] & F' & Ev). split; [exact Ev|]. split; [exact O2|]. split; [exact Q1|].
  assert (G : forall a b, Forall2 (fun a b => In (a, b) L') a b -> Forall2 (holds (fst Hw1)) a b).
  { induction 1 as [|x y a b Hxy _ IH]; constructor; [|exact IH]. destruct (Q4 _ _ Hxy) as [[_ X] Y]. congruence. }
  split; apply G; assumption.
Qed.

Theorem C69_adaptive : forall (F : tops) (A : aops F) (V W : Type) (pw : W -> V) (p : problem A V) hnl (owned known : W -> nat -> Prop) k
    c scfg compute_s lin H w Us vs s Hw ops,
  writes_own hnl owned known -> gives_away pw (p_nl p) hnl owned known ->
  fresh_start owned known lin H w Us -> ~ owned w lin -> hc H lin = as_lin p k -> Forall2 (fun l v => hc H l = Vc v) Us vs ->
  h_new hnl (ass_of p k) lin H w = (s, Hw) ->
  let '(o1, Hw1, us1, ev1) := HeapValue.as_session h_create h_pass c scfg (h_compute compute_s) ops
      (new_aobj hnl (ass_of p k) s) Hw (map (fun l => (l, hc H l)) Us) in
  let '(o2, w2, us2, ev2) := HeapValue.as_session v_create v_pass c scfg compute_s ops (as_new_obj p k) (pw w) vs in
  ev1 = ev2 /\ a_t o1 = a_t o2 /\ pw (snd Hw1) = w2 /\ Forall2 (holds (fst Hw1)) us1 us2 /\ Forall2 (holds (fst Hw1)) (a_u o1) (a_u o2).
Proof.
  intros F A V W pw p hnl owned known k c scfg compute_s lin H w Us vs s Hw ops HN HG (K1 & K2 & K3 & K4) No HL HU E.
  assert (HD : disciplined (ass_of p k)) by apply as_disciplined.
  destruct (as_represented p k) as (cok & ab & HM).
  set (L := combine (map (fun l => (l, hc H l)) Us) vs).
  assert (HL' : forall u v, In (u, v) L -> fst u < hn H /\ ~ owned w (fst u) /\ hc H (fst u) = snd u /\ snd u = Vc v).
  { unfold L. clear -HU K4. induction HU as [|l v Us vs E _ IH]; intros u v' Hu; [destruct Hu|].
    destruct Hu as [X|X]; [|apply IH; [intros l' Hl'; apply K4; right; exact Hl'|exact X]].
    inversion X; subst. cbn [fst snd]. destruct (K4 l (or_introl eq_refl)). auto. }
  assert (R := a_rel_new HN HG HD HM H w K1 K2 K3 No HL E L HL').
  assert (FU : Forall2 (fun a b => In (a, b) L) (map (fun l => (l, hc H l)) Us) vs).
  { unfold L. clear -HU. induction HU as [|l v Us vs E HU IH]; [constructor|]. constructor; [left; reflexivity|].
    eapply Forall2_grow; [|exact IH]. intros x Hx. right. exact Hx. }
  assert (O : as_objs (m1 := has hnl (ass_of p k)) (m2 := as_model p k) (a_rel pw owned known (ass_of p k) (as_model p k) cok ab) L
    (new_aobj hnl (ass_of p k) s) Hw (as_new_obj p k) (pw w)).
  { constructor; try reflexivity; [exact R|constructor]. }
  assert (Q := as_session_related HN HG HD c scfg compute_s HM ops O FU).
  destruct (HeapValue.as_session h_create h_pass c scfg (h_compute compute_s) ops (new_aobj hnl (ass_of p k) s) Hw (map (fun l => (l, hc H l)) Us))
    as [[[o1 Hw1] us1] ev1].
  destruct (HeapValue.as_session v_create v_pass c scfg compute_s ops (as_new_obj p k) (pw w) vs) as [[[o2 w2] us2] ev2].
  destruct Q as (L' & [(Q1 & _ & _ & Q4) O2 _ _ _ O5] & F' & Ev). split; [exact Ev|]. split; [exact O2|]. split; [exact Q1|].
  assert (G : forall a b, Forall2 (fun a b => In (a, b) L') a b -> Forall2 (holds (fst Hw1)) a b).
  { induction 1 as [|x y a b Hxy _ IH]; constructor; [|exact IH]. destruct (Q4 _ _ Hxy) as [[_ X] Y]. congruence. }
  split; apply G; assumption.
Qed.

(** A function that returns new arrays meets the hypotheses; a run from 0 to 1 with step size 1. *)
Example C69_case :
  let hnl := fresh_nl (fun v : vec Cops => v) in
  writes_own hnl (@none) (@recorded) /\ gives_away (fun _ => tt) (p_nl growth) hnl (@none) (@recorded) /\
  fresh_start (@none) (@recorded) 0 (ex_heap 1) [] [1%nat] /\ hc (ex_heap 1) 0 = cs_lin growth IF4d /\
  Forall2 (fun l v => hc (ex_heap 1) l = Vc v) [1%nat] [const_vec 1] /\
  let '(_, _, us, ev) := HeapValue.cs_session v_create v_pass [CEvolve Cops 0 3 (num 0) (num 1) (num 1) true 1]
                           (cs_new_obj growth IF4d) tt [const_vec 1] in
  us = [const_vec 1; const_vec (65 / 24)] /\ ev = [Ret []].
Proof.
  cbn zeta. split; [apply fresh_writes_own|]. split; [apply fresh_gives_away|]. split.
  { split; [intros l []|]. split; [intros l []|]. split; [cbn; lia|]. intros l [<-|[]]. split; [cbn; lia|intros []]. }
  split; [reflexivity|]. split; [constructor; [reflexivity|constructor]|].
  assert (E : fst (fst (cs_evolve (F := Rops) 3 (const_vec 1) (num 0) (num 1) (num 1) true 1 (cs_new_obj growth IF4d) tt)) = Ret (const_vec (65 / 24))).
  { assert (T1 : tltb Rops (val (num 1)) (val (padd Rops (num 0) (num 1))) = false) by (apply Rltb_false; cbn; lra).
    assert (T2 : tltb Rops (val (num 0)) (val (num 1)) = true) by (apply Rltb_true; cbn; lra).
    assert (T3 : tltb Rops (val (padd Rops (num 0) (num 1))) (val (num 1)) = false) by (apply Rltb_false; cbn; lra).
    assert (T4 : tleb Rops (tofZ Rops 0) (val (num 1)) = true) by (apply Rleb_true; cbn; lra).
    change 3%nat with (S (S (S O))). set (j := S (S O)). unfold cs_evolve. rewrite T1. cbn [cs_loop c_tc c_tf]. rewrite T2. unfold cs_step. rewrite T4.
    cbn [cs_reset_obj cs_new_obj c_m cs_reset]. change (cs_reset (cs_model growth IF4d) (cs_new growth IF4d)) with (cs_new growth IF4d).
    change (val (num 1)) with 1%R. rewrite growth_new. cbn [c_tc c_tf c_t c_u c_m].
    replace (progress_raises Rops (0 + 1) (padd Rops (num 0) (num 1)) (num 1)) with false by reflexivity.
    change (store_now true 1 (0 + 1)) with (Some true). cbv iota. unfold j. cbn [cs_loop c_tc c_tf].
    rewrite T3. cbn [fst]. unfold grow. do 2 f_equal. lra. }
  cbn [HeapValue.cs_session cs_do nth_error v_pass]. destruct (cs_evolve _ _ _ _ _ _ _ _ _) as [[r o'] w']. cbn [fst] in E. subst r. split; reflexivity.
Qed.

(** One step of size 1 of IF4 for u' = u from u = 1, when the nonlinear function fills one buffer. *)
Theorem C69_reused_buffer_refuted :
  let hnl := buffer_nl (fun v : vec Cops => v) in
  (* it writes only to its own array, and what it returns is the value asked for *)
  writes_own hnl (@is_buffer) (@is_buffer) /\
  (forall x H w, let '(r, H', w') := hnl x H w in exists l, r = inr l /\ hc H' l = Vc (asv (hc H x))) /\
  let '(s, Hw) := h_new hnl (css_of growth IF4d) 0 (ex_heap 1) None in
  (exists l, fst (fst (cs_step (F := Rops) (1%nat, Vc (const_vec 1)) 1%R (new_obj hnl (css_of growth IF4d) s) Hw)) = Ret (l, Vc (const_vec (15 / 4)))) /\
  fst (fst (cs_step (F := Rops) (const_vec 1) 1%R (cs_new_obj growth IF4d) tt)) = Ret (const_vec (65 / 24)).
Proof.
  cbn zeta. split; [apply buffer_writes_own|]. split.
  { intros x H [b|]; cbn [buffer_nl]; eexists; (split; [reflexivity|]); cbn [hput hnew hc]; rewrite Nat.eqb_refl; reflexivity. }
  assert (Z : tleb Rops (tofZ Rops 0) 1%R = true) by (apply Rleb_true; cbn; lra).
  destruct (h_new (buffer_nl (fun v : vec Cops => v)) (css_of growth IF4d) 0 (ex_heap 1) None) as [s Hw] eqn:E.
  unfold cs_step. rewrite Z. cbn [hcs cs_upd c_m cs_new_obj]. split.
  - assert (B := buffer_step). rewrite E in B. exists 16%nat.
    destruct (hcs_upd (buffer_nl (fun v : vec Cops => v)) (css_of growth IF4d) (1%nat, Vc (const_vec 1)) 1%R s Hw) as [[r0 s0] Hw0].
    cbn [fst]. rewrite (proj1 B). reflexivity.
  - rewrite growth_new. cbn [fst]. unfold grow. do 2 f_equal. lra.
Qed.

(** ** C70: the stored arrays are not copies

    For every strategy and every nonlinear function: after a successful [evolve] that stores data,
    the first entry of [solver.u] is the very array the caller passed, and with [store_freq = 1] the
    last one is the very array returned: a later write by the caller changes the record. *)
Theorem C70_constant_step_refuted : forall (F : tops) (A : aops F) (W : Type) hnl cfg n expm inv k fuel l c t0 tf h (f : nat)
    (o : csobj F (href A) (heap A * W) (hcs hnl (cs_scheme cfg n expm inv k))) Hw l' c' o' Hw',
  (1 <= f)%nat -> cs_evolve fuel (l, c) t0 tf h true (Z.of_nat f) o Hw = (Ret (l', c'), o', Hw') ->
  (exists s, hd_error (c_u o') = Some s /\ forall d, hc (hput (fst Hw') l d) (fst s) = d) /\
  (f = 1%nat -> exists s, hd_error (rev (c_u o')) = Some s /\ forall d, hc (hput (fst Hw') l' d) (fst s) = d).
Proof.
  intros F A W hnl cfg n expm inv k fuel l c t0 tf h f o Hw l' c' o' Hw' Hf E.
  destruct (C20_constant_step_snapshots _ _ _ _ _ _ _ _ _ _ _ _ _ _ _ Hf E) as (m & us & sts & ws & U0 & Um & _ & _ & _ & _ & Lu & N).
  split.
  - destruct (N 0%nat) as [_ N0]; [apply Nat.le_0_l|]. exists (l, c). rewrite Nat.mul_0_l, U0 in N0. split.
    + destruct (c_u o'); [discriminate|exact N0].
    + intros d. cbn [hput hc fst]. rewrite Nat.eqb_refl. reflexivity.
  - intros ->. rewrite Nat.div_1_r in *. destruct (N m) as [_ Nm]; [lia|]. rewrite Nat.mul_1_r, Um in Nm. exists (l', c'). split.
    + apply nth_error_split in Nm. destruct Nm as (a & b & E' & La). rewrite E' in Lu |- *. rewrite app_length in Lu. cbn [Datatypes.length] in Lu.
      destruct b; [|cbn [Datatypes.length] in Lu; lia]. rewrite rev_unit. reflexivity.
    + intros d. cbn [hput hc fst]. rewrite Nat.eqb_refl. reflexivity.
Qed.
Theorem C70_adaptive_refuted : forall (F : tops) (A : aops F) (W : Type) hnl cfg n expm inv Smat Sinv lam k cst scfg compute fuel l c t0 tf hi (f : nat)
    (o : asobj F (href A) (heap A * W) (has hnl (as_scheme cfg n expm inv Smat Sinv lam k))) Hw l' c' o' Hw',
  (1 <= f)%nat -> as_evolve cst scfg compute fuel (l, c) t0 tf hi true (Z.of_nat f) o Hw = (Ret (l', c'), o', Hw') ->
  (exists s, hd_error (a_u o') = Some s /\ forall d, hc (hput (fst Hw') l d) (fst s) = d) /\
  (f = 1%nat -> exists s, hd_error (rev (a_u o')) = Some s /\ forall d, hc (hput (fst Hw') l' d) (fst s) = d).
Proof.
  intros F A W hnl cfg n expm inv Smat Sinv lam k cst scfg compute fuel l c t0 tf hi f o Hw l' c' o' Hw' Hf E.
  destruct (C20_adaptive_snapshots _ _ _ _ _ _ _ _ _ _ _ _ _ _ _ _ _ _ Hf E)
    as (m & us & os & ws & hin & hacc & hsug & tau & U0 & Um & _ & _ & _ & _ & Lu & N).
  split.
  - destruct (N 0%nat) as [_ N0]; [apply Nat.le_0_l|]. exists (l, c). rewrite Nat.mul_0_l, U0 in N0. split.
    + destruct (a_u o'); [discriminate|exact N0].
    + intros d. cbn [hput hc fst]. rewrite Nat.eqb_refl. reflexivity.
  - intros ->. rewrite Nat.div_1_r in *. destruct (N m) as [_ Nm]; [lia|]. rewrite Nat.mul_1_r, Um in Nm. exists (l', c'). split.
    + apply nth_error_split in Nm. destruct Nm as (a & b & E' & La). rewrite E' in Lu |- *. rewrite app_length in Lu. cbn [Datatypes.length] in Lu.
      destruct b; [|cbn [Datatypes.length] in Lu; lia]. rewrite rev_unit. reflexivity.
    + intros d. cbn [hput hc fst]. rewrite Nat.eqb_refl. reflexivity.
Qed.

(** What does hold: no two stored arrays share memory, after any history. *)
Theorem C70_constant_step_distinct : forall (F : tops) (A : aops F) (W : Type) hnl (owned known : W -> nat -> Prop) cfg n expm inv k
    (o : csobj F (href A) (heap A * W) (hcs hnl (cs_scheme cfg n expm inv k))) Hw Us l fuel t0 tf h (f : nat) u' o' Hw',
  writes_own hnl owned known -> cs_history owned known o Hw Us -> In l Us -> (1 <= f)%nat ->
  cs_evolve fuel (l, hc (fst Hw) l) t0 tf h true (Z.of_nat f) o Hw = (Ret u', o', Hw') -> NoDup (map fst (c_u o')).
Proof.
  intros F A W hnl owned known cfg n expm inv k o Hw Us l fuel t0 tf h f u' o' Hw' HN HH Hl Hf E.
  assert (HD := @cs_disciplined F A cfg n expm inv k). destruct (cs_history_steady HN HD HH) as (O & P & _).
  eapply cs_snapshots_distinct; [exact HN|exact HD|intros; apply cs_builds|exact Hf| |exact E]. split; [exact O|apply P, Hl].
Qed.
Theorem C70_adaptive_distinct : forall (F : tops) (A : aops F) (W : Type) hnl (owned known : W -> nat -> Prop) cfg n expm inv Smat Sinv lam k
    c scfg compute (o : asobj F (href A) (heap A * W) (has hnl (as_scheme cfg n expm inv Smat Sinv lam k))) Hw Us l fuel t0 tf hi (f : nat) u' o' Hw',
  writes_own hnl owned known -> as_history owned known c scfg compute o Hw Us -> In l Us -> (1 <= f)%nat ->
  as_evolve c scfg compute fuel (l, hc (fst Hw) l) t0 tf hi true (Z.of_nat f) o Hw = (Ret u', o', Hw') -> NoDup (map fst (a_u o')).
Proof.
  intros F A W hnl owned known cfg n expm inv Smat Sinv lam k c scfg compute o Hw Us l fuel t0 tf hi f u' o' Hw' HN HH Hl Hf E.
  assert (HD := @as_disciplined F A cfg n expm inv Smat Sinv lam k). destruct (as_history_steady HN HD HH) as (O & P & _).
  eapply as_snapshots_distinct; [exact HN|exact HD|intros; apply as_builds|exact Hf| |exact E]. split; [exact O|apply P, Hl].
Qed.

(** A run on the heap that succeeds (by C69, from [C69_case]). *)
Example C70_case : exists s Hw l' c' o' Hw',
  h_new (fresh_nl (fun v : vec Cops => v)) (css_of growth IF4d) 0 (ex_heap 1) [] = (s, Hw) /\
  cs_evolve (F := Rops) 3 (1%nat, hc (fst Hw) 1) (num 0) (num 1) (num 1) true 1 (new_obj (fresh_nl (fun v : vec Cops => v)) (css_of growth IF4d) s) Hw
    = (Ret (l', c'), o', Hw').
Proof.
  set (hnl := fresh_nl (fun v : vec Cops => v)). destruct C69_case as (HN & HG & HF & HL & HU & HV). fold hnl in HN, HG.
  destruct (h_new hnl (css_of growth IF4d) 0 (ex_heap 1) []) as [s Hw] eqn:E.
  assert (Q := @C69_constant_step Rops Cops unit (list nat) (fun _ => tt) growth hnl _ _ IF4d 0 (ex_heap 1) [] [1%nat] [const_vec 1] s Hw
    [CEvolve Cops 0 3 (num 0) (num 1) (num 1) true 1] HN HG HF (fun x => x) HL HU E).
  cbn [map] in Q.
  destruct (HeapValue.cs_session v_create v_pass _ (cs_new_obj growth IF4d) tt [const_vec 1]) as [[[o2 w2] us2] ev2].
  destruct HV as [_ ->]. cbn [HeapValue.cs_session cs_do nth_error] in Q. unfold h_pass in Q. cbn [fst] in Q.
  destruct (cs_evolve (F := Rops) 3 (1%nat, hc (fst Hw) 1) (num 0) (num 1) (num 1) true 1 (new_obj hnl (css_of growth IF4d) s) Hw) as [[r o'] Hw'] eqn:EE.
  destruct Q as [Q _]. destruct r as [[l' c']|e|]; cbn [event app] in Q; try discriminate.
  exists s, Hw, l', c', o', Hw'. auto.
Qed.

Print Assumptions C63_constant_step.
Print Assumptions C63_adaptive.
Print Assumptions C69_constant_step.
Print Assumptions C69_adaptive.
Print Assumptions C69_reused_buffer_refuted.
Print Assumptions C70_constant_step_refuted.
Print Assumptions C70_adaptive_refuted.
Print Assumptions C70_constant_step_distinct.
Print Assumptions C70_adaptive_distinct.
