(** * C05-C09, C65: the error measure of the adaptive solvers *)

From Coq Require Import ZArith List Bool Reals Lra Lia FunctionalExtensionality.
From Coquelicot Require Import Complex.
From Verif Require Import Scalars Control ControlCS ControlCSReal ControlAS ControlASReal ControlSim ControlSound
     Arrays SchemeBase SchemeIF SchemeETD4 SchemeETD5 Solvers SchemeFacts SchemeSound SchemeFamily SchemeForm
     CInst SpecRK SchemeIFReal PropsControl PropsCache PropsIF PropsLinear Tolerance.
Import ListNotations.
Local Open Scope R_scope.

(** ** Specification: significant components and their norm *)

(** [M] is the largest modulus among the first [n] components. *)
Definition is_max (n : nat) (u : nat -> C) (M : R) : Prop :=
  (exists i, (i < n)%nat /\ Cmod (u i) = M) /\ forall i, (i < n)%nat -> Cmod (u i) <= M.

Fixpoint rsum (n : nat) (f : nat -> R) : R := match n with O => 0 | S n => rsum n f + f n end.

(** 2-norm of [v] over the components [i < n] with [|u_i| > cut * M]. *)
Definition sig_norm (n : nat) (cut M : R) (u v : nat -> C) : R :=
  sqrt (rsum n (fun i => if Rlt_dec (cut * M) (Cmod (u i)) then (Cmod (v i))^2 else 0)).
(** 2-norm over all components. *)
Definition full_norm (n : nat) (v : nat -> C) : R := sqrt (rsum n (fun i => (Cmod (v i))^2)).

Lemma rsum_ext n f g : (forall i, (i < n)%nat -> f i = g i) -> rsum n f = rsum n g.
Proof. induction n as [|n IH]; intros H; cbn [rsum]; [reflexivity|]. rewrite IH, H by auto with arith. reflexivity. Qed.
Lemma rsum_scal n c f : rsum n (fun i => c * f i) = c * rsum n f.
Proof. induction n as [|n IH]; cbn [rsum]; [ring|]. rewrite IH. ring. Qed.
Lemma rsum_nonneg n f : (forall i, (i < n)%nat -> 0 <= f i) -> 0 <= rsum n f.
Proof.
  induction n as [|n IH]; intros H; cbn [rsum]; [lra|].
  assert (0 <= rsum n f) by (apply IH; auto with arith). assert (0 <= f n) by (apply H; lia). lra.
Qed.
Lemma rsum_ge n f i : (forall i, (i < n)%nat -> 0 <= f i) -> (i < n)%nat -> f i <= rsum n f.
Proof.
  induction n as [|n IH]; intros H Hi; [lia|]. cbn [rsum].
  assert (0 <= rsum n f) by (apply rsum_nonneg; auto with arith). assert (0 <= f n) by (apply H; lia).
  destruct (Nat.eq_dec i n) as [->|Hn]; [lra|].
  assert (f i <= rsum n f) by (apply IH; auto with arith; lia). lra.
Qed.
Lemma lsum_app a b : lsum (a ++ b) = lsum a + lsum b.
Proof. induction a as [|x a IH]; cbn [app lsum]; [ring|]. rewrite IH. ring. Qed.
Lemma lsum_filter (p : nat -> bool) (f : nat -> R) n :
  lsum (map f (filter p (seq 0 n))) = rsum n (fun i => if p i then f i else 0).
Proof.
  induction n as [|n IH]; [reflexivity|]. rewrite seq_S, filter_app, map_app, lsum_app, IH. cbn [rsum plus filter].
  destruct (p n); cbn [map lsum]; ring.
Qed.

Lemma sig_norm_nonneg n cut M u v : 0 <= sig_norm n cut M u v.
Proof. apply sqrt_pos. Qed.

(** The model on finite vectors. *)
Lemma compute_s_value cfg q n (u err : vec Cops) M : (0 < n)%nat -> is_max n u M ->
  compute_s_vec cfg q n u err =
  inr (emul (SFin (safety_f cfg))
            (epow (ediv (SFin (epsilon cfg * sig_norm n (adapt_cutoff cfg) M u u))
                        (SFin (sig_norm n (adapt_cutoff cfg) M u err))) (1 / INR q))).
Proof.
  intros Hn HM. destruct n as [|n]; [lia|]. unfold compute_s_vec, compute_s.
  set (is := seq 0 (S n)). change (entries (S n) u) with (map (fun i => finc (u i)) is).
  change (entries (S n) err) with (map (fun i => finc (err i)) is).
  assert (Ea : map eabs (map (fun i => finc (u i)) is) = map (fun i => SFin (Cmod (u i))) is).
  { rewrite map_map. apply map_ext. intros i. apply eabs_fin. }
  rewrite Ea. unfold is at 1. cbn [seq map].
  assert (Et : fold_left emax (map (fun i => SFin (Cmod (u i))) (seq 1 n)) (SFin (Cmod (u 0%nat))) = SFin M).
  { rewrite <- (map_map (fun i => Cmod (u i)) SFin). rewrite fold_emax. f_equal.
    set (l := map (fun i => Cmod (u i)) (seq 1 n)).
    assert (Hl : Cmod (u 0%nat) :: l = map (fun i => Cmod (u i)) (seq 0 (S n))) by reflexivity.
    assert (Hin := fold_Rmax_in l (Cmod (u 0%nat))). assert (Hub := fold_Rmax_ub l (Cmod (u 0%nat))).
    destruct HM as [(i & Hi & EM) HU]. apply Rle_antisym.
    - rewrite Hl in Hin. apply in_map_iff in Hin. destruct Hin as (j & Ej & Hj). apply in_seq in Hj.
      rewrite <- Ej. apply HU. lia.
    - rewrite <- EM. assert (Hi' : In (Cmod (u i)) (Cmod (u 0%nat) :: l)).
      { rewrite Hl. apply in_map_iff. exists i. split; [reflexivity|]. apply in_seq. lia. }
      destruct Hub as [H1 H2]. destruct Hi' as [E0|Hi']; [rewrite <- E0; exact H1|].
      rewrite Forall_forall in H2. apply H2. exact Hi'. }
  rewrite Et.
  change (SFin (Cmod (u 0%nat)) :: map (fun i => SFin (Cmod (u i))) (seq 1 n)) with (map (fun i => SFin (Cmod (u i))) is).
  rewrite !map_length, Nat.eqb_refl, map_map.
  set (p := fun i => egtb (ediv (SFin (Cmod (u i))) (SFin M)) (adapt_cutoff cfg)).
  change (egtb (ediv (SFin (Cmod (u 0%nat))) (SFin M)) (adapt_cutoff cfg) ::
          map (fun x => egtb (ediv (SFin (Cmod (u x))) (SFin M)) (adapt_cutoff cfg)) (seq 1 n)) with (map p is).
  rewrite !mask_map, !enorm_fin.
  assert (Ep : forall i, (i < S n)%nat -> p i = if Rlt_dec (adapt_cutoff cfg * M) (Cmod (u i)) then true else false).
  { intros i Hi. assert (Hle := proj2 HM i Hi). assert (Hp := Cmod_ge_0 (u i)).
    unfold p. cbn [ediv]. destruct (Req_EM_T M 0) as [->|H0].
    - assert (E0 : Cmod (u i) = 0) by lra. rewrite E0, Rmult_0_r.
      destruct (Req_EM_T 0 0) as [_|C]; [|lra]. destruct (Rlt_dec 0 0); [lra|reflexivity].
    - cbn [egtb]. unfold Rltb.
      assert (HM0 : 0 < M) by lra.
      destruct (Rlt_dec (adapt_cutoff cfg) (Cmod (u i) / M)) as [A|A], (Rlt_dec (adapt_cutoff cfg * M) (Cmod (u i))) as [B|B]; try reflexivity.
      + elim B. apply (Rmult_lt_compat_r M) in A; [|exact HM0]. unfold Rdiv in A. rewrite Rmult_assoc, Rinv_l, Rmult_1_r in A by lra. exact A.
      + elim A. apply (Rmult_lt_reg_r M); [exact HM0|]. unfold Rdiv. rewrite Rmult_assoc, Rinv_l, Rmult_1_r by lra. exact B. }
  assert (En : forall v : vec Cops, sqrt (sq_norm (filter p is) v) = sig_norm (S n) (adapt_cutoff cfg) M u v).
  { intros v. unfold sq_norm, is. rewrite lsum_filter. unfold sig_norm. f_equal. apply rsum_ext. intros i Hi.
    rewrite (Ep i Hi). destruct (Rlt_dec _ _); [ring|reflexivity]. }
  rewrite !En. reflexivity.
Qed.

Lemma is_max_exists n (u : nat -> C) : (0 < n)%nat -> exists M, is_max n u M.
Proof.
  intros Hn. destruct n as [|n]; [lia|]. clear Hn. induction n as [|n [M [(i & Hi & E) HU]]].
  - exists (Cmod (u 0%nat)). split; [exists 0%nat; split; [lia|reflexivity]|].
    intros i Hi. replace i with 0%nat by lia. lra.
  - destruct (Rle_dec (Cmod (u (S n))) M) as [L|L].
    + exists M. split; [exists i; split; [lia|exact E]|]. intros j Hj.
      destruct (Nat.eq_dec j (S n)) as [->|Hj']; [exact L|apply HU; lia].
    + exists (Cmod (u (S n))). split; [exists (S n); split; [lia|reflexivity]|]. intros j Hj.
      destruct (Nat.eq_dec j (S n)) as [->|Hj']; [lra|]. assert (Cmod (u j) <= M) by (apply HU; lia). lra.
Qed.
Lemma is_max_unique n u M M' : is_max n u M -> is_max n u M' -> M = M'.
Proof.
  intros [(i & Hi & E) HU] [(j & Hj & E') HU']. specialize (HU j Hj). specialize (HU' i Hi). lra.
Qed.

(** [q]-th roots. *)
Lemma root_ge (x y : R) (q : nat) : (0 < q)%nat -> 0 < x -> 0 < y ->
  (y <= Rpower x (1 / INR q) <-> y ^ q <= x).
Proof.
  intros Hq Hx Hy. assert (HQ : 0 < INR q) by (apply lt_0_INR; lia).
  assert (Hr : 0 < Rpower x (1 / INR q)) by apply exp_pos.
  assert (E : (Rpower x (1 / INR q)) ^ q = x).
  { rewrite <- Rpower_pow by exact Hr. rewrite Rpower_mult. replace (1 / INR q * INR q) with 1 by (field; lra).
    apply Rpower_1. exact Hx. }
  split; intros H.
  - rewrite <- E. apply pow_incr. lra.
  - destruct (Rle_lt_dec y (Rpower x (1 / INR q))) as [L|L]; [exact L|]. exfalso.
    assert (Rpower x (1 / INR q) ^ q < y ^ q); [|lra].
    destruct q as [|q]; [lia|]. clear - L Hr Hy.
    set (r := Rpower x (1 / INR (S q))) in *. clearbody r.
    induction q as [|q IH]; [cbn; lra|].
    change (r * r ^ S q < y * y ^ S q).
    apply Rmult_gt_0_lt_compat; try assumption. apply pow_lt. exact Hr.
Qed.

(** A finite factor that is accepted: [accepts (SFin x) = Some x]. *)
Definition accepted (r : exn + sval (T Rops)) : Prop := exists x, r = inr (SFin x) /\ 1 <= x.

Lemma accepted_iff r : accepted r <-> exists s x, r = inr s /\ accepts (F := Rops) s = Some x.
Proof.
  split.
  - intros (x & -> & H). exists (SFin x), x. split; [reflexivity|]. cbn [accepts].
    replace (tltb Rops x (tofZ Rops 1)) with false by (symmetry; apply Rltb_false; exact H). reflexivity.
  - intros (s & x & -> & H). destruct s as [y| | |]; try discriminate. cbn [accepts] in H.
    destruct (tltb Rops y (tofZ Rops 1)) eqn:E; [discriminate|]. injection H as <-. exists y. split; [reflexivity|].
    apply Rltb_false in E. exact E.
Qed.

(** ** C05: acceptance is exactly the tolerance test on the significant components *)
Theorem C05_acceptance_criterion :
  forall (cfg : config (T Rops)) (q n : nat) (u err : vec Cops) (M : R),
  valid_config cfg -> (0 < q)%nat -> (0 < n)%nat -> is_max n u M ->
  (accepted (compute_s_vec cfg q n u err) <->
   0 < safety_f cfg /\
   0 < sig_norm n (adapt_cutoff cfg) M u err <=
       epsilon cfg * safety_f cfg ^ q * sig_norm n (adapt_cutoff cfg) M u u) /\
  (* the largest component takes part, unless the candidate is zero *)
  (forall i, (i < n)%nat -> Cmod (u i) = M -> 0 < M -> adapt_cutoff cfg * M < Cmod (u i)).
Proof.
  intros cfg q n u err M Hc Hq Hn HM. destruct Hc as (He & Hi & Hd & Hs & Ha & Hm). split.
  2:{ intros i Hi' -> HM0. nra. }
  rewrite (compute_s_value cfg q n u err M Hn HM).
  set (nu := sig_norm n (adapt_cutoff cfg) M u u). set (ne := sig_norm n (adapt_cutoff cfg) M u err).
  assert (Pu : 0 <= nu) by apply sig_norm_nonneg. assert (Pe : 0 <= ne) by apply sig_norm_nonneg.
  set (sf := safety_f cfg) in *. set (ep := epsilon cfg) in *. clearbody nu ne sf ep.
  unfold accepted. cbn [ediv]. destruct (Req_EM_T ne 0) as [->|Hne].
  { split; [|intros (_ & H & _); lra]. intros (x & E & _). exfalso.
    destruct (Req_EM_T (ep * nu) 0); cbn [epow emul] in E; [discriminate|].
    destruct (Rltb (ep * nu) 0); cbn [epow emul inf_times] in E; unfold inf_times in E;
      destruct (Req_EM_T sf 0); try discriminate; destruct (xorb false (Rltb sf 0)); discriminate. }
  assert (Pe' : 0 < ne) by lra. cbn [epow].
  destruct (Req_EM_T (ep * nu / ne) 0) as [E0|E0].
  { cbn [emul]. split.
    - intros (x & E & Hx). exfalso. injection E as E. rewrite Rmult_0_r in E. lra.
    - intros (Hs0 & _ & H). exfalso. assert (ep * nu = 0).
      { unfold Rdiv in E0. apply Rmult_integral in E0. destruct E0 as [E0|E0]; [exact E0|].
        elim (Rinv_neq_0_compat ne Hne). exact E0. }
      assert (nu = 0) by nra. subst nu. lra. }
  assert (Pq : 0 <= ep * nu / ne).
  { unfold Rdiv. apply Rmult_le_pos; [nra|]. left. apply Rinv_0_lt_compat. exact Pe'. }
  assert (Pt : 0 < ep * nu / ne) by lra. unfold Rltb. destruct (Rlt_dec (ep * nu / ne) 0) as [C|_]; [lra|].
  cbn [emul].
  assert (Main : 0 < sf -> (1 <= sf * Rpower (ep * nu / ne) (1 / INR q) <-> ne <= ep * sf ^ q * nu)).
  { intros Hs0. assert (Hp : 0 < sf ^ q) by (apply pow_lt; exact Hs0).
    assert (Hi0 : 0 < / sf) by (apply Rinv_0_lt_compat; exact Hs0).
    assert (R := root_ge (ep * nu / ne) (/ sf) q Hq Pt Hi0).
    assert (E1 : 1 <= sf * Rpower (ep * nu / ne) (1 / INR q) <-> / sf <= Rpower (ep * nu / ne) (1 / INR q)).
    { split; intros H.
      - apply (Rmult_le_reg_l sf); [exact Hs0|]. rewrite Rinv_r by lra. exact H.
      - apply (Rmult_le_compat_l sf) in H; [|lra]. rewrite Rinv_r in H by lra. exact H. }
    rewrite E1, R. rewrite pow_inv.
    split; intros H.
    - apply (Rmult_le_compat_r (ne * sf ^ q)) in H; [|nra].
      replace (/ sf ^ q * (ne * sf ^ q)) with ne in H by (field; lra).
      replace (ep * nu / ne * (ne * sf ^ q)) with (ep * sf ^ q * nu) in H by (field; lra). exact H.
    - apply (Rmult_le_reg_r (ne * sf ^ q)); [nra|].
      replace (/ sf ^ q * (ne * sf ^ q)) with ne by (field; lra).
      replace (ep * nu / ne * (ne * sf ^ q)) with (ep * sf ^ q * nu) by (field; lra). exact H. }
  split.
  - intros (x & E & Hx). injection E as E. subst x.
    assert (Hr : 0 < Rpower (ep * nu / ne) (1 / INR q)) by apply exp_pos.
    assert (Hs0 : 0 < sf) by (destruct (Rlt_le_dec 0 sf); [assumption|nra]).
    split; [exact Hs0|]. split; [exact Pe'|]. apply Main; assumption.
  - intros (Hs0 & _ & H). eexists. split; [reflexivity|]. apply Main; assumption.
Qed.

Lemma compute_s_vec_0 cfg q u err : compute_s_vec cfg q 0 u err = inl ValueError.
Proof. reflexivity. Qed.

(** Every accepted step of every adaptive scheme. *)
Theorem C05_accepted_step :
  forall (W : Type) (m : asm (T Rops) (vec Cops) W) (cfg : config (T Rops)) (q n : nat),
  valid_config cfg -> (0 < q)%nat ->
  forall u (h : pynum (T Rops)) (o : asobj Rops (vec Cops) W m) w u1 h1 h2 o' w',
  as_step the_consts cfg (compute_s_vec cfg q n) u h o w = (Ret (u1, h1, h2), o', w') ->
  exists acc s wl err M,
    as_upd m acc u (val h1) s wl = (inr (u1, err), a_m o', w') /\
    is_max n u1 M /\ 0 < M /\
    0 < sig_norm n (adapt_cutoff cfg) M u1 err <=
        epsilon cfg * safety_f cfg ^ q * sig_norm n (adapt_cutoff cfg) M u1 u1 /\
    sig_norm n (adapt_cutoff cfg) M u1 err <= epsilon cfg * sig_norm n (adapt_cutoff cfg) M u1 u1.
Proof.
  intros W m cfg q n Hc Hq u h o w u1 h1 h2 o' w' H.
  assert (S := C03_step_contract _ _ m cfg _ Hc _ _ _ _ _ _ _ H). cbn in S.
  destruct S as (_ & _ & _ & acc & s & wl & err & x & E1 & E2 & E3).
  assert (Hn : (0 < n)%nat) by (destruct n; [discriminate E2|lia]).
  destruct (is_max_exists n u1 Hn) as [M HM].
  destruct (C05_acceptance_criterion cfg q n u1 err M Hc Hq Hn HM) as [[Hac _] _].
  destruct Hac as (S1 & S2 & S3); [exists x; split; assumption|].
  exists acc, s, wl, err, M. split; [exact E1|]. split; [exact HM|].
  destruct Hc as (He & _ & _ & Hs & Ha & _).
  assert (N1 := sig_norm_nonneg n (adapt_cutoff cfg) M u1 u1).
  assert (HM0 : 0 < M).
  { destruct HM as [(i & Hi & Ei) HU]. assert (0 <= M) by (rewrite <- Ei; apply Cmod_ge_0).
    destruct (Rlt_le_dec 0 M) as [|Hle]; [assumption|]. exfalso. assert (M = 0) by lra. subst M.
    revert S2. unfold sig_norm. rewrite (rsum_ext _ _ (fun _ => 0 * 0)).
    - rewrite rsum_scal, Rmult_0_l, sqrt_0. lra.
    - intros j Hj. assert (Cmod (u1 j) <= 0) by (rewrite <- H1; apply HU; exact Hj).
      rewrite H1. destruct (Rlt_dec _ _); [|ring]. assert (P := Cmod_ge_0 (u1 j)). lra. }
  split; [exact HM0|]. split; [split; assumption|].
  assert (P : 0 < safety_f cfg ^ q <= 1).
  { split; [apply pow_lt; exact S1|]. rewrite <- (pow1 q). apply pow_incr. lra. }
  assert (epsilon cfg * safety_f cfg ^ q * sig_norm n (adapt_cutoff cfg) M u1 u1
          <= epsilon cfg * sig_norm n (adapt_cutoff cfg) M u1 u1); [|lra].
  rewrite Rmult_assoc. apply Rmult_le_compat_l; [lra|].
  assert (safety_f cfg ^ q * sig_norm n (adapt_cutoff cfg) M u1 u1 <= 1 * sig_norm n (adapt_cutoff cfg) M u1 u1)
    by (apply Rmult_le_compat_r; lra). lra.
Qed.

(** If no component is excluded ([adapt_cutoff] negative) the criterion is the full norm. *)
Theorem C05_full_norm_without_cutoff :
  forall n cut M (u v : nat -> C), is_max n u M -> 0 < M -> cut < 0 -> sig_norm n cut M u v = full_norm n v.
Proof.
  intros n cut M u v HM HM0 Hc. unfold sig_norm, full_norm. f_equal. apply rsum_ext. intros i Hi.
  destruct (Rlt_dec (cut * M) (Cmod (u i))) as [_|Hx]; [reflexivity|]. assert (P := Cmod_ge_0 (u i)). nra.
Qed.

(** ** One step of a solver that was just reset (or constructed) *)
Lemma solver_step_pure (W : Type) (p : problem Cops W) (N : vec Cops -> vec Cops) (k : as_kind) ks cfg cs :
  (forall v w, exists w', p_nl p v w = (inr (N v), w')) -> linalg_total p ->
  forall u (h : pynum (T Rops)) (o : asobj Rops (vec Cops) W (as_model p k)) w, 0 <= val h ->
  exists o' w', as_step ks cfg cs u h (as_reset_obj o) w =
                (pure_step Rops ks cfg cs (as_Phi p N k) (S (MAX_LOOPS ks)) u h, o', w').
Proof.
  intros HN Ht u h o w Hh.
  assert (H1 : forall v w y w', p_nl p v w = (inr y, w') -> y = N v)
    by (intros v w0 y w' E; destruct (HN v w0) as [w1 E1]; congruence).
  assert (H2 : forall v w e, fst (p_nl p v w) <> inl e)
    by (intros v w0 e; destruct (HN v w0) as [w1 E1]; rewrite E1; discriminate).
  assert (HM : as_memoryless (as_model p k) (as_Phi p N k) (as_inv p N k)).
  { apply as_sound_memoryless; [|apply as_model_never_raises; assumption].
    apply as_model_sound; [exact H1|exact Ht|]. intros a b E. apply Reqb_true in E. subst. reflexivity. }
  destruct (@as_step_pure Rops (vec Cops) ks cfg cs W (as_model p k) _ _ HM u h (as_reset_obj o) w)
    as (o' & w' & E & _).
  - apply (proj1 HM).
  - apply Rleb_true. exact Hh.
  - eauto.
Qed.

Lemma never_accepted (U : Type) ks cfg cs (Phi : R -> U -> U * U) :
  forall n u (h : pynum (T Rops)),
  (forall t, exists sv, cs (fst (Phi t u)) (snd (Phi t u)) = inr sv /\ accepts (F := Rops) sv = None) ->
  pure_step Rops ks cfg cs Phi n u h = Exc MaxLoopsExceeded \/ pure_step Rops ks cfg cs Phi n u h = Exc MinimumStepReached.
Proof.
  induction n as [|n IH]; intros u h H; [left; reflexivity|]. cbn [pure_step].
  destruct (H (val h)) as (sv & E & Ea). change (Phi (val h) u) with (Phi (val h) u) in E.
  destruct (Phi (val h) u) as [unew err]. cbn [fst snd] in E. rewrite E.
  assert (K : (let h' := reject_size ks cfg sv h in
     if (n =? 0)%nat then Exc MaxLoopsExceeded
     else if tltb Rops (val h') (minh cfg) then Exc MinimumStepReached
     else pure_step Rops ks cfg cs Phi n u h') = Exc MaxLoopsExceeded \/
   (let h' := reject_size ks cfg sv h in
     if (n =? 0)%nat then Exc MaxLoopsExceeded
     else if tltb Rops (val h') (minh cfg) then Exc MinimumStepReached
     else pure_step Rops ks cfg cs Phi n u h') = Exc MinimumStepReached).
  { cbv zeta. destruct (n =? 0)%nat; [left; reflexivity|].
    destruct (tltb Rops _ (minh cfg)); [right; reflexivity|]. apply IH. exact H. }
  destruct sv as [x| | |]; try exact K. cbn [accepts] in Ea.
  destruct (tltb Rops x (tofZ Rops 1)); [exact K|discriminate].
Qed.

(** ** C06: the documented full-norm criterion is not what acceptance guarantees *)

Definition default_config : config (T Rops) :=
  mk_config (A := T Rops) (1/10000) (5/4) (85/100) (8/10) (1/100) (1/10^16).
Lemma default_config_valid : valid_config default_config.
Proof. exact toy_cfg_valid. Qed.

(** IF34 on the diagonal linear problem v0' = v0/10, v1' = -v1, all of it in the nonlinear part. *)
Definition two_modes_N : vec Cops -> vec Cops :=
  fun v i => match i with O => (RtoC (1/10) * v O)%C | 1%nat => (- v 1%nat)%C | _ => RtoC 0 end.
Definition two_modes : problem Cops unit :=
  mk_problem (A := Cops) (pure_nl two_modes_N) 2 (fun _ => RtoC 0) (fun _ _ => RtoC 0) ex_cfg
             (fun m => inr m) (fun m => inr m) (fun _ _ => RtoC 0) (fun _ _ => RtoC 0) (fun _ => RtoC 0).
Definition two_modes_u : vec Cops := fun i => match i with O => RtoC 1 | 1%nat => RtoC (1/50) | _ => RtoC 0 end.

Lemma two_modes_exp (h : R) : vexp (vscal (F := Rops) (A := Cops) h (fun _ => RtoC 0)) = (fun _ => RtoC 1).
Proof.
  apply functional_extensionality; intros i. unfold vexp, vscal. csimp.
  replace (RtoC h * RtoC 0)%C with (RtoC 0) by ring. apply Cexp_0.
Qed.
Definition growth_factor (y : R) : R := 1 + y + y^2/2 + y^3/6 + y^4/24.
Definition error_factor (y : R) : R := y^4 * (2 - y) / 144.

Lemma two_modes_step :
  (forall i, fst (as_Phi two_modes two_modes_N IF34d (1 : R) two_modes_u) i =
     match i with O => RtoC (growth_factor (1/10)) | 1%nat => RtoC (growth_factor (-1) / 50) | _ => RtoC 0 end) /\
  (forall i, snd (as_Phi two_modes two_modes_N IF34d (1 : R) two_modes_u) i =
     match i with O => RtoC (error_factor (1/10)) | 1%nat => RtoC (error_factor (-1) / 50) | _ => RtoC 0 end).
Proof.
  assert (E0 : forall i, vexp (vscal (F := Rops) (A := Cops) (1 : R) (p_vec two_modes)) i = RtoC 1)
    by (intros i; change (p_vec two_modes) with (fun _ : nat => RtoC 0); rewrite two_modes_exp; reflexivity).
  assert (E1 : forall i, vexp (vdivz (vscal (F := Rops) (A := Cops) (1 : R) (p_vec two_modes)) 2) i = RtoC 1).
  { intros i. unfold vexp, vdivz, vscal. csimp. cbn [p_vec two_modes].
    replace (RtoC 1 * RtoC 0 / RtoC 2)%C with (RtoC 0) by cfield. apply Cexp_0. }
  erewrite as_Phi_form by reflexivity. cbn [as_form]. unfold if_form_d. cbv zeta. cbn [fst snd if_EL if_EL2].
  remember (vexp (vscal (F := Rops) (A := Cops) (1 : R) (p_vec two_modes))) as EL eqn:D0.
  remember (vexp (vdivz (vscal (F := Rops) (A := Cops) (1 : R) (p_vec two_modes)) 2)) as EL2 eqn:D1.
  clear D0 D1.
  split; intros i; csimp; unfold two_modes_N, two_modes_u, growth_factor, error_factor;
    destruct i as [|[|i]]; rewrite ?E0, ?E1;
  repeat (rewrite <- RtoC_mult || rewrite <- RtoC_plus || rewrite <- RtoC_minus || rewrite <- RtoC_opp || rewrite <- RtoC_div by lra);
  apply (f_equal RtoC); field.
Qed.

Lemma pure_step_accepts (U : Type) ks cfg cs (Phi : R -> U -> U * U) n u (h : pynum (T Rops)) x :
  cs (fst (Phi (val h) u)) (snd (Phi (val h) u)) = inr (SFin x) -> 1 <= x ->
  pure_step Rops ks cfg cs Phi (S n) u h = Ret (fst (Phi (val h) u), h, accept_size ks cfg x h).
Proof.
  intros E Hx. cbn [pure_step]. change (Phi (val h) u) with (Phi (val h) u) in E.
  destruct (Phi (val h) u) as [unew err]. cbn [fst snd] in E |- *. rewrite E.
  replace (tltb Rops x (tofZ Rops 1)) with false by (symmetry; apply Rltb_false; exact Hx). reflexivity.
Qed.

Lemma Cmod_pos_R (x : R) : 0 <= x -> Cmod (RtoC x) = x.
Proof. intros H. rewrite Cmod_R. apply Rabs_pos_eq. exact H. Qed.

(** With the default configuration, IF34 accepts the step h = 1 although the error vector is more
    than three times the documented bound. *)
Theorem C06_full_norm_refuted :
  exists o' (h2 : pynum (T Rops)) u1 err,
    as_step the_consts default_config (compute_s_vec default_config 4 2) two_modes_u (num 1)
            (as_new_obj two_modes IF34d) tt = (Ret (u1, num 1, h2), o', tt) /\
    (u1, err) = as_Phi two_modes two_modes_N IF34d (1 : R) two_modes_u /\
    3 * (epsilon default_config * full_norm 2 u1) < full_norm 2 err.
Proof.
  destruct two_modes_step as [Hu He].
  set (Ph := as_Phi two_modes two_modes_N IF34d (1 : R) two_modes_u) in *.
  set (u1 := fst Ph) in *. set (err := snd Ph) in *.
  assert (G0 : growth_factor (1/10) = 265241 / 240000) by (unfold growth_factor; field).
  assert (G1 : growth_factor (-1) / 50 = 3 / 400) by (unfold growth_factor; field).
  assert (F0 : error_factor (1/10) = 19 / 14400000) by (unfold error_factor; field).
  assert (F1 : error_factor (-1) / 50 = 1 / 2400) by (unfold error_factor; field).
  assert (M0 : Cmod (u1 0%nat) = 265241 / 240000) by (rewrite Hu, G0; apply Cmod_pos_R; lra).
  assert (M1 : Cmod (u1 1%nat) = 3 / 400) by (rewrite Hu, G1; apply Cmod_pos_R; lra).
  assert (N0 : Cmod (err 0%nat) = 19 / 14400000) by (rewrite He, F0; apply Cmod_pos_R; lra).
  assert (N1 : Cmod (err 1%nat) = 1 / 2400) by (rewrite He, F1; apply Cmod_pos_R; lra).
  assert (HM : is_max 2 u1 (265241 / 240000)).
  { split; [exists 0%nat; split; [lia|exact M0]|]. intros i Hi. destruct i as [|[|i]]; [lra|lra|lia]. }
  assert (Snorm : forall v : vec Cops, sig_norm 2 (adapt_cutoff default_config) (265241 / 240000) u1 v = Cmod (v 0%nat)).
  { intros v. unfold sig_norm. cbn [rsum]. rewrite M0, M1. change (adapt_cutoff default_config) with (1/100).
    destruct (Rlt_dec (1/100 * (265241/240000)) (265241/240000)); [|lra].
    destruct (Rlt_dec (1/100 * (265241/240000)) (3/400)); [lra|].
    replace (0 + Cmod (v 0%nat) ^ 2 + 0) with (Cmod (v 0%nat) ^ 2) by ring. apply sqrt_pow2. apply Cmod_ge_0. }
  assert (Hacc : accepted (compute_s_vec default_config 4 2 u1 err)).
  { apply (proj1 (C05_acceptance_criterion default_config 4 2 u1 err _ default_config_valid ltac:(lia) ltac:(lia) HM)).
    rewrite !Snorm, M0, N0. cbn [safety_f epsilon default_config]. lra. }
  destruct Hacc as (x & Ex & Hx).
  destruct (solver_step_pure unit two_modes two_modes_N IF34d the_consts default_config (compute_s_vec default_config 4 2))
    with (u := two_modes_u) (h := num 1) (o := as_new_obj two_modes IF34d) (w := tt) as (o' & [] & E).
  - intros v w. eexists. reflexivity.
  - split; intros m e; discriminate.
  - cbn. lra.
  - assert (E' := pure_step_accepts (vec Cops) the_consts default_config (compute_s_vec default_config 4 2)
                    (as_Phi two_modes two_modes_N IF34d) 50 two_modes_u (num 1) x Ex Hx).
    exists o', (accept_size the_consts default_config x (num 1)), u1, err.
    split; [etransitivity; [exact E|]; f_equal; f_equal; exact E'|]. split; [unfold u1, err; destruct Ph; reflexivity|].
    unfold full_norm. cbn [rsum]. rewrite M0, M1, N0, N1. change (epsilon default_config) with (1/10000).
    assert (A : sqrt (0 + (265241/240000)^2 + (3/400)^2) <= 111/100).
    { rewrite <- (sqrt_pow2 (111/100)) by lra. apply sqrt_le_1; lra. }
    assert (B : 1/2400 <= sqrt (0 + (19/14400000)^2 + (1/2400)^2)).
    { rewrite <- (sqrt_pow2 (1/2400)) at 1 by lra. apply sqrt_le_1; lra. }
    lra.
Qed.

(** The accepted step of the C06 witness satisfies the hypotheses of C05. *)
Example C05_not_vacuous : exists u1 h2 o',
  as_step the_consts default_config (compute_s_vec default_config 4 2) two_modes_u (num 1)
          (as_new_obj two_modes IF34d) tt = (Ret (u1, num 1, h2), o', tt) /\ valid_config default_config.
Proof.
  destruct C06_full_norm_refuted as (o' & h2 & u1 & err & E & _). exists u1, h2, o'. split; [exact E|].
  unfold valid_config, default_config; cbn. repeat split; lra.
Qed.

(** ** C07: invariance under scaling *)
Definition scale (z : C) (v : vec Cops) : vec Cops := fun i => (z * v i)%C.

Lemma scale_max n z (u : vec Cops) M : is_max n u M -> is_max n (scale z u) (Cmod z * M).
Proof.
  intros [(i & Hi & E) HU]. split.
  - exists i. split; [exact Hi|]. unfold scale. rewrite Cmod_mult, E. reflexivity.
  - intros j Hj. unfold scale. rewrite Cmod_mult. apply Rmult_le_compat_l; [apply Cmod_ge_0|]. apply HU. exact Hj.
Qed.
Lemma scale_norm n cut M z (u v : vec Cops) : z <> RtoC 0 ->
  sig_norm n cut (Cmod z * M) (scale z u) (scale z v) = Cmod z * sig_norm n cut M u v.
Proof.
  intros Hz. assert (P : 0 < Cmod z) by (apply Cmod_gt_0; exact Hz). unfold sig_norm.
  rewrite (rsum_ext _ _ (fun i => (Cmod z)^2 * (if Rlt_dec (cut * M) (Cmod (u i)) then Cmod (v i) ^ 2 else 0))).
  - rewrite rsum_scal, sqrt_mult_alt by (apply pow2_ge_0). rewrite sqrt_pow2 by lra. reflexivity.
  - intros i Hi. unfold scale. rewrite !Cmod_mult.
    destruct (Rlt_dec (cut * (Cmod z * M)) (Cmod z * Cmod (u i))) as [A|A], (Rlt_dec (cut * M) (Cmod (u i))) as [B|B]; try ring;
      exfalso; nra.
Qed.

Theorem C07_scale_invariant :
  forall (cfg : config (T Rops)) (q n : nat) (u err : vec Cops) (z : C),
  z <> RtoC 0 -> compute_s_vec cfg q n (scale z u) (scale z err) = compute_s_vec cfg q n u err.
Proof.
  intros cfg q n u err z Hz. destruct n as [|n]; [reflexivity|].
  destruct (is_max_exists (S n) u ltac:(lia)) as [M HM].
  assert (P : 0 < Cmod z) by (apply Cmod_gt_0; exact Hz).
  rewrite (compute_s_value cfg q (S n) u err M ltac:(lia) HM).
  rewrite (compute_s_value cfg q (S n) (scale z u) (scale z err) (Cmod z * M) ltac:(lia) (scale_max _ _ _ _ HM)).
  rewrite !scale_norm by exact Hz.
  set (nu := sig_norm (S n) (adapt_cutoff cfg) M u u). set (ne := sig_norm (S n) (adapt_cutoff cfg) M u err).
  assert (Pu : 0 <= nu) by apply sig_norm_nonneg. assert (Pe : 0 <= ne) by apply sig_norm_nonneg.
  clearbody nu ne. do 3 f_equal. cbn [ediv].
  destruct (Req_EM_T ne 0) as [->|Hne].
  - rewrite Rmult_0_r. destruct (Req_EM_T 0 0) as [_|]; [|lra].
    destruct (Req_EM_T (epsilon cfg * (Cmod z * nu)) 0) as [A|A], (Req_EM_T (epsilon cfg * nu) 0) as [B|B]; try reflexivity.
    + exfalso. apply B. replace (epsilon cfg * nu) with (epsilon cfg * (Cmod z * nu) * / Cmod z) by (field; lra).
      rewrite A. ring.
    + exfalso. apply A. replace (epsilon cfg * (Cmod z * nu)) with (Cmod z * (epsilon cfg * nu)) by ring. rewrite B. ring.
    + unfold Rltb. replace (epsilon cfg * (Cmod z * nu)) with (Cmod z * (epsilon cfg * nu)) by ring.
      destruct (Rlt_dec (Cmod z * (epsilon cfg * nu)) 0), (Rlt_dec (epsilon cfg * nu) 0); try reflexivity; exfalso; nra.
  - destruct (Req_EM_T (Cmod z * ne) 0) as [A|A].
    + exfalso. apply Rmult_integral in A. lra.
    + f_equal. field. lra.
Qed.

(** Consequently a whole adaptive step commutes with scaling when the method does (for instance
    for a linear problem): same rejections, same step sizes, scaled result. *)
Theorem C07_adaptive_step_scales :
  forall ks cfg q n (Phi : R -> vec Cops -> vec Cops * vec Cops) (z : C),
  z <> RtoC 0 ->
  (forall h u, Phi h (scale z u) = (scale z (fst (Phi h u)), scale z (snd (Phi h u)))) ->
  forall k u (h : pynum (T Rops)),
  pure_step Rops ks cfg (compute_s_vec cfg q n) Phi k (scale z u) h =
  match pure_step Rops ks cfg (compute_s_vec cfg q n) Phi k u h with
  | Ret (u1, h1, h2) => Ret (scale z u1, h1, h2)
  | Exc e => Exc e
  | Fuel => Fuel
  end.
Proof.
  intros ks cfg q n Phi z Hz HP. induction k as [|k IH]; intros u h; [reflexivity|]. cbn [pure_step].
  assert (E := HP (val h) u). change (Phi (val h) (scale z u)) with (Phi (val h) (scale z u)) in E.
  rewrite E. destruct (Phi (val h) u) as [unew err]. cbn [fst snd].
  rewrite (C07_scale_invariant cfg q n unew err z Hz).
  destruct (compute_s_vec cfg q n unew err) as [e|sv]; [reflexivity|].
  destruct sv as [x| | |]; [destruct (tltb Rops x (tofZ Rops 1)); [|reflexivity]| | |]; cbv zeta;
    (destruct (k =? 0)%nat; [reflexivity|]; destruct (tltb Rops _ (minh cfg)); [reflexivity|apply IH]).
Qed.

Example C07_not_vacuous : (0, 2) <> RtoC 0 /\
  exists x, compute_s_vec default_config 4 2 (fun _ => RtoC 1) (fun _ => RtoC 1) = inr (SFin x).
Proof.
  split; [intros E; injection E as E; lra|].
  assert (HM : is_max 2 (fun _ => RtoC 1) 1).
  { split; [exists 0%nat; split; [lia|]|intros i _]; rewrite Cmod_R, Rabs_R1; lra. }
  rewrite (compute_s_value default_config 4 2 (fun _ => RtoC 1) (fun _ => RtoC 1) 1 ltac:(lia) HM).
  set (nu := sig_norm 2 (adapt_cutoff default_config) 1 (fun _ => RtoC 1) (fun _ => RtoC 1)).
  assert (Pn : nu <> 0).
  { unfold nu, sig_norm. cbn [rsum]. rewrite Cmod_R, Rabs_R1. change (adapt_cutoff default_config) with (1/100).
    destruct (Rlt_dec (1/100 * 1) 1); [|lra]. intros E. apply sqrt_eq_0 in E; lra. }
  cbn [ediv]. destruct (Req_EM_T nu 0); [contradiction|].
  replace (epsilon default_config * nu / nu) with (1/10000) by (cbn [epsilon default_config]; field; exact Pn).
  cbn [epow]. destruct (Req_EM_T (1/10000) 0); [lra|]. unfold Rltb. destruct (Rlt_dec (1/10000) 0); [lra|].
  eexists. reflexivity.
Qed.

(** ** C08, C09: zero error and zero state *)

(** A zero error vector gives an infinite (or undefined) factor, which is rejected; so is the zero
    candidate. *)
Lemma zero_error_rejected cfg q n (u err : vec Cops) : (0 < n)%nat -> (forall i, (i < n)%nat -> err i = RtoC 0) ->
  exists sv, compute_s_vec cfg q n u err = inr sv /\ accepts (F := Rops) sv = None.
Proof.
  intros Hn He. destruct (is_max_exists n u Hn) as [M HM].
  rewrite (compute_s_value cfg q n u err M Hn HM).
  replace (sig_norm n (adapt_cutoff cfg) M u err) with 0.
  2:{ unfold sig_norm. rewrite (rsum_ext _ _ (fun _ => 0 * 0)).
      - rewrite rsum_scal, Rmult_0_l, sqrt_0. reflexivity.
      - intros i Hi. rewrite He, Cmod_0 by exact Hi. destruct (Rlt_dec _ _); ring. }
  eexists. split; [reflexivity|]. cbn [ediv]. destruct (Req_EM_T 0 0) as [_|]; [|lra].
  destruct (Req_EM_T _ 0); cbn [epow emul]; [reflexivity|].
  destruct (Rltb _ 0); cbn [epow emul]; unfold inf_times; destruct (Req_EM_T (safety_f cfg) 0); try reflexivity;
    destruct (xorb _ _); reflexivity.
Qed.

Lemma zero_candidate_nan cfg q n (u err : vec Cops) : (0 < n)%nat -> (forall i, (i < n)%nat -> u i = RtoC 0) ->
  compute_s_vec cfg q n u err = inr SNaN.
Proof.
  intros Hn He.
  assert (HM : is_max n u 0).
  { split; [exists 0%nat; split; [exact Hn|]; rewrite He by exact Hn; apply Cmod_0|].
    intros i Hi. rewrite He, Cmod_0 by exact Hi. lra. }
  rewrite (compute_s_value cfg q n u err 0 Hn HM).
  assert (Z : forall v, sig_norm n (adapt_cutoff cfg) 0 u v = 0).
  { intros v. unfold sig_norm. rewrite (rsum_ext _ _ (fun _ => 0 * 0)).
    - rewrite rsum_scal, Rmult_0_l, sqrt_0. reflexivity.
    - intros i Hi. rewrite He, Cmod_0, Rmult_0_r by exact Hi. destruct (Rlt_dec 0 0); [lra|ring]. }
  rewrite !Z, Rmult_0_r. cbn [ediv]. destruct (Req_EM_T 0 0) as [_|]; [|lra]. reflexivity.
Qed.

Section ZeroForms.
  Variable X : Type.
  Variable act : X -> vec Cops -> vec Cops.
  Hypothesis H0 : forall c, act c zv = zv.
  Lemma etd4_zero_err c u : snd (@etd4_form Rops Cops X act (fun _ => zv) c u zv) = zv.
  Proof. unfold etd4_form. cbv zeta. cbn [snd]. rewrite vsub_zv, H0. reflexivity. Qed.
  Lemma etd5_zero_err c u : snd (@etd5_form Rops Cops X act (fun _ => zv) c u zv) = zv.
  Proof. unfold etd5_form. cbv zeta. cbn [snd]. zvs. rewrite ?vscalz_zv, H0. reflexivity. Qed.
  Variable N : vec Cops -> vec Cops.
  Hypothesis HN : N zv = zv.
  Lemma etd4_at_zero c : @etd4_form Rops Cops X act N c zv zv = (zv, zv).
  Proof. unfold etd4_form. cbv zeta. repeat (rewrite ?H0, ?vadd_zv, ?vsub_zv, ?HN). reflexivity. Qed.
  Lemma etd5_at_zero c : @etd5_form Rops Cops X act N c zv zv = (zv, zv).
  Proof.
    unfold etd5_form. cbv zeta.
    repeat (rewrite ?H0, ?vadd_zv, ?vsub_zv, ?vscalz_zv, ?vdivz_zv, ?vneg_zv, ?HN). reflexivity.
  Qed.
End ZeroForms.

Lemma if_d_zero_err (h : R) c u : snd (@if_form_d Rops Cops (fun _ => zv) h c u zv) = zv.
Proof. unfold if_form_d. cbv zeta. cbn [snd]. zvs. reflexivity. Qed.
Lemma if_n_zero_err (h : R) n c u : snd (@if_form_n Rops Cops (fun _ => zv) h n c u zv) = zv.
Proof. unfold if_form_n. cbv zeta. cbn [snd]. zvs. reflexivity. Qed.
Lemma dp_zero_err c u : snd (@dp_form Rops Cops (fun _ => zv) c u zv) = zv.
Proof. unfold dp_form. cbv zeta. cbn [snd]. zvs. reflexivity. Qed.
Ltac zvn HN := repeat (rewrite ?vmul_zv, ?mdot_zv, ?vdivz_zv, ?vscal_zv, ?vadd_zv, ?vsub_zv, ?HN).
Lemma if_d_at_zero N (h : R) c : N zv = zv -> @if_form_d Rops Cops N h c zv zv = (zv, zv).
Proof. intros HN. unfold if_form_d. cbv zeta. zvn HN. reflexivity. Qed.
Lemma if_n_at_zero N (h : R) n c : N zv = zv -> @if_form_n Rops Cops N h n c zv zv = (zv, zv).
Proof. intros HN. unfold if_form_n. cbv zeta. zvn HN. reflexivity. Qed.
Lemma dp_at_zero N c : N zv = zv -> @dp_form Rops Cops N c zv zv = (zv, zv).
Proof. intros HN. unfold dp_form. cbv zeta. zvn HN. reflexivity. Qed.

Lemma zero_N_error {W} (p : problem Cops W) (k : as_kind) (h : R) (u : vec Cops) : linalg_total p ->
  snd (as_Phi p (fun _ _ => RtoC 0) k h u) = zv.
Proof.
  intros Ht. change (fun (_ : vec Cops) (_ : nat) => RtoC 0) with (fun _ : vec Cops => zv).
  destruct k.
  - erewrite as_Phi_form by reflexivity; cbn [as_form]. apply if_d_zero_err.
  - matrix_kind_as p IF34n h u Ht. apply if_n_zero_err.
  - erewrite as_Phi_form by reflexivity; cbn [as_form]. rewrite eig_zero. cbn [eig_back snd]. rewrite mdot_zv. apply if_d_zero_err.
  - erewrite as_Phi_form by reflexivity; cbn [as_form]. apply dp_zero_err.
  - erewrite as_Phi_form by reflexivity; cbn [as_form]. apply (etd4_zero_err _ _ vmul_zv).
  - matrix_kind_as p ETD34n h u Ht. apply (etd4_zero_err _ _ (mdot_zv _)).
  - erewrite as_Phi_form by reflexivity; cbn [as_form]. rewrite eig_zero. cbn [eig_back snd]. rewrite mdot_zv. apply (etd4_zero_err _ _ vmul_zv).
  - erewrite as_Phi_form by reflexivity; cbn [as_form]. apply (etd5_zero_err _ _ vmul_zv).
  - matrix_kind_as p ETD35n h u Ht. apply (etd5_zero_err _ _ (mdot_zv _)).
  - erewrite as_Phi_form by reflexivity; cbn [as_form]. rewrite eig_zero. cbn [eig_back snd]. rewrite mdot_zv. apply (etd5_zero_err _ _ vmul_zv).
Qed.

Lemma at_zero {W} (p : problem Cops W) N (k : as_kind) (h : R) : linalg_total p -> N zv = zv ->
  as_Phi p N k h zv = (zv, zv).
Proof.
  intros Ht HN.
  assert (HE : eig_N p N zv = zv) by (unfold eig_N; rewrite mdot_zv, HN; apply mdot_zv).
  destruct k.
  - erewrite as_Phi_form by reflexivity; cbn [as_form]. rewrite HN. apply if_d_at_zero. exact HN.
  - matrix_kind_as p IF34n h zv Ht. rewrite HN. apply if_n_at_zero. exact HN.
  - erewrite as_Phi_form by reflexivity; cbn [as_form]. rewrite HN, !mdot_zv, if_d_at_zero by exact HE. unfold eig_back. cbn [fst snd]. rewrite mdot_zv. reflexivity.
  - erewrite as_Phi_form by reflexivity; cbn [as_form]. rewrite HN. apply dp_at_zero. exact HN.
  - erewrite as_Phi_form by reflexivity; cbn [as_form]. rewrite HN. apply (etd4_at_zero _ _ vmul_zv). exact HN.
  - matrix_kind_as p ETD34n h zv Ht. rewrite HN. apply (etd4_at_zero _ _ (mdot_zv _)). exact HN.
  - erewrite as_Phi_form by reflexivity; cbn [as_form]. rewrite HN, !mdot_zv, (etd4_at_zero _ _ vmul_zv) by exact HE. unfold eig_back. cbn [fst snd]. rewrite mdot_zv. reflexivity.
  - erewrite as_Phi_form by reflexivity; cbn [as_form]. rewrite HN. apply (etd5_at_zero _ _ vmul_zv). exact HN.
  - matrix_kind_as p ETD35n h zv Ht. rewrite HN. apply (etd5_at_zero _ _ (mdot_zv _)). exact HN.
  - erewrite as_Phi_form by reflexivity; cbn [as_form]. rewrite HN, !mdot_zv, (etd5_at_zero _ _ vmul_zv) by exact HE. unfold eig_back. cbn [fst snd]. rewrite mdot_zv. reflexivity.
Qed.

(** Every adaptive solver, on every linear problem (nonlinear part identically zero), for every
    state, step size and configuration: [step] raises. *)
Theorem C08_linear_problem_refuted :
  forall (W : Type) (p : problem Cops W) (k : as_kind) (cfg : config (T Rops)) (q n : nat),
  (forall v w, exists w', p_nl p v w = (inr (fun _ => RtoC 0), w')) -> linalg_total p -> (0 < n)%nat ->
  forall u (h : pynum (T Rops)) (o : asobj Rops (vec Cops) W (as_model p k)) w, 0 <= val h ->
  exists e o' w', as_step the_consts cfg (compute_s_vec cfg q n) u h (as_reset_obj o) w = (Exc e, o', w') /\
                  (e = MaxLoopsExceeded \/ e = MinimumStepReached).
Proof.
  intros W p k cfg q n HN Ht Hn u h o w Hh.
  destruct (solver_step_pure W p (fun _ _ => RtoC 0) k the_consts cfg (compute_s_vec cfg q n) HN Ht u h o w Hh) as (o' & w' & E).
  destruct (never_accepted (vec Cops) the_consts cfg (compute_s_vec cfg q n) (as_Phi p (fun _ _ => RtoC 0) k) (S (MAX_LOOPS the_consts)) u h) as [A|A].
  - intros t. apply zero_error_rejected; [exact Hn|]. intros i _.
    exact (f_equal (fun v : vec Cops => v i) (zero_N_error p k t u Ht)).
  - exists MaxLoopsExceeded, o', w'. split; [etransitivity; [exact E|]; f_equal; f_equal; exact A|left; reflexivity].
  - exists MinimumStepReached, o', w'. split; [etransitivity; [exact E|]; f_equal; f_equal; exact A|right; reflexivity].
Qed.

(** The candidate that is thrown away is the exact solution (C40). *)
Theorem C08_rejected_candidate_is_exact :
  forall (W : Type) (p : problem Cops W) (k : as_kind) (h : R) (u : vec Cops), linalg_total p ->
  is_linear_flow_as p k h u (fst (as_Phi p (fun _ _ => RtoC 0) k h u)) /\
  (forall i, snd (as_Phi p (fun _ _ => RtoC 0) k h u) i = RtoC 0).
Proof.
  intros W p k h u Ht. split; [apply C40_linear_exact_adaptive; exact Ht|].
  intros i. exact (f_equal (fun v : vec Cops => v i) (zero_N_error p k h u Ht)).
Qed.

Example C08_not_vacuous : linalg_total nil_problem /\ (0 < p_size nil_problem)%nat.
Proof. split; [apply C40_not_vacuous|cbn; lia]. Qed.

(** Zero state: the factor is NaN and [step] raises after at most 51 attempts. *)
Theorem C09_zero_state_refuted :
  forall (W : Type) (p : problem Cops W) (N : vec Cops -> vec Cops) (k : as_kind) (cfg : config (T Rops)) (q n : nat),
  (forall v w, exists w', p_nl p v w = (inr (N v), w')) -> linalg_total p -> (0 < n)%nat ->
  N (fun _ => RtoC 0) = (fun _ => RtoC 0) ->
  forall (h : pynum (T Rops)) (o : asobj Rops (vec Cops) W (as_model p k)) w, 0 <= val h ->
  exists e o' w', as_step the_consts cfg (compute_s_vec cfg q n) (fun _ => RtoC 0) h (as_reset_obj o) w = (Exc e, o', w') /\
                  (e = MaxLoopsExceeded \/ e = MinimumStepReached).
Proof.
  intros W p N k cfg q n HN Ht Hn HN0 h o w Hh.
  destruct (solver_step_pure W p N k the_consts cfg (compute_s_vec cfg q n) HN Ht zv h o w Hh) as (o' & w' & E).
  destruct (never_accepted (vec Cops) the_consts cfg (compute_s_vec cfg q n) (as_Phi p N k) (S (MAX_LOOPS the_consts)) zv h) as [A|A].
  - intros t. exists SNaN. split; [|reflexivity].
    assert (Ez := at_zero p N k t Ht HN0). apply zero_candidate_nan; [exact Hn|]. intros i _.
    exact (f_equal (fun x : vec Cops * vec Cops => fst x i) Ez).
  - exists MaxLoopsExceeded, o', w'. split; [etransitivity; [exact E|]; f_equal; f_equal; exact A|left; reflexivity].
  - exists MinimumStepReached, o', w'. split; [etransitivity; [exact E|]; f_equal; f_equal; exact A|right; reflexivity].
Qed.

(** It does not loop: [step] always ends, whatever the candidate (first half of C09). *)
Theorem C09_step_ends :
  forall (W : Type) (m : asm (T Rops) (vec Cops) W) (cfg : config (T Rops)) (q n : nat) u h (o : asobj Rops (vec Cops) W m) w o' w',
  as_step the_consts cfg (compute_s_vec cfg q n) u h o w <> (Fuel, o', w').
Proof. intros W m cfg q n u h o w o' w' E. exact (as_step_not_fuel _ _ _ _ _ _ _ E). Qed.

Example C09_not_vacuous : (fun v i => v i * v i)%C (fun _ : nat => RtoC 0) = (fun _ => RtoC 0).
Proof. apply functional_extensionality; intros i. ring. Qed.

(** ** C65: overflowed or undefined values are never accepted *)
Definition finite (x : ext) : Prop := exists a, x = SFin a.
Definition finite_c (z : ecplx) : Prop := finite (fst z) /\ finite (snd z).

Lemma eabs_finite z : finite (eabs z) -> finite_c z.
Proof. destruct z as [[a| | |] [b| | |]]; intros [c E]; try discriminate; split; eexists; reflexivity. Qed.
Lemma eabs_shape z : eabs z = SNaN \/ eabs z = SPInf \/ exists a, eabs z = SFin a /\ 0 <= a.
Proof. destruct z as [[a| | |] [b| | |]]; cbn; auto. right; right. eexists. split; [reflexivity|apply sqrt_pos]. Qed.

Definition magnitude (x : ext) : Prop := x = SNaN \/ x = SPInf \/ exists a, x = SFin a /\ 0 <= a.
Lemma emax_magnitude x y : magnitude x -> magnitude y -> magnitude (emax x y).
Proof.
  intros [->|[->|(a & -> & Ha)]] [->|[->|(b & -> & Hb)]]; cbn; unfold magnitude; auto.
  right; right. exists (Rmax a b). split; [reflexivity|]. apply Rle_trans with a; [exact Ha|apply Rmax_l].
Qed.
Lemma emax_finite x y : magnitude x -> magnitude y -> finite (emax x y) -> finite x /\ finite y.
Proof.
  intros [->|[->|(a & -> & Ha)]] [->|[->|(b & -> & Hb)]] [c E]; cbn in E; try discriminate; split; eexists; reflexivity.
Qed.
Lemma fold_emax_finite l : forall x, magnitude x -> Forall magnitude l -> finite (fold_left emax l x) ->
  finite x /\ Forall finite l.
Proof.
  induction l as [|y l IH]; intros x Hx Hl H; cbn [fold_left] in H; [split; [exact H|constructor]|].
  inversion Hl as [|y' l' Hy Hl']; subst. destruct (IH (emax x y) (emax_magnitude _ _ Hx Hy) Hl' H) as [H1 H2].
  destruct (emax_finite x y Hx Hy H1) as [H3 H4]. split; [exact H3|constructor; assumption].
Qed.
Lemma fold_emax_magnitude l : forall x, magnitude x -> Forall magnitude l -> magnitude (fold_left emax l x).
Proof.
  induction l as [|y l IH]; intros x Hx Hl; cbn [fold_left]; [exact Hx|].
  inversion Hl; subst. apply IH; [apply emax_magnitude; assumption|assumption].
Qed.

Lemma mask_all_false {B} (l : list B) : forall idx, Forall (fun b => b = false) idx -> mask idx l = [].
Proof.
  induction l as [|x l IH]; intros idx H; [destruct idx; reflexivity|].
  destruct idx as [|b idx]; [reflexivity|]. inversion H; subst. cbn. apply IH. assumption.
Qed.

(** If an entry of the candidate is infinite or NaN, the factor is NaN (for the usual
    non-negative cutoffs), so the step is rejected and its size divided by four. *)
Theorem C65_nonfinite_candidate_rejected :
  forall (cfg : config R) (q : nat) (u err : list ecplx),
  0 <= adapt_cutoff cfg -> length err = length u -> ~ Forall finite_c u ->
  compute_s cfg q u err = inr SNaN.
Proof.
  intros cfg q u err Hc Hl Hu. unfold compute_s.
  destruct u as [|z u]; [elim Hu; constructor|]. cbn [map].
  assert (M0 : magnitude (eabs z)) by apply eabs_shape.
  assert (Ml : Forall magnitude (map eabs u)) by (apply Forall_map, Forall_forall; intros; apply eabs_shape).
  set (top := fold_left emax (map eabs u) (eabs z)).
  assert (Mt : magnitude top) by (apply fold_emax_magnitude; assumption).
  assert (Ht : ~ finite top).
  { intros H. apply fold_emax_finite in H; [|assumption|assumption]. destruct H as [H1 H2]. apply Hu.
    constructor; [apply eabs_finite; exact H1|]. rewrite Forall_map in H2.
    apply Forall_impl with (2 := H2). exact eabs_finite. }
  rewrite Hl, Nat.eqb_refl.
  set (idx := egtb (ediv (eabs z) top) (adapt_cutoff cfg) :: map (fun x => egtb (ediv x top) (adapt_cutoff cfg)) (map eabs u)).
  assert (Hi : Forall (fun b => b = false) idx).
  { assert (K : forall x, magnitude x -> egtb (ediv x top) (adapt_cutoff cfg) = false).
    { intros x [->|[->|(a & -> & Ha)]]; destruct Mt as [->|[->|(t & Et & _)]]; try reflexivity;
        try (elim Ht; exists t; exact Et).
      cbn. unfold Rltb. destruct (Rlt_dec _ _); [lra|reflexivity]. }
    unfold idx. constructor; [apply K; exact M0|]. apply Forall_map. apply Forall_impl with (2 := Ml). exact K. }
  rewrite !mask_all_false by exact Hi.
  cbn [enorm edot map fold_right eadd esqrt]. rewrite Rplus_0_r. unfold Rltb. destruct (Rlt_dec 0 0); [lra|].
  rewrite sqrt_0. cbn [emul]. rewrite Rmult_0_r. cbn [ediv]. destruct (Req_EM_T 0 0); [|lra].
  destruct (Req_EM_T 0 0); [reflexivity|lra].
Qed.

(** With a negative cutoff (accepted by the configuration) an infinite candidate can be accepted. *)
Theorem C65_negative_cutoff_refuted :
  exists (cfg : config R) (u err : list ecplx) x,
    valid_config cfg /\ length err = length u /\ ~ Forall finite_c u /\
    compute_s cfg 1 u err = inr (SFin x) /\ 1 <= x.
Proof.
  exists (mk_config (A := R) 1 (5/4) (85/100) 1 (-1) (1/10^16)), [(SPInf, SFin 0); (SFin 1, SFin 0)],
    [(SFin 0, SFin 0); (SFin 1, SFin 0)], 1.
  split; [unfold valid_config; cbn; repeat split; lra|]. split; [reflexivity|]. split.
  { intros H. inversion H as [|? ? [[a E] _] _]; subst. discriminate E. }
  split; [|lra].
  cbn [compute_s map eabs fold_left emax ediv egtb adapt_cutoff length Nat.eqb].
  unfold Rltb at 1 2. destruct (Rlt_dec (-1) 0); [|lra].
  cbn [mask]. unfold enorm, edot. cbn [map fst snd fold_right emul eadd esqrt epsilon safety_f].
  replace (1 * 1 + 0 + (0 * 0 + 0)) with 1 by ring.
  unfold Rltb. destruct (Rlt_dec 1 0); [lra|]. rewrite sqrt_1. cbn [ediv emul].
  destruct (Req_EM_T 1 0); [lra|]. cbn [epow]. replace (1 * 1 / 1) with 1 by field.
  destruct (Req_EM_T 1 0); [lra|]. unfold Rltb. destruct (Rlt_dec 1 0); [lra|].
  cbn [emul]. replace (1 / INR 1) with 1 by (cbn; field).
  rewrite Rpower_1 by lra. rewrite Rmult_1_r. reflexivity.
Qed.

(** A NaN or infinity in the error vector at a significant component is not accepted either. *)
Lemma eadd_finite x y : finite (eadd x y) -> finite x /\ finite y.
Proof. destruct x, y; intros [c E]; try discriminate; split; eexists; reflexivity. Qed.
Lemma esq_finite x : finite (emul x x) -> finite x.
Proof. destruct x; intros [c E]; try discriminate; eexists; reflexivity. Qed.
Lemma edot_finite l : finite (edot l) -> Forall finite l.
Proof.
  induction l as [|x l IH]; intros H; [constructor|]. cbn in H. apply eadd_finite in H. destruct H as [H1 H2].
  constructor; [apply esq_finite; exact H1|]. apply IH. exact H2.
Qed.
Lemma esqrt_finite x : finite (esqrt x) -> finite x.
Proof. destruct x; intros [c E]; try discriminate; eexists; reflexivity. Qed.
Lemma enorm_finite l : finite (enorm l) -> Forall finite_c l.
Proof.
  intros H. apply esqrt_finite in H. apply eadd_finite in H. destruct H as [H1 H2].
  apply edot_finite in H1. apply edot_finite in H2. rewrite Forall_map in H1, H2.
  rewrite Forall_forall in *. intros z Hz. split; [apply H1|apply H2]; exact Hz.
Qed.
Lemma ediv_inf_accept (sf y : R) t ne : ~ finite ne ->
  forall x, @inr exn ext (emul (SFin sf) (epow (ediv t ne) y)) = inr (SFin x) -> x = 0.
Proof.
  intros Hn x. destruct ne as [a| | |]; [elim Hn; eexists; reflexivity| | |]; destruct t; cbn [ediv epow]; try discriminate;
    destruct (Req_EM_T 0 0); try lra; cbn [emul]; intros E; injection E as <-; ring.
Qed.

(** Complete statement of what acceptance implies about the special values: all entries of the
    candidate are finite and so are the entries of the error vector at the significant
    components. *)
Theorem C65_accepted_is_finite :
  forall (cfg : config R) (q : nat) (u err : list ecplx) x,
  0 <= adapt_cutoff cfg ->
  compute_s cfg q u err = inr (SFin x) -> 1 <= x ->
  Forall finite_c u /\
  exists idx, length idx = length u /\ Forall finite_c (mask idx err) /\
    forall top, fold_left emax (map eabs (tl u)) (eabs (hd (SFin 0, SFin 0) u)) = top ->
    idx = map (fun z => egtb (ediv (eabs z) top) (adapt_cutoff cfg)) u.
Proof.
  intros cfg q u err x Hc E Hx.
  assert (Hl : length err = length u).
  { unfold compute_s in E. destruct (map eabs u); [discriminate|].
    destruct (Nat.eqb_spec (length err) (length u)); [assumption|discriminate]. }
  assert (Hu : Forall finite_c u).
  { assert (D : {Forall finite_c u} + {~ Forall finite_c u}).
    { apply Forall_dec. intros [[a| | |] [b| | |]]; try (left; split; eexists; reflexivity);
        right; intros [[c C] [d D]]; discriminate. }
    destruct D as [D|D]; [exact D|]. rewrite (C65_nonfinite_candidate_rejected cfg q u err Hc Hl D) in E. discriminate. }
  split; [exact Hu|]. destruct u as [|z u]; [discriminate E|]. unfold compute_s in E. cbn [map] in E.
  set (top := fold_left emax (map eabs u) (eabs z)) in E.
  exists (map (fun z => egtb (ediv (eabs z) top) (adapt_cutoff cfg)) (z :: u)).
  split; [apply map_length|]. split; [|intros t <-; reflexivity].
  rewrite Hl, Nat.eqb_refl in E. rewrite map_map in E. cbn [map].
  set (idx := egtb (ediv (eabs z) top) (adapt_cutoff cfg) :: map (fun x : ecplx => egtb (ediv (eabs x) top) (adapt_cutoff cfg)) u) in *.
  apply enorm_finite.
  assert (D : finite (enorm (mask idx err)) \/ ~ finite (enorm (mask idx err))).
  { destruct (enorm (mask idx err)); [left; eexists; reflexivity| | |]; right; intros [c C]; discriminate. }
  destruct D as [D|D]; [exact D|]. apply ediv_inf_accept in E; [lra|exact D].
Qed.

Example C65_not_vacuous : exists x,
  compute_s (mk_config (A := R) 1 (5/4) (85/100) 1 0 (1/10^16)) 1 [(SFin 1, SFin 0); (SFin 0, SFin 0)] [(SFin 1, SFin 0); (SNaN, SFin 0)] = inr (SFin x) /\ 1 <= x.
Proof.
  exists 1. split; [|lra].
  cbn [compute_s map eabs fold_left emax adapt_cutoff length Nat.eqb].
  replace (1 * 1 + 0 * 0) with 1 by ring. replace (0 * 0 + 0 * 0) with 0 by ring. rewrite sqrt_1, sqrt_0.
  rewrite Rmax_left by lra. cbn [ediv]. destruct (Req_EM_T 1 0); [lra|]. cbn [egtb]. unfold Rltb at 1 2 3 4.
  destruct (Rlt_dec 0 (1/1)); [|lra]. destruct (Rlt_dec 0 (0/1)); [lra|].
  cbn [mask]. unfold enorm, edot. cbn [map fst snd fold_right emul eadd esqrt epsilon safety_f].
  replace (1 * 1 + 0 + (0 * 0 + 0)) with 1 by ring.
  unfold Rltb. destruct (Rlt_dec 1 0); [lra|]. rewrite sqrt_1. cbn [ediv emul].
  destruct (Req_EM_T 1 0); [lra|]. cbn [epow]. replace (1 * 1 / 1) with 1 by field.
  destruct (Req_EM_T 1 0); [lra|]. unfold Rltb. destruct (Rlt_dec 1 0); [lra|].
  cbn [emul]. replace (1 / INR 1) with 1 by (cbn; field). rewrite Rpower_1 by lra. rewrite Rmult_1_r. reflexivity.
Qed.
