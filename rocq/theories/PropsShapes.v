(** * C86, C87: shapes

    C86: with states of shape (n,) no shape error ever occurs, and the runs are those of the
    models on vectors. C87: which ill-shaped states are rejected. *)

From Coq Require Import ZArith List Bool Reals Lra Lia.
From Coquelicot Require Import Complex.
From Verif Require Import Scalars Control ControlRel Arrays CInst SchemeBase SchemeIF SchemeETD4 SchemeETD5 Solvers SchemeFamily Tolerance RelStep Shapes ShapeTol ShapeRel ShapeRuns.
Import ListNotations.

(** ** C86 *)

(** An array of shape (n,) and the vector of its entries. *)
Definition is_vec {F} {A : aops F} (n : nat) (x : nd A) (v : vec A) : Prop := sh x = [n] /\ v = (fun i => el x [i]).
(** The user's function on arrays and on vectors: the same effects, exceptions and entries, and
    the result has the shape of the argument. *)
Definition nl_agrees {F} {A : aops F} {W} (n : nat) (snl : nd A -> W -> (exn + nd A) * W) (nl : vec A -> W -> (exn + vec A) * W) : Prop :=
  forall x w, sh x = [n] ->
    match fst (snl x w), fst (nl (fun i => el x [i]) w) with
    | inl e, inl e' => e = e'
    | inr y, inr v => is_vec n y v
    | _, _ => False
    end /\ snd (snl x w) = snd (nl (fun i => el x [i]) w).

Lemma agrees_rel {F} {A : aops F} {W} n (snl : nd A -> W -> (exn + nd A) * W) nl : nl_agrees n snl nl ->
  forall a b w w', row_of n [] [] a b -> w = w' ->
    match fst (snl a w), fst (nl b w') with inl e, inl e' => e = e' | inr x, inr y => row_of n [] [] x y | _, _ => False end /\
    snd (snl a w) = snd (nl b w').
Proof. intros H a b w w' [H1 ->] <-. exact (H a w H1). Qed.
Lemma cs_row_need {F} {A : aops F} (p : problem A unit) k : cs_need p (row_of (p_size p) [] []) k.
Proof. destruct k; first [apply row_mul; reflexivity|intros m; apply row_dot]. Qed.
Lemma as_row_need {F} {A : aops F} (p : problem A unit) k : as_need p (row_of (p_size p) [] []) (row_of (p_size p) [] []) k.
Proof. destruct k; first [apply row_mul; reflexivity|intros m; apply row_dot|split; [apply row_mul; reflexivity|split; apply row_dot]]. Qed.

Theorem C86_constant_step_runs_have_no_shape_errors :
  forall (F : tops) (A : aops F) (W : Type) (p : problem A unit) snl nl (k : cs_kind) rs rs' (w : W),
    nl_agrees (p_size p) snl nl -> Forall2 (rel_req (is_vec (p_size p))) rs rs' ->
    let '(x, o1, w1) := cs_session rs (cs_snew_obj p snl k) w in
    let '(y, o2, w2) := cs_session rs' (cs_new_obj (with_nl p nl) k) w in
    Forall2 (rel_ans (is_vec (p_size p))) x y /\ c_t o1 = c_t o2 /\ Forall2 (is_vec (p_size p)) (c_u o1) (c_u o2) /\ w1 = w2.
Proof.
  intros F A W p snl nl k rs rs' w HN Hr.
  exact (cs_shaped_sessions eq p snl nl (@row_closed F A (p_size p) [] [] eq_refl) (agrees_rel _ _ _ HN) k w w (cs_row_need p k) eq_refl Hr).
Qed.

Theorem C86_adaptive_runs_have_no_shape_errors :
  forall (F : tops) (A : aops F) (W : Type) (p : problem A unit) snl nl (k : as_kind) (ks : consts (T F)) cfg compute compute' rs rs' (w : W),
    nl_agrees (p_size p) snl nl ->
    (forall u v e f, is_vec (p_size p) u v -> is_vec (p_size p) e f -> compute u e = compute' v f) ->
    Forall2 (rel_req (is_vec (p_size p))) rs rs' ->
    let '(x, o1, w1) := as_session ks cfg compute rs (as_snew_obj p snl k) w in
    let '(y, o2, w2) := as_session ks cfg compute' rs' (as_new_obj (with_nl p nl) k) w in
    Forall2 (rel_ans (is_vec (p_size p))) x y /\ a_t o1 = a_t o2 /\ Forall2 (is_vec (p_size p)) (a_u o1) (a_u o2) /\ w1 = w2.
Proof.
  intros F A W p snl nl k ks cfg compute compute' rs rs' w HN HC Hr.
  refine (as_shaped_sessions eq p snl nl (@row_closed F A (p_size p) [] [] eq_refl) (@row_closed F A (p_size p) [] [] eq_refl) (agrees_rel _ _ _ HN) ks cfg compute compute' k _
    w w (as_row_need p k) (row_zero A (p_size p)) (row_zero A (p_size p)) eq_refl Hr).
  intros a b e f Ha He. apply HC; [exact Ha|]. destruct k; exact He.
Qed.

(** With the error measure of the code. *)
Theorem C86_adaptive_runs_measured :
  forall (W : Type) (p : problem Cops unit) snl nl (k : as_kind) (ks : consts (T Rops)) cfg (q : nat) rs rs' (w : W),
    nl_agrees (p_size p) snl nl -> Forall2 (rel_req (is_vec (p_size p))) rs rs' ->
    let '(x, o1, w1) := as_session ks cfg (compute_s_nd cfg q) rs (as_snew_obj p snl k) w in
    let '(y, o2, w2) := as_session ks cfg (compute_s_vec cfg q (p_size p)) rs' (as_new_obj (with_nl p nl) k) w in
    Forall2 (rel_ans (is_vec (p_size p))) x y /\ a_t o1 = a_t o2 /\ Forall2 (is_vec (p_size p)) (a_u o1) (a_u o2) /\ w1 = w2.
Proof.
  intros W p snl nl k ks cfg q rs rs' w HN Hr. apply C86_adaptive_runs_have_no_shape_errors; [exact HN| |exact Hr].
  intros u v e f [Hu ->] [He ->]. apply compute_s_1d; assumption.
Qed.

(** Non-vacuity: every function on vectors has a counterpart, and so has every request. *)
Definition nl_1d {F} {A : aops F} {W} (n : nat) (nl : vec A -> W -> (exn + vec A) * W) (x : nd A) (w : W) : (exn + nd A) * W :=
  (match fst (nl (fun i => el x [i]) w) with inl e => inl e | inr v => inr (of_vec n v) end, snd (nl (fun i => el x [i]) w)).
Example C86_functions_exist {F} {A : aops F} {W} n (nl : vec A -> W -> (exn + vec A) * W) : nl_agrees n (nl_1d n nl) nl.
Proof. intros x w Hx. unfold nl_1d. cbn [fst snd]. destruct (fst (nl (fun i => el x [i]) w)); split; try reflexivity. split; reflexivity. Qed.
Example C86_requests_exist {F} {A : aops F} n (v : vec A) (h t0 tf : pynum (T F)) :
  Forall2 (rel_req (is_vec n)) [Step (of_vec n v) h; Evolve 9 (of_vec n v) t0 tf h true 1%Z; Clear_stored; Step (of_vec n v) h]
                               [Step v h; Evolve 9 v t0 tf h true 1%Z; Clear_stored; Step v h].
Proof. repeat constructor. Qed.

(** ** C87 *)

(** A state fits a 1-D operator of length n if its last axis has length n; it fits an n x n
    matrix if it is 1-D of length n or a matrix with n rows. *)
Definition fits_diag (n : nat) (s : shape) : Prop := exists b, s = n :: b.
Definition fits_matrix (n : nat) (s : shape) : Prop := s = [n] \/ exists w, s = [w; n].

(** What the code rejects: lengths numpy cannot stretch, and lengths [dot] cannot contract. *)
Definition clash_diag (n : nat) (s : shape) : Prop := exists d b, s = d :: b /\ d <> n /\ d <> 1%nat /\ n <> 1%nat.
Definition clash_matrix (n : nat) (s : shape) : Prop :=
  (exists d, s = [d] /\ d <> n) \/ (exists w d b, s = w :: d :: b /\ d <> n).
Definition cs_clash (k : cs_kind) : nat -> shape -> Prop := match k with IF4d | ETD4d | ETD5d => clash_diag | _ => clash_matrix end.
Definition as_clash (k : as_kind) : nat -> shape -> Prop := match k with IF34d | IF45DPd | ETD34d | ETD35d => clash_diag | _ => clash_matrix end.
Definition diagonalized (k : as_kind) : bool := match k with IF34z | ETD34z | ETD35z => true | _ => false end.

Section Fails.
  Variable F : tops.
  Variable A : aops F.
  Definition bad (x : sarr A) : Prop := match x with inl _ => True | inr _ => False end.
  Lemma bad1 f x : bad x -> bad (lift1 f x).
  Proof. destruct x; [trivial|contradiction]. Qed.
  Lemma bad2l f x y : bad x -> bad (lift2 f x y).
  Proof. destruct x; [trivial|contradiction]. Qed.
  Lemma bad2r f x y : bad y -> bad (lift2 f x y).
  Proof. destruct x, y; try contradiction; trivial. Qed.
  Lemma bad_mul n c u : clash_diag n (sh u) -> bad (amul n c (okarr u)).
  Proof.
    intros (d & b & E & H1 & H2 & H3). unfold amul, lift1, okarr, map2. cbn [of_vec sh]. rewrite E. cbn [bc]. unfold bcd.
    destruct (Nat.eqb_spec n d); [congruence|]. destruct (Nat.eqb_spec n 1); [congruence|]. destruct (Nat.eqb_spec d 1); [congruence|]. exact I.
  Qed.
  Lemma bad_dot n m u : clash_matrix n (sh u) -> bad (adot n m (okarr u)).
  Proof.
    unfold adot, lift1, okarr, dot1. intros [(d & E & H)|(w & d & b & E & H)]; rewrite E; (destruct (Nat.eqb_spec d n); [congruence|exact I]).
  Qed.

  (** A computation that never returns. *)
  Definition fails {S W X} (m : M S W X) : Prop := forall s w, match fst (fst (m s w)) with inl _ => True | inr _ => False end.
  Lemma fails_l S W X Y (m : M S W X) (f : X -> M S W Y) : fails m -> fails (bind m f).
  Proof. intros H s w. unfold bind. specialize (H s w). destruct (m s w) as [[[e|x] s'] w']; cbn in *; [exact I|contradiction]. Qed.
  Lemma fails_r S W X Y (m : M S W X) (f : X -> M S W Y) : (forall x, fails (f x)) -> fails (bind m f).
  Proof. intros H s w. unfold bind. destruct (m s w) as [[[e|x] s'] w']; [exact I|]. apply H. Qed.
  Lemma fails_eval S W (x : sarr A) : bad x -> @fails S W _ (eval x).
  Proof. intros H s w. destruct x; [exact I|contradiction]. Qed.
End Fails.

Ltac bads := solve [repeat first [assumption|apply bad_mul; assumption|apply bad_dot; assumption|apply bad1|apply bad2l; bads|apply bad2r]].
Ltac failing := repeat first [apply fails_l; solve [first [apply fails_eval; bads|unfold ecall; apply fails_l; apply fails_eval; bads]]
                             |apply fails_r; intros ?; cbv zeta].

Section Reject.
  Variable F : tops.
  Variable A : aops F.
  Variable W : Type.
  Variable p : problem A unit.
  Variable snl : nd A -> W -> (exn + nd A) * W.

  Lemma cs_reject k u h : cs_clash k (p_size p) (sh u) -> fails (cs_upd (cs_smodel p snl k) u h).
  Proof.
    intros H. destruct k; cbn [cs_clash cs_smodel cs_upd cs_solver] in *; unfold cs_update_stages; do 3 (apply fails_r; intros ?).
    - unfold s_if4d_stages. failing.
    - unfold s_if4n_stages. failing.
    - unfold s_etd4d_stages. failing.
    - unfold s_etd4n_stages. failing.
    - unfold s_etd5d_stages. failing.
    - unfold s_etd5n_stages. failing.
  Qed.
  Lemma as_reject k acc u h : diagonalized k = false -> as_clash k (p_size p) (sh u) -> fails (as_upd (as_smodel p snl k) acc u h).
  Proof.
    intros D H. destruct k; try discriminate D; cbn [as_clash as_smodel as_upd as_solver] in *; unfold as_update_stages; try (do 3 (apply fails_r; intros ?)).
    - unfold s_if34d_stages. failing.
    - unfold s_if34n_stages. failing.
    - unfold s_dp_update_stages. failing.
    - unfold s_etd34d_stages. failing.
    - unfold s_etd34n_stages. failing.
    - unfold s_etd35d_stages. failing.
    - unfold s_etd35n_stages. failing.
  Qed.
  (** A diagonalized strategy looks at the state when it starts, and after an accepted step. *)
  Lemma as_reject_accepted k u h : as_clash k (p_size p) (sh u) -> fails (as_upd (as_smodel p snl k) true u h).
  Proof.
    intros H. destruct (diagonalized k) eqn:D; [|apply as_reject; assumption].
    destruct k; try discriminate D; cbn [as_clash as_smodel as_upd as_solver] in *; unfold as_update_stages; do 3 (apply fails_r; intros ?).
    - unfold s_if34z_stages. failing.
    - unfold s_etd34z_stages. failing.
    - unfold s_etd35z_stages, s_etd35z_init. apply fails_l. failing.
  Qed.
  Definition started k : as_st (as_smodel p snl k) -> bool :=
    match k with
    | IF34d => n1_init | IF34n => n1_init | IF34z => n1_init | IF45DPd => n1_init | ETD34d => n1_init
    | ETD34n => n1_init | ETD34z => n1_init | ETD35d => n1_init | ETD35n => n1_init | ETD35z => n1_init
    end.
  Lemma fresh_fails K X uc (init : M (sst (T F) K X) W unit) (Y : Type) (st : M (sst (T F) K X) W Y) h s w :
    fails init -> n1_init s = false ->
    match fst (fst ((s_update_coeffs F W K X uc h ;;; b <- get n1_init ;; (if b then ret tt else (init ;;; upd (set_init true))) ;;; st)%m s w)) with inl _ => True | inr _ => False end.
  Proof.
    intros HI H0. rewrite bind_eq. assert (G : n1_init (snd (fst (s_update_coeffs F W K X uc h s w))) = false).
    { unfold s_update_coeffs. destruct (same_h F h (h_coeff s)); [exact H0|]. cbv zeta. destruct (uc h (coefs (set_h (Some h) s))) as [r c]. exact H0. }
    destruct (s_update_coeffs F W K X uc h s w) as [[[e|[]] s'] w']; [exact I|]. cbn [fst snd] in G. rewrite bind_eq. unfold get. rewrite G.
    apply fails_l. apply fails_l. exact HI.
  Qed.
  Lemma as_reject_fresh k acc u h s w : as_clash k (p_size p) (sh u) -> started k s = false ->
    match fst (fst (as_upd (as_smodel p snl k) acc u h s w)) with inl _ => True | inr _ => False end.
  Proof.
    intros H Hs. destruct (diagonalized k) eqn:D; [|exact (as_reject k acc u h D H s w)].
    destruct k; try discriminate D; cbn [as_clash as_smodel as_upd as_solver started] in *; (apply fresh_fails; [|exact Hs]).
    - unfold s_if34z_init. failing.
    - unfold s_etd34z_init. failing.
    - unfold s_etd35z_init. failing.
  Qed.
  Lemma started_reset k s : started k (as_reset (as_smodel p snl k) s) = false.
  Proof. destruct k; reflexivity. Qed.
  Lemma started_new k : started k (as_snew p snl k) = false.
  Proof. destruct k; reflexivity. Qed.

  Lemma as_loop_fails k ks cfg compute u (o : asobj F (nd A) W (as_smodel p snl k)) :
    (forall h w, match fst (fst (as_upd (as_smodel p snl k) (a_accept o) u h (a_m o) w)) with inl _ => True | inr _ => False end) ->
    forall h w, match fst (fst (as_step ks cfg compute u h o w)) with Ret _ => False | _ => True end.
  Proof.
    intros H h w. unfold as_step. destruct (tleb F (tofZ F 0) (val h)); [|exact I]. cbn [as_step_loop]. specialize (H (val h) w).
    destruct (as_upd (as_smodel p snl k) (a_accept o) u (val h) (a_m o) w) as [[[e|x] s'] w']; [exact I|contradiction].
  Qed.
End Reject.

(** From any object, whatever the nonlinear function does. *)
Theorem C87_constant_step_rejects :
  forall (F : tops) (A : aops F) (W : Type) (p : problem A unit) snl (k : cs_kind) (o : csobj F (nd A) W (cs_smodel p snl k)) u,
    cs_clash k (p_size p) (sh u) ->
    (forall h w, match fst (fst (cs_step u h o w)) with Ret _ => False | _ => True end) /\
    (forall fuel t0 tf h sd sf w u', fst (fst (cs_evolve fuel u t0 tf h sd sf o w)) = Ret u' -> u' = u).
Proof.
  intros F A W p snl k o u H.
  assert (G : forall (o : csobj F (nd A) W (cs_smodel p snl k)) h w, match fst (fst (cs_step u h o w)) with Ret _ => False | _ => True end).
  { intros o' h w. unfold cs_step. destruct (tleb F (tofZ F 0) h); [|exact I]. assert (X := cs_reject F A W p snl k u h H (c_m o') w).
    destruct (cs_upd (cs_smodel p snl k) u h (c_m o') w) as [[[e|x] s'] w']; [exact I|contradiction]. }
  split; [exact (G o)|]. intros fuel t0 tf h sd sf w u'. unfold cs_evolve. destruct (tltb F (val tf) (val (padd F t0 h))); [discriminate|].
  match goal with |- context [cs_loop fuel u h sd sf 0 ?o2 w] => generalize o2 end. intros o2. destruct fuel; cbn [cs_loop].
  - destruct (tltb F (val (c_tc o2)) (val (c_tf o2))); [discriminate|]. cbn. congruence.
  - destruct (tltb F (val (c_tc o2)) (val (c_tf o2))); [|cbn; congruence]. specialize (G o2 (val h) w).
    destruct (cs_step u (val h) o2 w) as [[[x|e|] o3] w3]; [contradiction|discriminate|discriminate].
Qed.
Theorem C87_adaptive_rejects :
  forall (F : tops) (A : aops F) (W : Type) (p : problem A unit) snl (k : as_kind) ks cfg compute (o : asobj F (nd A) W (as_smodel p snl k)) u,
    as_clash k (p_size p) (sh u) ->
    (diagonalized k = false \/ a_accept o = true \/ o = as_snew_obj p snl k \/ (exists o0, o = as_reset_obj o0) ->
       forall h w, match fst (fst (as_step ks cfg compute u h o w)) with Ret _ => False | _ => True end) /\
    (forall fuel t0 tf h sd sf w u', fst (fst (as_evolve ks cfg compute fuel u t0 tf h sd sf o w)) = Ret u' -> u' = u).
Proof.
  intros F A W p snl k ks cfg compute o u H. split.
  - intros C. apply as_loop_fails. intros h w. destruct C as [C|[C|[C|(o0 & C)]]].
    + exact (as_reject F A W p snl k _ u h C H (a_m o) w).
    + rewrite C. exact (as_reject_accepted F A W p snl k u h H (a_m o) w).
    + subst o. apply as_reject_fresh; [exact H|apply started_new].
    + subst o. apply as_reject_fresh; [exact H|apply started_reset].
  - intros fuel t0 tf h sd sf w u'. unfold as_evolve.
    match goal with |- context [as_loop ks cfg compute fuel u ?h0 sd sf 0 ?o2 w] => generalize h0; set (o2' := o2) end. intros h0.
    assert (S0 : started F A W p snl k (a_m o2') = false) by (unfold o2'; destruct sd; apply started_reset).
    assert (G := as_loop_fails F A W p snl k ks cfg compute u o2' (fun h w => as_reject_fresh F A W p snl k _ u h _ w H S0)).
    destruct fuel; cbn [as_loop].
    + destruct (tltb F (val (a_tc o2')) (val (a_tf o2'))); [discriminate|]. cbn. congruence.
    + destruct (tltb F (val (a_tc o2')) (val (a_tf o2'))); [|cbn; congruence]. specialize (G h0 w).
      destruct (as_step ks cfg compute u h0 o2' w) as [[[[[x h1] h2]|e|] o3] w3]; [contradiction|discriminate|discriminate].
Qed.
Example C87_lengths_that_clash : clash_diag 4 [3%nat] /\ clash_diag 4 [3%nat; 4%nat] /\ clash_matrix 4 [3%nat] /\ clash_matrix 4 [4%nat; 3%nat].
Proof.
  split; [exists 3%nat, []; repeat split; lia|]. split; [exists 3%nat, [4%nat]; repeat split; lia|].
  split; [left; exists 3%nat; split; [reflexivity|lia]|right; exists 4%nat, 3%nat, []; split; [reflexivity|lia]].
Qed.

(** But not every state that does not fit is rejected: numpy stretches axes of length 1, and
    [dot] accepts a 0-d array. *)

Definition shape_of {F} {A : aops F} {S W} (r : (exn + nd A) * S * W) : option shape := match fst (fst r) with inl _ => None | inr x => Some (sh x) end.
Definition shape_of1 {F} {A : aops F} {S W} (r : (exn + nd A * nd A) * S * W) : option shape := match fst (fst r) with inl _ => None | inr x => Some (sh (fst x)) end.
Definition same {F} {A : aops F} (y : nd A) (w : unit) : (exn + nd A) * unit := (inr y, w).
Theorem C87_column_states_are_stretched :
  forall (F : tops) (A : aops F) (p : problem A unit) (h : T F) (e : list nat -> E A),
    p_size p = 2%nat ->
    (forall k, match k with IF4d | ETD4d | ETD5d => True | _ => False end ->
       shape_of (cs_upd (cs_smodel p same k) (mk_nd [1%nat; 2%nat] e) h (cs_snew p same k) tt) = Some [2%nat; 2%nat]) /\
    (forall k, match k with IF34d | IF45DPd | ETD34d | ETD35d => True | _ => False end ->
       shape_of1 (as_upd (as_smodel p same k) false (mk_nd [1%nat; 2%nat] e) h (as_snew p same k) tt) = Some [2%nat; 2%nat]).
Proof.
  intros F A p h e Hn. destruct p as [nl sz v m cfg ex iv S Si lam]. cbn in Hn. subst sz.
  split; intros k Hk; destruct k; try contradiction; vm_compute; reflexivity.
Qed.
Theorem C87_scalar_states_are_stretched :
  forall (F : tops) (A : aops F) (p : problem A unit) (h : T F) (e : list nat -> E A),
    p_size p = 2%nat -> (forall m, p_expm p m = inr m) ->
    shape_of (cs_upd (cs_smodel p same IF4d) (mk_nd [] e) h (cs_snew p same IF4d) tt) = Some [2%nat] /\
    shape_of (cs_upd (cs_smodel p same IF4n) (mk_nd [] e) h (cs_snew p same IF4n) tt) = Some [2%nat; 2%nat].
Proof.
  intros F A p h e Hn He. destruct p as [nl sz v m cfg ex iv S Si lam]. cbn in Hn, He. subst sz.
  assert (ex = fun m => inr m) as -> by (apply FunctionalExtensionality.functional_extensionality; exact He).
  split; vm_compute; reflexivity.
Qed.
(** "A step on a state that does not fit raises." *)
Definition C87_claim : Prop :=
  forall (F : tops) (A : aops F) (p : problem A unit) snl (k : cs_kind) (o : csobj F (nd A) unit (cs_smodel p snl k)) u h,
    (forall y w z, fst (snl y w) = inr z -> sh z = sh y) ->
    ~ (match k with IF4d | ETD4d | ETD5d => fits_diag | _ => fits_matrix end) (p_size p) (sh u) ->
    match fst (fst (cs_step u h o tt)) with Ret _ => False | _ => True end.
Theorem C87_ill_shaped_states_rejected_refuted : ~ C87_claim.
Proof.
  intros H.
  set (p := mk_problem (A := Cops) (fun _ (w : unit) => (inl ValueError, w)) 2 (fun _ => RtoC 0) (fun _ _ => RtoC 0)
              (mk_etdcfg (F := Rops) 1%R 32 1%R) inr inr (fun _ _ => RtoC 0) (fun _ _ => RtoC 0) (fun _ => RtoC 0) : problem Cops unit).
  specialize (H Rops Cops p same IF4d (cs_snew_obj p same IF4d) (mk_nd (A := Cops) [1%nat; 2%nat] (fun _ => RtoC 1)) 1%R).
  assert (E := proj1 (C87_column_states_are_stretched Rops Cops p 1%R (fun _ => RtoC 1) eq_refl) IF4d I).
  unfold cs_step in H. change (c_m (cs_snew_obj p same IF4d)) with (cs_snew p same IF4d) in H.
  destruct (cs_upd (cs_smodel p same IF4d) (mk_nd (A := Cops) [1%nat; 2%nat] (fun _ => RtoC 1)) 1%R (cs_snew p same IF4d) tt) as [[[e|x] s'] w']; [discriminate E|].
  match type of H with context [if ?b then _ else _] => assert (TT : b = true) by (cbn; unfold Rleb; destruct (Rle_dec 0 1); [reflexivity|exfalso; lra]); rewrite TT in H end.
  apply H; [|intros (b & Hb); discriminate Hb]. intros y w z Hy. cbn in Hy. injection Hy as <-. reflexivity.
Qed.

Print Assumptions C86_constant_step_runs_have_no_shape_errors.
Print Assumptions C86_adaptive_runs_have_no_shape_errors.
Print Assumptions C86_adaptive_runs_measured.
Print Assumptions C87_constant_step_rejects.
Print Assumptions C87_adaptive_rejects.
Print Assumptions C87_column_states_are_stretched.
Print Assumptions C87_scalar_states_are_stretched.
Print Assumptions C87_ill_shaped_states_rejected_refuted.
