(** * C95: dtypes of the states

    The models of the strategies are polymorphic in the arithmetic of array entries. Here an "entry" is the dtype of the array it
    belongs to and the operations are numpy's promotion rules, so that the same stage formulas compute dtypes. *)

From Coq Require Import ZArith List Bool Reals Lra Lia FunctionalExtensionality.
From Verif Require Import Scalars Control ControlCS ControlCSReal ControlAS ControlASReal ControlSim ControlSound PropsControl Arrays SchemeBase
     SchemeIF SchemeETD4 SchemeETD5 Solvers SchemeFacts SchemeSound SchemeFamily SchemePartial SchemeForm Converge ConvRuns PropsPsi PropsTolerance PropsStiff PropsStiffIF.
Import ListNotations.
Local Open Scope R_scope.

(** ** Spec: numpy promotion *)
(** int64, float64, complex128. *)
Inductive dtype := I64 | F64 | C128.
(** [np.result_type]. *)
Definition promote (a b : dtype) : dtype :=
  match a, b with C128, _ | _, C128 => C128 | F64, _ | _, F64 => F64 | I64, I64 => I64 end.
Definition is_complex (d : dtype) : bool := match d with C128 => true | _ => false end.

(** ** Entries that are dtypes *)
(** The step size and the numbers in the formulas are floats; [+], [-], [*] and [dot] promote; [/] and [np.exp] promote to a float at
    least; [2j * np.pi] is complex; [np.sum] keeps float64 and complex128. [ab] is the magnitude seen by [np.abs(z) < modecutoff], an
    arbitrary function of the dtype (both outcomes occur for each). *)
Definition Dops (ab : dtype -> R) : aops Rops :=
  mk_aops Rops dtype (fun _ => F64) promote promote promote (fun a b => promote F64 (promote a b)) (fun a => a) (promote F64) ab C128
    (fun _ f => f 0%nat) (fun _ m v i => promote (m i 0%nat) (v 0%nat)).
Definition arr {ab} (d : dtype) : vec (Dops ab) := fun _ => d.
Definition arr2 {ab} (d : dtype) : mat (Dops ab) := fun _ _ => d.
(** A function of arrays whose result has dtype [D d] if the argument has dtype [d]. *)
Definition lift {ab} (D : dtype -> dtype) (v : vec (Dops ab)) : vec (Dops ab) := fun _ => D (v 0%nat).

(** The problem as a strategy of kind ETD ([etd = true]) or IF holds it: the ETD strategies convert the operator with
    [lin_op.astype(np.complex128, copy=False)] (rkstiff/etd4.py:76,222, etd34.py:63,336, etd5.py:89,329, etd35.py:124,568), the IF
    strategies do not (rkstiff/if4.py, if34.py, if45dp.py). With [diagonalize=True] the ETD coefficients computed from the eigenvalues
    are assigned to elements of complex128 arrays (etd34.py:69-82 and 96-149, etd35.py:130-155 and 190-288), hence complex128
    whatever [eig] returns; this is modelled by complex eigenvalues (the exponentials [_EL], [_EL2] may be float64 in the code, but
    occur only in sums with terms that have complex128 coefficients). [scipy.linalg.expm] and [np.linalg.inv] return floats at least. *)
Definition dt_problem (ab : dtype -> R) (etd : bool) (n : nat) (cfg : etdcfg Rops) (D : dtype -> dtype) (dL dE dS dT : dtype) : problem (Dops ab) unit :=
  let cast d := if etd then C128 else d in
  mk_problem (A := Dops ab) (fun v w => (inr (lift D v), w)) n (arr (cast dL)) (arr2 (cast dL)) cfg
    (fun m => inr (fun i j => promote F64 (m i j))) (fun m => inr (fun i j => promote F64 (m i j))) (arr2 dS) (arr2 dT) (arr (cast dE)).
Lemma dt_computes ab etd n cfg D dL dE dS dT : forall v w y w', p_nl (dt_problem ab etd n cfg D dL dE dS dT) v w = (inr y, w') -> y = lift D v.
Proof. intros v w y w' E. injection E as <- _. reflexivity. Qed.

(** Functions on dtypes as triples. *)
Definition tri (a b c : dtype) (d : dtype) : dtype := match d with I64 => a | F64 => b | C128 => c end.
Lemma tri_all D : D = tri (D I64) (D F64) (D C128).
Proof. apply functional_extensionality. intros []; reflexivity. Qed.

(** ** One step *)
Definition cs_etd (k : cs_kind) : bool := match k with IF4d | IF4n => false | _ => true end.
Definition as_etd (k : as_kind) : bool := match k with IF34d | IF34n | IF34z | IF45DPd => false | _ => true end.
Definition as_basis (k : as_kind) : bool := match k with IF34z | ETD34z | ETD35z => true | _ => false end.
(** The dtype of the next state of the IF solvers. *)
Definition if_dtype (l : list dtype) : dtype := if existsb is_complex l then C128 else F64.

Lemma cs_if_step ab n cfg D dL dE dS dT k h d : cs_etd k = false ->
  cs_Phi (dt_problem ab false n cfg D dL dE dS dT) (lift D) k h (arr d) = arr (if_dtype [dL; d; D d; D F64]).
Proof.
  intros Hk. rewrite (tri_all D). generalize (D I64), (D F64), (D C128). intros a b c.
  destruct k; try discriminate; erewrite cs_Phi_form by reflexivity; destruct a, b, c, d, dL; reflexivity.
Qed.
Lemma as_if_step ab n cfg D dL dE dS dT k h d : as_etd k = false ->
  (k = IF45DPd -> D F64 = C128 -> D C128 = C128) ->
  fst (as_Phi (dt_problem ab false n cfg D dL dE dS dT) (lift D) k h (arr d)) =
  arr (if_dtype (if as_basis k then [dE; dS; dT; d; D d; D F64] else [dL; d; D d; D F64])).
Proof.
  intros Hk. rewrite (tri_all D). generalize (D I64), (D F64), (D C128). intros a b c HD.
  destruct k; try discriminate; erewrite as_Phi_form by reflexivity.
  - destruct a, b, c, d, dL; reflexivity.
  - destruct a, b, c, d, dL; reflexivity.
  - destruct a, b, c, d, dE, dS, dT; reflexivity.
  - specialize (HD eq_refl). cbn [tri] in HD. destruct b; [| |rewrite (HD eq_refl)].
    + destruct a, c, d, dL; reflexivity.
    + destruct a, c, d, dL; reflexivity.
    + destruct a, d, dL; reflexivity.
Qed.

(** *** ETD: all coefficients are complex *)
Definition e4_all {X} (x : X) : etd4_coefs X := mk_etd4_coefs x x x x x x x x x x.
Definition e5_all {X} (x : X) : etd5_coefs X := mk_etd5_coefs x x x x x x x x x x x x x x x x x x x x x.
Lemma mask_const ab (i : nat -> bool) (v w x : vec (Dops ab)) (d : dtype) : (forall j, v j = d) -> (forall j, w j = d) ->
  mask_set i v (mask_set (not_idx i) w x) = arr d.
Proof. intros V W. rewrite mask_cover. apply functional_extensionality. intros j. rewrite V, W. destruct (i j); reflexivity. Qed.
Lemma etd4d_cplx ab cfg h c : etd4d_coeffs Rops (Dops ab) cfg (arr C128) h c = (inr tt, e4_all (arr C128)).
Proof. unfold etd4d_coeffs. cbv zeta. unfold e4_all. rewrite !(@mask_const ab _ _ _ _ C128) by reflexivity. reflexivity. Qed.
Lemma etd34_cplx ab cfg h z c : (forall i, z i = C128) -> etd34_coeffs_of Rops (Dops ab) cfg h z c = (inr tt, e4_all (arr C128)).
Proof.
  intros Hz. replace z with (@arr ab C128) by (apply functional_extensionality; intros i; symmetry; apply Hz).
  unfold etd34_coeffs_of. cbv zeta. unfold e4_all. rewrite !(@mask_const ab _ _ _ _ C128) by reflexivity. reflexivity.
Qed.
Lemma etd5d_cplx ab cfg h c : etd5d_coeffs Rops (Dops ab) cfg (arr C128) h c = (inr tt, e5_all (arr C128)).
Proof. unfold etd5d_coeffs. cbv zeta. unfold e5_all. rewrite !(@mask_const ab _ _ _ _ C128) by reflexivity. reflexivity. Qed.
Lemma etd35_cplx ab cfg h z c : (forall i, z i = C128) -> etd35_coeffs_of Rops (Dops ab) cfg h z c = (inr tt, e5_all (arr C128)).
Proof.
  intros Hz. replace z with (@arr ab C128) by (apply functional_extensionality; intros i; symmetry; apply Hz).
  unfold etd35_coeffs_of. cbv zeta. unfold e5_all. rewrite !(@mask_const ab _ _ _ _ C128) by reflexivity. reflexivity.
Qed.

(** The contour sums of the matrix strategies. *)
Definition fl {ab} (m : mat (Dops ab)) : exn + mat (Dops ab) := inr (fun i j => promote F64 (m i j)).
Lemma nodes_cplx ab cfg : nodes (Dops ab) cfg = repeat C128 (contour_points cfg).
Proof. unfold nodes. generalize 0%nat. induction (contour_points cfg) as [|m IH]; intros i; [reflexivity|]. cbn [seq map repeat]. f_equal. apply IH. Qed.
Lemma contour4_cplx ab cfg m : etd4_contour Rops (Dops ab) cfg fl (arr2 C128) (repeat C128 m)
    (mk_psis4 (arr2 C128) (arr2 C128) (arr2 C128) (arr2 C128) (arr2 C128)) =
  inr (mk_psis4 (arr2 C128) (arr2 C128) (arr2 C128) (arr2 C128) (arr2 C128)).
Proof. induction m as [|m IH]; [reflexivity|]. cbn [repeat]. rewrite <- IH. reflexivity. Qed.
Lemma contour5_cplx ab cfg m : etd5_contour Rops (Dops ab) cfg fl (arr2 C128) (repeat C128 m)
    (mk_psis5 (arr2 C128) (arr2 C128) (arr2 C128) (arr2 C128) (arr2 C128) (arr2 C128) (arr2 C128) (arr2 C128) (arr2 C128)) =
  inr (mk_psis5 (arr2 C128) (arr2 C128) (arr2 C128) (arr2 C128) (arr2 C128) (arr2 C128) (arr2 C128) (arr2 C128) (arr2 C128)).
Proof. induction m as [|m IH]; [reflexivity|]. cbn [repeat]. rewrite <- IH. reflexivity. Qed.
Lemma etd4n_cplx ab cfg h c : (0 < contour_points cfg)%nat -> etd4n_coeffs Rops (Dops ab) cfg fl fl (arr2 C128) h c = (inr tt, e4_all (arr2 C128)).
Proof.
  intros Hc. unfold etd4n_coeffs. cbv zeta. rewrite nodes_cplx. destruct (contour_points cfg) as [|m]; [lia|].
  match goal with |- context [etd4_contour _ _ _ _ ?z ?l ?p] => replace (etd4_contour Rops (Dops ab) cfg fl z l p) with
    (@inr exn _ (mk_psis4 (@arr2 ab C128) (arr2 C128) (arr2 C128) (arr2 C128) (arr2 C128))) by (rewrite <- (contour4_cplx ab cfg m); reflexivity) end.
  reflexivity.
Qed.
Lemma etd5n_cplx ab cfg h c : (0 < contour_points cfg)%nat -> etd5n_coeffs Rops (Dops ab) cfg fl fl (arr2 C128) h c = (inr tt, e5_all (arr2 C128)).
Proof.
  intros Hc. unfold etd5n_coeffs. cbv zeta. rewrite nodes_cplx. destruct (contour_points cfg) as [|m]; [lia|].
  match goal with |- context [etd5_contour _ _ _ _ ?z ?l ?p] => replace (etd5_contour Rops (Dops ab) cfg fl z l p) with
    (@inr exn _ (mk_psis5 (@arr2 ab C128) (arr2 C128) (arr2 C128) (arr2 C128) (arr2 C128) (arr2 C128) (arr2 C128) (arr2 C128) (arr2 C128)))
      by (rewrite <- (contour5_cplx ab cfg m); reflexivity) end.
  reflexivity.
Qed.

Lemma cs_etd_step ab n cfg D dL dE dS dT k h d : cs_etd k = true -> (0 < contour_points cfg)%nat ->
  cs_Phi (dt_problem ab true n cfg D dL dE dS dT) (lift D) k h (arr d) = arr C128.
Proof.
  intros Hk Hc. destruct k; try discriminate; (erewrite cs_Phi_form;
    [|first [apply etd4d_cplx|apply (etd4n_cplx ab cfg h _ Hc)|apply etd5d_cplx|apply (etd5n_cplx ab cfg h _ Hc)]]); reflexivity.
Qed.
Lemma as_etd_step ab n cfg D dL dE dS dT k h d : as_etd k = true -> (0 < contour_points cfg)%nat ->
  fst (as_Phi (dt_problem ab true n cfg D dL dE dS dT) (lift D) k h (arr d)) = arr C128.
Proof.
  intros Hk Hc. destruct k; try discriminate; (erewrite as_Phi_form;
    [|first [apply (etd4n_cplx ab cfg h _ Hc)|apply (etd5n_cplx ab cfg h _ Hc)|apply etd34_cplx; reflexivity|apply etd35_cplx; reflexivity]]);
    try reflexivity; destruct dS; reflexivity.
Qed.

(** ** Runs *)
(** Every state after the initial one has dtype [d]. *)
Definition later_states {ab} (d : dtype) (us : list (vec (Dops ab))) : Prop := forall j a, nth_error us (S j) = Some a -> a = arr d.
Lemma grun_settles ab (Phi : R -> vec (Dops ab) -> vec (Dops ab)) d0 d : (forall h, Phi h (arr d0) = arr d) -> (forall h, Phi h (arr d) = arr d) ->
  forall hs, hs <> [] -> grun Phi hs (arr d0) = arr d.
Proof.
  intros H0 H1. assert (K : forall hs, grun Phi hs (arr d) = arr d).
  { induction hs as [|h hs IH]; [reflexivity|]. cbn [grun fold_left]. change (grun Phi hs (Phi h (arr d)) = arr d). rewrite H1. exact IH. }
  intros [|h hs] Hn; [contradiction|]. change (grun Phi hs (Phi h (arr d0)) = arr d). rewrite H0. apply K.
Qed.
Section Settle.
  Variables (ab : dtype -> R) (etd : bool) (n : nat) (cfg : etdcfg Rops) (D : dtype -> dtype) (dL dE dS dT d0 d : dtype).
  Notation p := (dt_problem ab etd n cfg D dL dE dS dT).
  Lemma cs_settle k : (forall h, cs_Phi p (lift D) k h (arr d0) = arr d) -> (forall h, cs_Phi p (lift D) k h (arr d) = arr d) ->
    forall fuel (t0 tf h : pynum (T Rops)) (o : csobj Rops (vec (Dops ab)) unit (cs_model p k)) w r o' w',
    0 < val h -> val t0 <= val tf -> cs_evolve (F := Rops) fuel (arr d0) t0 tf h true 1 o w = (r, o', w') -> later_states d (c_u o').
  Proof.
    intros H0 H1 fuel t0 tf h o w r o' w' Hh Ht E.
    destruct (cs_model_sound1 (F := Rops) (fun a b => proj1 (Reqb_true a b)) p (lift D) (@dt_computes ab etd n cfg D dL dE dS dT) k) as [Inv S].
    destruct (cs_evolve_steps S fuel (arr d0) t0 tf h o w Hh Ht E) as (m & _ & _ & G & _).
    intros j a Ha. destruct (nth_steps _ _ _ _ _ _ _ _ _ G Ha) as [J ->].
    apply grun_settles with (d0 := d0); [exact H0|exact H1|]. destruct (repeat (val h) m); [cbn in J; lia|discriminate].
  Qed.
  Lemma as_settle k : (forall h, fst (as_Phi p (lift D) k h (arr d0)) = arr d) -> (forall h, fst (as_Phi p (lift D) k h (arr d)) = arr d) ->
    forall (ks : consts (T Rops)) acfg compute_s fuel (t0 tf : pynum (T Rops)) hi (o : asobj Rops (vec (Dops ab)) unit (as_model p k)) w r o' w',
    0 < MIN_S ks < 1 /\ 1 <= MAX_S ks -> valid_config acfg -> val t0 < val tf -> match hi with Some h => 0 < val h | None => True end ->
    as_evolve ks acfg compute_s fuel (arr d0) t0 tf hi true 1 o w = (r, o', w') -> later_states d (a_u o').
  Proof.
    intros H0 H1 ks acfg compute_s fuel t0 tf hi o w r o' w' Hks Hv Ht Hi E.
    destruct (as_model_sound1 (F := Rops) (fun a b => proj1 (Reqb_true a b)) p (lift D) (@dt_computes ab etd n cfg D dL dE dS dT) k) as [Inv S].
    destruct (as_evolve_steps ks _ S Hks Hv fuel (arr d0) t0 tf hi o w Ht Hi E) as (hs & _ & _ & _ & G & _).
    intros j a Ha. destruct (nth_steps _ _ _ _ _ _ _ _ _ G Ha) as [J ->].
    apply grun_settles with (d0 := d0); [exact H0|exact H1|]. destruct hs; [cbn in J; lia|discriminate].
  Qed.
End Settle.

(** *** ETD: complex128 from the first step on *)
(** Whatever the dtypes of the operator, of the initial state and of the values of [nl_func]. *)
Theorem C95_etd_constant ab n cfg D dL dE dS dT d k : cs_etd k = true -> (0 < contour_points cfg)%nat ->
  forall fuel (t0 tf h : pynum (T Rops)) (o : csobj Rops (vec (Dops ab)) unit (cs_model (dt_problem ab true n cfg D dL dE dS dT) k)) w r o' w',
  0 < val h -> val t0 <= val tf -> cs_evolve (F := Rops) fuel (arr d) t0 tf h true 1 o w = (r, o', w') -> later_states C128 (c_u o').
Proof. intros Hk Hc. apply cs_settle; intros h; apply cs_etd_step; assumption. Qed.
Theorem C95_etd_adaptive ab n cfg D dL dE dS dT d k : as_etd k = true -> (0 < contour_points cfg)%nat ->
  forall (ks : consts (T Rops)) acfg compute_s fuel (t0 tf : pynum (T Rops)) hi
    (o : asobj Rops (vec (Dops ab)) unit (as_model (dt_problem ab true n cfg D dL dE dS dT) k)) w r o' w',
  0 < MIN_S ks < 1 /\ 1 <= MAX_S ks -> valid_config acfg -> val t0 < val tf -> match hi with Some h => 0 < val h | None => True end ->
  as_evolve ks acfg compute_s fuel (arr d) t0 tf hi true 1 o w = (r, o', w') -> later_states C128 (a_u o').
Proof. intros Hk Hc. apply as_settle; intros h; apply as_etd_step; assumption. Qed.

(** *** IF: float64 unless something is complex *)
Definition cs_inputs (D : dtype -> dtype) (dL d : dtype) : list dtype := [dL; d; D d; D F64].
Definition as_inputs (k : as_kind) (D : dtype -> dtype) (dL dE dS dT d : dtype) : list dtype :=
  if as_basis k then [dE; dS; dT; d; D d; D F64] else [dL; d; D d; D F64].
Lemma cs_inputs_twice D dL d : if_dtype (cs_inputs D dL (if_dtype (cs_inputs D dL d))) = if_dtype (cs_inputs D dL d).
Proof. unfold if_dtype, cs_inputs. cbn [existsb]. destruct dL, d; cbn [is_complex orb]; try reflexivity;
  repeat match goal with |- context [is_complex (D ?x)] => destruct (is_complex (D x)) eqn:?; cbn [is_complex orb existsb]; try reflexivity end; congruence. Qed.
Lemma as_inputs_twice k D dL dE dS dT d :
  if_dtype (as_inputs k D dL dE dS dT (if_dtype (as_inputs k D dL dE dS dT d))) = if_dtype (as_inputs k D dL dE dS dT d).
Proof.
  unfold if_dtype, as_inputs. destruct (as_basis k); cbn [existsb].
  - destruct (is_complex dE), (is_complex dS), (is_complex dT), d; cbn [is_complex orb]; try reflexivity;
      repeat match goal with |- context [is_complex (D ?x)] => destruct (is_complex (D x)) eqn:?; cbn [is_complex orb existsb]; try reflexivity end; congruence.
  - destruct dL, d; cbn [is_complex orb]; try reflexivity;
      repeat match goal with |- context [is_complex (D ?x)] => destruct (is_complex (D x)) eqn:?; cbn [is_complex orb existsb]; try reflexivity end; congruence.
Qed.
Theorem C95_if_constant ab n cfg D dL dE dS dT d k : cs_etd k = false ->
  forall fuel (t0 tf h : pynum (T Rops)) (o : csobj Rops (vec (Dops ab)) unit (cs_model (dt_problem ab false n cfg D dL dE dS dT) k)) w r o' w',
  0 < val h -> val t0 <= val tf -> cs_evolve (F := Rops) fuel (arr d) t0 tf h true 1 o w = (r, o', w') ->
  later_states (if_dtype (cs_inputs D dL d)) (c_u o').
Proof.
  intros Hk. apply cs_settle; intros h; rewrite cs_if_step by assumption; [reflexivity|].
  f_equal. apply cs_inputs_twice.
Qed.
Theorem C95_if_adaptive ab n cfg D dL dE dS dT d k : as_etd k = false -> (k = IF45DPd -> D F64 = C128 -> D C128 = C128) ->
  forall (ks : consts (T Rops)) acfg compute_s fuel (t0 tf : pynum (T Rops)) hi
    (o : asobj Rops (vec (Dops ab)) unit (as_model (dt_problem ab false n cfg D dL dE dS dT) k)) w r o' w',
  0 < MIN_S ks < 1 /\ 1 <= MAX_S ks -> valid_config acfg -> val t0 < val tf -> match hi with Some h => 0 < val h | None => True end ->
  as_evolve ks acfg compute_s fuel (arr d) t0 tf hi true 1 o w = (r, o', w') ->
  later_states (if_dtype (as_inputs k D dL dE dS dT d)) (a_u o').
Proof.
  intros Hk HD. apply as_settle; intros h; rewrite as_if_step by assumption; [reflexivity|].
  f_equal. apply (as_inputs_twice k).
Qed.

(** *** Real problems *)
(** The claim: if operator and initial state are real and [nl_func] maps real arrays to real arrays, the states are real. *)
Definition is_real (d : dtype) : Prop := d <> C128.
Definition keeps_real_dtype (D : dtype -> dtype) : Prop := forall d, is_real d -> is_real (D d).
Definition C95_claim (k : as_kind) : Prop :=
  forall ab n cfg D dL dE dS dT d, (0 < contour_points cfg)%nat -> is_real dL -> is_real dE -> is_real dS -> is_real dT -> is_real d -> keeps_real_dtype D ->
  forall (ks : consts (T Rops)) acfg compute_s fuel (t0 tf : pynum (T Rops)) hi
    (o : asobj Rops (vec (Dops ab)) unit (as_model (dt_problem ab (as_etd k) n cfg D dL dE dS dT) k)) w r o' w',
  0 < MIN_S ks < 1 /\ 1 <= MAX_S ks -> valid_config acfg -> val t0 < val tf -> match hi with Some h => 0 < val h | None => True end ->
  as_evolve ks acfg compute_s fuel (arr d) t0 tf hi true 1 o w = (r, o', w') ->
  forall j a, nth_error (a_u o') j = Some a -> exists e, is_real e /\ a = arr e.
Lemma real_not_complex d : is_real d -> is_complex d = false.
Proof. destruct d; intros H; try reflexivity. exfalso. apply H. reflexivity. Qed.

Theorem C95_if_real k : as_etd k = false -> C95_claim k.
Proof.
  intros Hk ab n cfg D dL dE dS dT d _ RL RE RS RT Rd RD ks acfg compute_s fuel t0 tf hi o w r o' w' Hks Hv Ht Hi E j a Ha.
  assert (RF : is_real F64) by discriminate.
  destruct j as [|j].
  - exists d. split; [exact Rd|].
    destruct (as_model_sound1 (F := Rops) (fun a b => proj1 (Reqb_true a b)) _ (lift D) (@dt_computes ab (as_etd k) n cfg D dL dE dS dT) k) as [Inv S].
    destruct (as_evolve_steps ks _ S Hks Hv fuel (arr d) t0 tf hi o w Ht Hi E) as (hs & _ & _ & _ & G & _).
    destruct (nth_steps _ _ _ _ _ _ _ _ _ G Ha) as [_ ->]. reflexivity.
  - exists F64. split; [discriminate|]. revert o o' E Ha. rewrite Hk. intros o o' E Ha.
    rewrite (C95_if_adaptive ab n cfg D dL dE dS dT d k Hk (fun _ Q => False_ind _ (RD F64 RF Q)) _ _ _ _ _ _ _ _ _ _ _ _ Hks Hv Ht Hi E _ _ Ha).
    f_equal. unfold if_dtype, as_inputs. destruct (as_basis k); cbn [existsb];
      rewrite !real_not_complex by (try assumption; apply RD; assumption); reflexivity.
Qed.

Lemma dt_memoryless ab etd n cfg D dL dE dS dT k : let p := dt_problem ab etd n cfg D dL dE dS dT in
  as_memoryless (as_model p k) (as_Phi p (lift D) k) (as_inv p (lift D) k).
Proof.
  intros p. apply as_sound_memoryless; [apply as_model_sound; [apply dt_computes|split; discriminate|]|].
  - intros a b E. apply Reqb_true in E. subst. reflexivity.
  - intros. apply as_model_never_raises; [intros; discriminate|split; discriminate].
Qed.
Theorem C95_etd_real_refuted k : as_etd k = true -> ~ C95_claim k.
Proof.
  intros Hk H. set (ab := fun _ : dtype => 1).
  destruct (keep_run _ unit _ _ _ (dt_memoryless ab (as_etd k) 1 default_etdcfg (fun d => d) F64 F64 F64 F64 k) default_config default_config_valid
              1 1 (arr F64) (as_new_obj _ k) tt ltac:(lra) ltac:(lia)) as (o' & w' & E & _).
  assert (RF : is_real F64) by discriminate.
  assert (HC : (0 < contour_points default_etdcfg)%nat) by (cbn; lia).
  assert (Hks : 0 < MIN_S the_consts < 1 /\ 1 <= MAX_S the_consts) by (cbn; lra).
  assert (Ht : val (PyN (A := T Rops) false 0) < val (PyN (A := T Rops) false (INR 1 * 1))) by (cbn; lra).
  destruct (as_model_sound1 (F := Rops) (fun a b => proj1 (Reqb_true a b)) _ (lift (fun d => d)) (@dt_computes ab (as_etd k) 1 default_etdcfg (fun d => d) F64 F64 F64 F64) k) as [Inv S].
  destruct (as_evolve_steps the_consts _ S Hks default_config_valid _ _ _ _ (Some (PyN (A := T Rops) false 1)) _ _ Ht ltac:(cbn; lra) E) as (hs & _ & _ & _ & [_ G] & R).
  destruct (R _ eq_refl) as [_ R1]. destruct hs as [|h hs]; [cbn in R1; unfold Converge.total in R1; cbn in R1; lra|].
  assert (Q : exists a, nth_error (a_u o') 1 = Some a) by (rewrite G; eexists; reflexivity).
  destruct Q as [a Ha].
  destruct (H ab 1%nat default_etdcfg (fun d => d) F64 F64 F64 F64 F64 HC RF RF RF RF RF (fun d h => h)
     the_consts default_config _ 1%nat _ _ (Some (PyN (A := T Rops) false 1)) _ _ _ _ _ Hks default_config_valid Ht ltac:(cbn; lra) E _ _ Ha) as (e & Re & Ee).
  clear H R R1 G S Inv. revert o' E Ha. rewrite Hk. intros o' E Ha.
  assert (Z := C95_etd_adaptive ab 1 default_etdcfg (fun d => d) F64 F64 F64 F64 F64 k Hk HC the_consts default_config _ _ _ _
     (Some (PyN (A := T Rops) false 1)) _ _ _ _ _ Hks default_config_valid Ht ltac:(cbn; lra) E _ _ Ha).
  rewrite Ee in Z. apply Re. exact (f_equal (fun v : vec (Dops ab) => v 0%nat) Z).
Qed.

(** ** Examples *)
(** A real problem with an integer initial state: float64 with IF34, complex128 with ETD34; with a complex operator, complex128 with both. *)
Example C95_not_vacuous ab h :
  let st etd k dL d := fst (as_Phi (dt_problem ab etd 2 default_etdcfg (fun d => d) dL dL dL dL) (lift (fun d => d)) k h (arr d)) in
  st false IF34d F64 I64 = arr F64 /\ st true ETD34d F64 I64 = arr C128 /\ st false IF45DPd C128 F64 = arr C128 /\ st true ETD35n I64 F64 = arr C128.
Proof.
  cbv zeta. assert (HC : (0 < contour_points default_etdcfg)%nat) by (cbn; lia).
  split; [|split; [|split]].
  - exact (as_if_step ab 2 default_etdcfg (fun d => d) F64 F64 F64 F64 IF34d h I64 eq_refl ltac:(discriminate)).
  - exact (as_etd_step ab 2 default_etdcfg (fun d => d) F64 F64 F64 F64 ETD34d h I64 eq_refl HC).
  - exact (as_if_step ab 2 default_etdcfg (fun d => d) C128 C128 C128 C128 IF45DPd h F64 eq_refl ltac:(reflexivity)).
  - exact (as_etd_step ab 2 default_etdcfg (fun d => d) I64 I64 I64 I64 ETD35n h F64 eq_refl HC).
Qed.

Print Assumptions C95_etd_constant.
Print Assumptions C95_etd_adaptive.
Print Assumptions C95_if_constant.
Print Assumptions C95_if_adaptive.
Print Assumptions C95_if_real.
Print Assumptions C95_etd_real_refuted.
