(** * C84: the symmetries of the equations of models.py

    Runs for the KdV and Burgers equations commute with translations by whole grid cells; runs for the Burgers equation with the
    odd reflection [u(x) -> - u(-x)]; runs for the Allen-Cahn equation on [[-b, b]] with the odd reflection as well, and keep
    real data real. *)

From Coq Require Import ZArith List Bool Reals Lra Lia FunctionalExtensionality.
From Coquelicot Require Import Complex.
From Verif Require Import Scalars Control ControlRel Arrays SchemeBase SchemeIF SchemeETD4 SchemeETD5 Solvers SchemeFamily RelStep
     CInst SpecRK SchemeIFReal SpecPhi SpecPoly ContourReal SchemeETDCoefs PropsIF PropsETD PropsPsi ContourMatrix MatrixFlow Neumann PropsMatrix
     Config Grids Derivatives Fourier PropsGrids PropsCheb PropsDeriv Models PropsModels PropsSpectral Tolerance PropsTolerance PropsMean Voc Asym PropsConverge RoundingMat RoundingMatETD Symmetry PropsSymmetry.
Import ListNotations.
Local Open Scope R_scope.

(** ** Specification *)

(** All sequences of requests and their moved versions, on new solver objects: related answers and stored data. *)
Definition cs_commutes {W} (s : symmetry) (p : problem Cops W) (k : cs_kind) : Prop :=
  forall rs rs' w, Forall2 (rel_req (moved (p_size p) s)) rs rs' ->
    let '(x, o1, w1) := cs_session rs (cs_new_obj p k) w in
    let '(y, o2, w2) := cs_session rs' (cs_new_obj p k) w in
    Forall2 (rel_ans (moved (p_size p) s)) x y /\ c_t o1 = c_t o2 /\ Forall2 (moved (p_size p) s) (c_u o1) (c_u o2) /\ w1 = w2.
Definition as_commutes {W} (s : symmetry) (p : problem Cops W) (k : as_kind) : Prop :=
  forall ks cfg q rs rs' w, Forall2 (rel_req (moved (p_size p) s)) rs rs' ->
    let compute := compute_s_vec cfg q (p_size p) in
    let '(x, o1, w1) := as_session ks cfg compute rs (as_new_obj p k) w in
    let '(y, o2, w2) := as_session ks cfg compute rs' (as_new_obj p k) w in
    Forall2 (rel_ans (moved (p_size p) s)) x y /\ a_t o1 = a_t o2 /\ Forall2 (moved (p_size p) s) (a_u o1) (a_u o2) /\ w1 = w2.
(** Sequences of requests whose arrays have a property: so have the answers and the stored arrays. *)
Definition cs_keeps {W} (P : vec Cops -> Prop) (p : problem Cops W) (k : cs_kind) : Prop :=
  forall rs w, Forall (fun r => Forall P (arrays_of r)) rs ->
    let '(x, o, w') := cs_session rs (cs_new_obj p k) w in Forall (ans_all P) x /\ Forall P (c_u o).
Definition as_keeps {W} (P : vec Cops -> Prop) (p : problem Cops W) (k : as_kind) : Prop :=
  forall ks cfg compute rs w, Forall (fun r => Forall P (arrays_of r)) rs ->
    let '(x, o, w') := as_session ks cfg compute rs (as_new_obj p k) w in Forall (ans_all P) x /\ Forall P (a_u o).

Definition cs_diagonal (k : cs_kind) : bool := match k with IF4d | ETD4d | ETD5d => true | _ => false end.
Definition as_diagonal (k : as_kind) : bool := match k with IF34d | IF45DPd | ETD34d | ETD35d => true | _ => false end.

(** The nonlinear function given to the solver applies [f]; it may count its calls. *)
Definition runs_model {W} (p : problem Cops W) (f : list C -> exn + list C) (n : nat) : Prop :=
  p_size p = n /\ exists g : W -> W, forall v w, p_nl p v w = (applied f n v, g w).

(** Translation by [s] cells of a periodic grid of [n] points, on the coefficients of [rfft]. *)
Definition translation (n : nat) (s : Z) : symmetry := mk_symmetry (fun k => k) false (fun k => w n (Z.of_nat k * s)).
(** [u(x) -> - u(-x)] on the coefficients of [rfft], and on the [m] interior points of a grid on [[-b, b]]. *)
Definition odd_spectral : symmetry := mk_symmetry (fun k => k) true (fun _ => RtoC (-1)).
Definition odd_points (m : nat) : symmetry := mk_symmetry (fun i => (m - 1 - i)%nat) false (fun _ => RtoC (-1)).

(** ** From a function on arrays to the solver *)
Definition fun_equivariant (n : nat) (s : symmetry) (f : list C -> exn + list C) : Prop :=
  forall v, match f (tab n v), f (tab n (move s v)) with
            | inr r, inr r' => length r = n /\ forall i, (i < n)%nat -> nth i r' (RtoC 0) = move s (of_list r) i
            | inl e, inl e' => e = e' | _, _ => False end.
Lemma tab_moved n s (a b : cvec) : moved n s a b -> tab n b = tab n (move s a).
Proof. intros H. apply tab_ext. exact H. Qed.
Lemma runs_equivariant {W} (p : problem Cops W) f n s : runs_model p f n -> fun_equivariant n s f -> nl_equivariant n s (p_nl p).
Proof.
  intros [_ [g Hg]] Hf a b w Hab. rewrite !Hg. cbn [fst snd]. split; [|reflexivity]. specialize (Hf a). unfold applied. rewrite (tab_moved n s a b Hab).
  destruct (f (@tab C n a)) as [e|r], (f (@tab C n (move s a))) as [e'|r']; try exact Hf. destruct Hf as [_ Hf]. intros i Hi. exact (Hf i Hi).
Qed.
Lemma equivariant_keeps {W} n s (nl : vec Cops -> W -> (exn + vec Cops) * W) : nl_equivariant n s nl -> nl_keeps n s nl.
Proof.
  intros H a w Ha. assert (M : moved n s a a) by (intros i Hi; symmetry; apply Ha; exact Hi). destruct (H a a w M) as [G _].
  destruct (fst (nl a w)); [exact I|]. intros i Hi. symmetry. exact (G i Hi).
Qed.
Lemma diag_equivariant n s (L : cvec) : (forall i, sy_perm s i = i) -> (forall i, (i < n)%nat -> cjb (sy_conj s) (L i) = L i) -> equivariant n s (fun v i => (L i * v i)%C).
Proof. intros Hp HL v i Hi. unfold move. rewrite Hp, cjb_mult, HL by exact Hi. ring. Qed.

Section Conclude.
  Variable W : Type.
  Variable p : problem Cops W.
  Variable f : list C -> exn + list C.
  Variable s : symmetry.
  Hypothesis Hp : runs_model p f (p_size p).
  Hypothesis Hs : sy_ok (p_size p) s.
  Hypothesis Hf : fun_equivariant (p_size p) s f.
  Let HN := runs_equivariant p f (p_size p) s Hp Hf.
  Lemma conclude_cs k : equivariant (p_size p) s (cs_lin p k) -> cs_oracles p k -> cs_commutes s p k /\ cs_keeps (symmetric (p_size p) s) p k.
  Proof.
    intros HL HO. split.
    - intros rs rs' w Hr. apply (C84_constant_step_runs_commute W p k s rs rs' w Hs HL HO HN Hr).
    - intros rs w Hr. apply (C84_constant_step_symmetry_kept W p k s rs w Hs HL HO (equivariant_keeps _ _ _ HN) Hr).
  Qed.
  Lemma conclude_as k : equivariant (p_size p) s (as_lin p k) -> as_oracles p k -> (plain_error k = true -> as_commutes s p k) /\ as_keeps (symmetric (p_size p) s) p k.
  Proof.
    intros HL HO. split.
    - intros Hk ks cfg q rs rs' w Hr. apply (C84_adaptive_runs_commute W p k s ks cfg q rs rs' w Hk Hs HL HO HN Hr).
    - intros ks cfg compute rs w Hr. apply (C84_adaptive_symmetry_kept W p k s ks cfg compute rs w Hs HL HO (equivariant_keeps _ _ _ HN) Hr).
  Qed.
  Lemma conclude_diag_cs k : cs_diagonal k = true -> equivariant (p_size p) s (fun v i => (p_vec p i * v i)%C) -> cs_commutes s p k /\ cs_keeps (symmetric (p_size p) s) p k.
  Proof. intros Hk HL. destruct k; try discriminate Hk; apply conclude_cs; solve [exact HL|exact I]. Qed.
  Lemma conclude_diag_as k : as_diagonal k = true -> equivariant (p_size p) s (fun v i => (p_vec p i * v i)%C) -> as_commutes s p k /\ as_keeps (symmetric (p_size p) s) p k.
  Proof. intros Hk HL. destruct k; try discriminate Hk; match goal with |- as_commutes s p ?k /\ _ => destruct (conclude_as k HL I) as [G1 G2]; exact (conj (G1 eq_refl) G2) end. Qed.
End Conclude.

(** ** Translations *)
Section Shift.
  Variable n : nat.
  Hypothesis Hn : (0 < n)%nat.
  Variable s : Z.
  Let wk (k : nat) : C := w n (Z.of_nat k * s).
  Definition shifted_index (j : nat) : nat := Z.to_nat ((Z.of_nat j + s) mod Z.of_nat n).
  Lemma shifted_lt j : (shifted_index j < n)%nat.
  Proof. unfold shifted_index. assert (B := Z.mod_pos_bound (Z.of_nat j + s) (Z.of_nat n) ltac:(lia)). lia. Qed.
  Lemma shifted_z j : (Z.of_nat (shifted_index j) mod Z.of_nat n = (Z.of_nat j + s) mod Z.of_nat n)%Z.
  Proof.
    unfold shifted_index. assert (B := Z.mod_pos_bound (Z.of_nat j + s) (Z.of_nat n) ltac:(lia)). rewrite Z2Nat.id by lia. apply Z.mod_mod. lia.
  Qed.
  Lemma shifted_inj i j : (i < n)%nat -> (j < n)%nat -> shifted_index i = shifted_index j -> i = j.
  Proof.
    intros Hi Hj E. assert (A := shifted_z i). rewrite E, shifted_z in A.
    assert (M : ((Z.of_nat j + s - s) mod Z.of_nat n = (Z.of_nat i + s - s) mod Z.of_nat n)%Z) by (rewrite Zminus_mod, A, <- Zminus_mod; reflexivity).
    rewrite !Z.add_simpl_r, !Z.mod_small in M by lia. lia.
  Qed.
  Lemma w_shift (j : nat) (k : Z) : w n (Z.of_nat (shifted_index j) * k) = w n ((Z.of_nat j + s) * k).
  Proof. apply (w_mod n Hn). rewrite Z.mul_mod, shifted_z, <- Z.mul_mod by lia. reflexivity. Qed.
  Lemma wk_0 : wk 0 = RtoC 1.
  Proof. unfold wk. rewrite Z.mul_0_l. apply (w_0 n Hn). Qed.
  Lemma hermitian_shift v k : (k < n)%nat -> hermitian n (fun l => wk l * v l)%C k = (wk k * hermitian n v k)%C.
  Proof.
    intros Hk. unfold hermitian. destruct (Nat.eqb_spec k 0) as [->|K0]; cbn [orb].
    { rewrite wk_0, !Cmult_1_l. reflexivity. }
    destruct (Nat.eqb_spec (2 * k) n) as [E|E].
    - assert (R : snd (wk k) = 0).
      { apply Creal. unfold wk. rewrite <- (w_opp n Hn). apply (w_mod n Hn).
        replace (- (Z.of_nat k * s))%Z with (Z.of_nat k * s + (- s) * Z.of_nat n)%Z by nia. apply Z_mod_plus_full. }
      rewrite (Creal_R _ R). destruct (v k) as [a b]. unfold RtoC, Cmult. cbn. apply C_eq; ring.
    - destruct (Nat.ltb_spec (2 * k) n) as [L|L]; [reflexivity|]. rewrite Cmult_conj. f_equal. unfold wk. rewrite <- (w_opp n Hn). apply (w_mod n Hn).
      replace (- (Z.of_nat (n - k) * s))%Z with (Z.of_nat k * s + (- s) * Z.of_nat n)%Z by nia. apply Z_mod_plus_full.
  Qed.
  Lemma idft_shift V j : idft n (fun k => wk k * V k)%C j = idft n V (shifted_index j).
  Proof.
    rewrite !(idft_w n Hn). f_equal. apply csum_ext. intros k _. rewrite w_shift. unfold wk.
    replace ((Z.of_nat j + s) * Z.of_nat k)%Z with (Z.of_nat k * s + Z.of_nat j * Z.of_nat k)%Z by ring. rewrite (w_add n Hn). ring.
  Qed.
  Lemma dft_shift P k : dft n (fun j => P (shifted_index j)) k = (wk k * dft n P k)%C.
  Proof.
    rewrite !(dft_w n Hn). rewrite <- csum_scal.
    rewrite <- (csum_perm n shifted_index (fun i _ => shifted_lt i) shifted_inj (fun j => wk k * (P j * w n (- (Z.of_nat j * Z.of_nat k))))%C).
    apply csum_ext. intros j _. replace (- (Z.of_nat (shifted_index j) * Z.of_nat k))%Z with (Z.of_nat (shifted_index j) * - Z.of_nat k)%Z by ring. rewrite w_shift.
    replace ((Z.of_nat j + s) * - Z.of_nat k)%Z with (- (Z.of_nat k * s) + - (Z.of_nat j * Z.of_nat k))%Z by ring. rewrite (w_add n Hn).
    replace (wk k * (P (shifted_index j) * (w n (- (Z.of_nat k * s)) * w n (- (Z.of_nat j * Z.of_nat k)))))%C
      with ((wk k * w n (- (Z.of_nat k * s))) * (P (shifted_index j) * w n (- (Z.of_nat j * Z.of_nat k))))%C by ring.
    unfold wk. rewrite <- (w_add n Hn), Z.add_opp_diag_r, (w_0 n Hn). ring.
  Qed.
End Shift.

(** The symmetry is the translation of the samples. *)
Theorem C84_translation_is_translation (h : nat) (s : Z) (v : list C) : (0 < h)%nat -> length v = S h ->
  exists u u', irfft_default v = inr u /\ irfft_default (tab (S h) (move (translation (2 * h) s) (of_list v))) = inr u' /\
    length u = (2 * h)%nat /\ length u' = (2 * h)%nat /\
    forall j, (j < 2 * h)%nat -> nth j u' 0 = nth (Z.to_nat ((Z.of_nat j + s) mod Z.of_nat (2 * h))) u 0.
Proof.
  intros Hh Hv. set (n := (2 * h)%nat). assert (Hn : (0 < n)%nat) by lia.
  exists (irfft v n), (irfft (tab (S h) (move (translation n s) (of_list v))) n).
  split; [apply irfft_default_eq; lia|]. split; [apply irfft_default_eq; rewrite ?tab_len; lia|].
  split; [apply tab_len|]. split; [apply tab_len|]. intros j Hj.
  change (at_ 0 (irfft (tab (S h) (move (translation n s) (of_list v))) n) j = at_ 0 (irfft v n) (shifted_index n s j)).
  unfold irfft. rewrite !tab_nth by (try exact Hj; apply shifted_lt; exact Hn). f_equal. rewrite <- (idft_shift n Hn s). apply idft_ext. intros k Hk.
  rewrite <- (hermitian_shift n Hn s) by exact Hk. apply hermitian_ext; [exact Hk|]. intros l Hl. rewrite tab_nth by lia. reflexivity.
Qed.

Lemma advection_some c kx v h : length kx = length v -> length v = S h -> (0 < h)%nat -> exists r, advection c kx v = inr r /\ length r = S h /\
  forall k, (k <= h)%nat -> nth k r (RtoC 0) = (RtoC c * dft (2 * h) (fun j => RtoC (prod_samples kx v h j)) k)%C.
Proof.
  intros Hk Hv Hh. assert (E := advection_eq c kx v h Hk Hv Hh). eexists. split; [exact E|]. split.
  - apply (advection_len c kx v _ h Hk Hv Hh E).
  - intros k Hkh. apply (advection_at c kx v _ h k Hk Hv Hh Hkh E).
Qed.
Lemma translation_ok n m s : (0 < n)%nat -> sy_ok m (translation n s).
Proof. intros Hn. split; [auto|]. split; [auto|]. intros i _. unfold translation. cbn [sy_wt]. unfold w. rewrite Cmod_Cexp. apply exp_0. Qed.
Lemma prod_samples_shift kx v h s j : (0 < h)%nat ->
  prod_samples kx (tab (S h) (move (translation (2 * h) s) v)) h j = prod_samples kx (tab (S h) v) h (shifted_index (2 * h) s j).
Proof.
  intros Hh. set (n := (2 * h)%nat). assert (Hn : (0 < n)%nat) by lia. unfold prod_samples. fold n.
  rewrite <- !(idft_shift n Hn s). f_equal; f_equal; apply idft_ext; intros k Hk; rewrite <- (hermitian_shift n Hn s) by exact Hk; apply hermitian_ext; try exact Hk;
    intros l Hl; rewrite !tab_nth by lia; unfold move, translation; cbn [sy_wt sy_conj sy_perm cjb]; fold n; ring.
Qed.
Lemma advection_shift c kx h s : length kx = S h -> (0 < h)%nat -> fun_equivariant (S h) (translation (2 * h) s) (advection c kx).
Proof.
  intros Hk Hh v.
  destruct (advection_some c kx (tab (S h) v) h) as (r & -> & Lr & Hr); [rewrite tab_len; exact Hk|apply tab_len|exact Hh|].
  destruct (advection_some c kx (tab (S h) (move (translation (2 * h) s) v)) h) as (r' & -> & Lr' & Hr'); [rewrite tab_len; exact Hk|apply tab_len|exact Hh|].
  split; [exact Lr|]. intros i Hi. rewrite Hr' by lia. unfold move at 2, translation at 2, translation at 2, translation at 2, of_list. cbn [sy_wt sy_conj sy_perm cjb]. rewrite Hr by lia.
  rewrite (dft_ext _ _ (fun j => RtoC (prod_samples kx (tab (S h) v) h (shifted_index (2 * h) s j)))) by (intros j _; rewrite prod_samples_shift by exact Hh; reflexivity).
  rewrite (dft_shift (2 * h) ltac:(lia) s (fun j => RtoC (prod_samples kx (tab (S h) v) h j))). ring.
Qed.

(** Diagonal strategies, for the nonlinear function of either equation and any linear part: translated data give translated
    results, with the same times and steps. *)
Theorem C84_translations : forall (W : Type) (p : problem Cops W) (kx : list R) (h : nat) (s : Z) f,
  length kx = S h -> (0 < h)%nat -> f = kdv_nl kx \/ f = burgers_nl kx -> runs_model p f (S h) ->
  (forall k, cs_diagonal k = true -> cs_commutes (translation (2 * h) s) p k) /\
  (forall k, as_diagonal k = true -> as_commutes (translation (2 * h) s) p k).
Proof.
  intros W p kx h s f Hk Hh Hf Hp. assert (Es : p_size p = S h) by apply Hp.
  assert (Ef : fun_equivariant (p_size p) (translation (2 * h) s) f) by (rewrite Es; destruct Hf as [-> | ->]; apply advection_shift; assumption).
  assert (Ep : runs_model p f (p_size p)) by (rewrite Es; exact Hp).
  assert (Ok : sy_ok (p_size p) (translation (2 * h) s)) by (apply translation_ok; lia).
  assert (HL : equivariant (p_size p) (translation (2 * h) s) (fun v i => (p_vec p i * v i)%C)) by (apply diag_equivariant; reflexivity).
  split; intros k Hkk; [apply (conclude_diag_cs W p f _ Ep Ok Ef k Hkk HL)|apply (conclude_diag_as W p f _ Ep Ok Ef k Hkk HL)].
Qed.

(** ** The odd reflection of the Burgers equation *)
Lemma neg_one : RtoC (-1) = (- RtoC 1)%C.
Proof. unfold RtoC, Copp. cbn. apply C_eq; ring. Qed.
Section Mirror.
  Variable n : nat.
  Hypothesis Hn : (0 < n)%nat.
  Definition mirror_index (j : nat) : nat := Z.to_nat ((- Z.of_nat j) mod Z.of_nat n).
  Lemma mirror_lt j : (mirror_index j < n)%nat.
  Proof. unfold mirror_index. assert (B := Z.mod_pos_bound (- Z.of_nat j) (Z.of_nat n) ltac:(lia)). lia. Qed.
  Lemma mirror_z j : (Z.of_nat (mirror_index j) mod Z.of_nat n = (- Z.of_nat j) mod Z.of_nat n)%Z.
  Proof.
    unfold mirror_index. assert (B := Z.mod_pos_bound (- Z.of_nat j) (Z.of_nat n) ltac:(lia)). rewrite Z2Nat.id by lia. apply Z.mod_mod. lia.
  Qed.
  Lemma mirror_inj i j : (i < n)%nat -> (j < n)%nat -> mirror_index i = mirror_index j -> i = j.
  Proof.
    intros Hi Hj E. assert (A := mirror_z i). rewrite E, mirror_z in A.
    assert (M : ((0 - - Z.of_nat j) mod Z.of_nat n = (0 - - Z.of_nat i) mod Z.of_nat n)%Z) by (rewrite Zminus_mod, A, <- Zminus_mod; reflexivity).
    rewrite !Z.sub_0_l, !Z.opp_involutive, !Z.mod_small in M by lia. lia.
  Qed.
  Lemma w_mirror (j : nat) (k : Z) : w n (Z.of_nat (mirror_index j) * k) = w n (- (Z.of_nat j * k)).
  Proof. apply (w_mod n Hn). rewrite Z.mul_mod, mirror_z, <- Z.mul_mod by lia. f_equal. ring. Qed.
  Lemma hermitian_conj v k : hermitian n (fun l => Cconj (v l)) k = Cconj (hermitian n v k).
  Proof.
    unfold hermitian. destruct (Nat.eqb k 0 || Nat.eqb (2 * k) n); [rewrite Cconj_R; reflexivity|]. destruct (Nat.ltb (2 * k) n); reflexivity.
  Qed.
  Lemma hermitian_opp v k : hermitian n (fun l => - v l)%C k = (- hermitian n v k)%C.
  Proof.
    unfold hermitian. destruct (Nat.eqb k 0 || Nat.eqb (2 * k) n); [unfold RtoC, Copp; cbn; f_equal; ring|]. destruct (Nat.ltb (2 * k) n); reflexivity.
  Qed.
  Lemma idft_mirror V j : fst (idft n (fun k => Cconj (V k)) j) = fst (idft n V (mirror_index j)).
  Proof.
    transitivity (fst (Cconj (idft n V (mirror_index j)))); [|reflexivity]. f_equal. rewrite !(idft_w n Hn), Cmult_conj, Cconj_R, csum_conj. f_equal.
    apply csum_ext. intros k _. rewrite Cmult_conj, w_mirror, (w_opp n Hn), Cconj_conj. reflexivity.
  Qed.
  Lemma idft_opp V j : idft n (fun k => - V k)%C j = (- idft n V j)%C.
  Proof.
    rewrite !(idft_w n Hn). rewrite (csum_ext _ _ (fun k => RtoC (-1) * (V k * w n (Z.of_nat j * Z.of_nat k)))%C) by (intros; unfold RtoC, Cmult, Copp; cbn; apply C_eq; ring).
    rewrite csum_scal. destruct (csum n _) as [a b]. unfold RtoC, Cmult, Copp. cbn. apply C_eq; ring.
  Qed.
  Lemma dft_mirror (P : nat -> R) k : dft n (fun j => RtoC (- P (mirror_index j))) k = (RtoC (-1) * Cconj (dft n (fun j => RtoC (P j)) k))%C.
  Proof.
    rewrite !(dft_w n Hn), csum_conj, <- csum_scal.
    rewrite <- (csum_perm n mirror_index (fun i _ => mirror_lt i) mirror_inj (fun j => RtoC (-1) * Cconj (RtoC (P j) * w n (- (Z.of_nat j * Z.of_nat k))))%C).
    apply csum_ext. intros j _. rewrite Cmult_conj, Cconj_R, <- (w_opp n Hn), Z.opp_involutive, w_mirror. rewrite RtoC_opp, neg_one. ring.
  Qed.
End Mirror.

(** The symmetry is [u(x) -> - u(-x)] on the samples. *)
Theorem C84_odd_is_odd (h : nat) (v : list C) : (0 < h)%nat -> length v = S h ->
  exists u u', irfft_default v = inr u /\ irfft_default (tab (S h) (move odd_spectral (of_list v))) = inr u' /\
    length u = (2 * h)%nat /\ length u' = (2 * h)%nat /\
    forall j, (j < 2 * h)%nat -> nth j u' 0 = - nth (Z.to_nat ((- Z.of_nat j) mod Z.of_nat (2 * h))) u 0.
Proof.
  intros Hh Hv. set (n := (2 * h)%nat). assert (Hn : (0 < n)%nat) by lia.
  exists (irfft v n), (irfft (tab (S h) (move odd_spectral (of_list v))) n).
  split; [apply irfft_default_eq; lia|]. split; [apply irfft_default_eq; rewrite ?tab_len; lia|].
  split; [apply tab_len|]. split; [apply tab_len|]. intros j Hj.
  change (at_ 0 (irfft (tab (S h) (move odd_spectral (of_list v))) n) j = - at_ 0 (irfft v n) (mirror_index n j)).
  unfold irfft. rewrite !tab_nth by (try exact Hj; apply mirror_lt; exact Hn). rewrite <- (idft_mirror n Hn).
  transitivity (fst (- idft n (fun k => Cconj (hermitian n (at_ (RtoC 0) v) k)) j)%C); [|reflexivity]. f_equal. rewrite <- (idft_opp n Hn). apply idft_ext. intros k Hk.
  rewrite <- hermitian_conj, <- hermitian_opp. apply hermitian_ext; [exact Hk|]. intros l Hl. rewrite tab_nth by lia.
  unfold move, odd_spectral, of_list, at_. cbn [sy_wt sy_conj sy_perm cjb]. rewrite neg_one. ring.
Qed.
Lemma odd_spectral_ok m : sy_ok m odd_spectral.
Proof. split; [auto|]. split; [auto|]. intros i _. unfold odd_spectral. cbn [sy_wt]. rewrite neg_one, Cmod_opp. apply Cmod_1. Qed.
Lemma prod_samples_odd kx v h j : (0 < h)%nat ->
  prod_samples kx (tab (S h) (move odd_spectral v)) h j = - prod_samples kx (tab (S h) v) h (mirror_index (2 * h) j).
Proof.
  intros Hh. set (n := (2 * h)%nat). assert (Hn : (0 < n)%nat) by lia. unfold prod_samples. fold n. rewrite <- !(idft_mirror n Hn).
  transitivity (fst (- idft n (fun k => Cconj (hermitian n (at_ (RtoC 0) (tab (S h) v)) k)) j)%C *
                fst (idft n (fun k => Cconj (hermitian n (fun l => (0, at_ 0 kx l)%R * at_ (RtoC 0) (tab (S h) v) l)%C k)) j)); [|unfold Copp; cbn [fst]; ring].
  f_equal; f_equal.
  - rewrite <- (idft_opp n Hn). apply idft_ext. intros k Hk. rewrite <- hermitian_conj, <- hermitian_opp. apply hermitian_ext; [exact Hk|].
    intros l Hl. rewrite !tab_nth by lia. unfold move, odd_spectral. cbn [sy_wt sy_conj sy_perm cjb]. rewrite neg_one. ring.
  - apply idft_ext. intros k Hk. rewrite <- hermitian_conj. apply hermitian_ext; [exact Hk|].
    intros l Hl. rewrite !tab_nth by lia. unfold move, odd_spectral. cbn [sy_wt sy_conj sy_perm cjb]. destruct (v l) as [a b]. unfold Cconj, Cmult, RtoC. cbn. apply C_eq; ring.
Qed.
Lemma advection_odd c kx h : length kx = S h -> (0 < h)%nat -> fun_equivariant (S h) odd_spectral (advection c kx).
Proof.
  intros Hk Hh v.
  destruct (advection_some c kx (tab (S h) v) h) as (r & -> & Lr & Hr); [rewrite tab_len; exact Hk|apply tab_len|exact Hh|].
  destruct (advection_some c kx (tab (S h) (move odd_spectral v)) h) as (r' & -> & Lr' & Hr'); [rewrite tab_len; exact Hk|apply tab_len|exact Hh|].
  split; [exact Lr|]. intros i Hi. rewrite Hr' by lia.
  change (move odd_spectral (of_list r) i) with (RtoC (-1) * Cconj (nth i r (RtoC 0)))%C. rewrite Hr by lia.
  rewrite (dft_ext _ _ (fun j => RtoC (- prod_samples kx (tab (S h) v) h (mirror_index (2 * h) j)))) by (intros j _; rewrite prod_samples_odd by exact Hh; reflexivity).
  rewrite (dft_mirror (2 * h) ltac:(lia) (fun j => prod_samples kx (tab (S h) v) h j)). rewrite Cmult_conj, Cconj_R. ring.
Qed.
Theorem C84_burgers_odd : forall (W : Type) (p : problem Cops W) (kx : list R) (mu : R) (h : nat),
  length kx = S h -> (0 < h)%nat -> runs_model p (burgers_nl kx) (S h) -> p_vec p = of_list (burgers_lin kx mu) ->
  (forall k, cs_diagonal k = true -> cs_commutes odd_spectral p k /\ cs_keeps (symmetric (S h) odd_spectral) p k) /\
  (forall k, as_diagonal k = true -> as_commutes odd_spectral p k /\ as_keeps (symmetric (S h) odd_spectral) p k).
Proof.
  intros W p kx mu h Hk Hh Hp HL. assert (Es : p_size p = S h) by apply Hp.
  assert (Ef : fun_equivariant (p_size p) odd_spectral (burgers_nl kx)) by (rewrite Es; apply advection_odd; assumption).
  assert (Ep : runs_model p (burgers_nl kx) (p_size p)) by (rewrite Es; exact Hp).
  assert (Ok : sy_ok (p_size p) odd_spectral) by apply odd_spectral_ok.
  assert (EL : equivariant (p_size p) odd_spectral (fun v i => (p_vec p i * v i)%C)).
  { apply diag_equivariant; [reflexivity|]. intros i Hi. rewrite HL. unfold odd_spectral, of_list, burgers_lin. cbn [sy_conj cjb].
    rewrite (nth_indep _ _ (RtoC (- mu * 0 ^ 2))) by (rewrite map_length; lia). rewrite (map_nth (fun k => RtoC (- mu * k ^ 2))). apply Cconj_R. }
  rewrite <- Es. split; intros k Hkk; [apply (conclude_diag_cs W p _ _ Ep Ok Ef k Hkk EL)|apply (conclude_diag_as W p _ _ Ep Ok Ef k Hkk EL)].
Qed.

(** ** The odd reflection of the Allen-Cahn equation *)
Section Cheb.
  Variable n : nat.
  Variable b : R.
  Hypothesis Hn : (2 <= n)%nat.
  Let x := cheb_grid n (- b) b.
  Lemma x_odd i : (i <= n)%nat -> nth (n - i) x 0 = - nth i x 0.
  Proof.
    intros Hi. unfold x. rewrite !cheb_grid_nth by lia. assert (N0 : INR n <> 0) by (apply not_0_INR; lia).
    unfold PropsCheb.node. rewrite minus_INR by exact Hi. replace ((INR n - INR i) * PI / INR n) with (PI - INR i * PI / INR n) by (field; exact N0).
    rewrite Rtrigo_facts.cos_pi_minus. field.
  Qed.
  Definition off (i j : nat) : R := if Nat.eqb i j then 0 else cheb_m0 n x i j.
  Lemma c_neq i : cheb_c n i <> 0.
  Proof. unfold cheb_c. apply Rmult_integral_contrapositive_currified; [destruct (Nat.eqb i 0 || Nat.eqb i n); lra|]. apply pow_nonzero. lra. Qed.
  Lemma m0_off i j : cheb_m0 n x i j = off i j + if Nat.eqb i j then 1 else 0.
  Proof.
    unfold off. destruct (Nat.eqb_spec i j) as [->|_]; [|ring]. unfold cheb_m0. rewrite Nat.eqb_refl. field. split; [apply c_neq|lra].
  Qed.
  Lemma rsum_plus' m f g : rsum m (fun i => f i + g i) = rsum m f + rsum m g.
  Proof. induction m as [|m IH]; cbn [rsum]; [ring|]. rewrite IH. ring. Qed.
  Lemma rsum_ind m i : (i < m)%nat -> rsum m (fun j => if Nat.eqb i j then 1 else 0) = 1.
  Proof.
    intros Hi. induction m as [|m IH]; [lia|]. cbn [rsum]. destruct (Nat.eqb_spec i m) as [->|Q].
    - assert (Z : forall q, (q <= m)%nat -> rsum q (fun j => if Nat.eqb m j then 1 else 0) = 0).
      { induction q as [|q IHq]; intros Hq; cbn [rsum]; [reflexivity|]. rewrite IHq by lia. destruct (Nat.eqb_spec m q); [lia|ring]. }
      rewrite Z by lia. ring.
    - rewrite IH by lia. ring.
  Qed.
  Lemma m_off i j : (i <= n)%nat -> cheb_m n x i j = off i j - if Nat.eqb i j then rsum (n + 1) (off i) else 0.
  Proof.
    intros Hi. unfold cheb_m. rewrite m0_off. destruct (Nat.eqb i j); [|ring].
    rewrite (rsum_ext _ (cheb_m0 n x i) (fun l => off i l + if Nat.eqb i l then 1 else 0)) by (intros; apply m0_off). rewrite rsum_plus', rsum_ind by lia. ring.
  Qed.
  Lemma eqb_rev i j : (i <= n)%nat -> (j <= n)%nat -> Nat.eqb (n - i) (n - j) = Nat.eqb i j.
  Proof. intros Hi Hj. destruct (Nat.eqb_spec i j) as [->|Q]; [apply Nat.eqb_refl|]. apply Nat.eqb_neq. lia. Qed.
  Lemma sq_m1 k : (-1) ^ k * (-1) ^ k = 1.
  Proof. rewrite <- Rpow_mult_distr. replace (-1 * -1) with 1 by ring. apply pow1. Qed.
  Lemma c_rev i : (i <= n)%nat -> cheb_c n (n - i) = (-1) ^ n * cheb_c n i.
  Proof.
    intros Hi. unfold cheb_c. replace (Nat.eqb (n - i) 0 || Nat.eqb (n - i) n) with (Nat.eqb i 0 || Nat.eqb i n).
    2: { destruct (Nat.eqb_spec i 0), (Nat.eqb_spec i n), (Nat.eqb_spec (n - i) 0), (Nat.eqb_spec (n - i) n); cbn; try reflexivity; lia. }
    assert (E : (-1) ^ (n - i) = (-1) ^ n * (-1) ^ i).
    { replace ((-1) ^ n) with ((-1) ^ (n - i) * (-1) ^ i) by (rewrite <- pow_add; f_equal; lia). rewrite Rmult_assoc, sq_m1. ring. }
    rewrite E. ring.
  Qed.
  Lemma off_odd i j : (i <= n)%nat -> (j <= n)%nat -> off (n - i) (n - j) = - off i j.
  Proof.
    intros Hi Hj. unfold off. rewrite eqb_rev by assumption. destruct (Nat.eqb_spec i j) as [->|Q]; [ring|]. unfold cheb_m0. rewrite eqb_rev by assumption.
    replace (Nat.eqb i j) with false by (symmetry; apply Nat.eqb_neq; exact Q). rewrite !x_odd, !c_rev by assumption. rewrite !Rplus_0_r.
    replace (- nth i x 0 - - nth j x 0) with (- (nth i x 0 - nth j x 0)) by ring.
    assert (P : (-1) ^ n <> 0) by (apply pow_nonzero; lra).
    unfold Rdiv at 1. rewrite Rinv_opp. rewrite Ropp_mult_distr_r_reverse. unfold Rdiv at 2. f_equal. f_equal. field. split; [apply c_neq|exact P].
  Qed.
  Lemma rsum_rev m f : rsum m (fun i => f (m - 1 - i)%nat) = rsum m f.
  Proof. apply (rsum_perm m (fun i => m - 1 - i)%nat); intros; lia. Qed.
  Lemma rsum_opp' m f : rsum m (fun i => - f i) = - rsum m f.
  Proof. induction m as [|m IH]; cbn [rsum]; [ring|]. rewrite IH. ring. Qed.
  Lemma D_odd i j : (i <= n)%nat -> (j <= n)%nat -> cheb_m n x (n - i) (n - j) = - cheb_m n x i j.
  Proof.
    intros Hi Hj. rewrite !m_off by lia. rewrite off_odd, eqb_rev by assumption. destruct (Nat.eqb i j); [|ring].
    replace (rsum (n + 1) (off (n - i))) with (- rsum (n + 1) (off i)); [ring|].
    rewrite <- rsum_opp', <- (rsum_rev (n + 1) (off (n - i))). apply rsum_ext. intros l Hl. replace (n + 1 - 1 - l)%nat with (n - l)%nat by lia. rewrite off_odd by lia. reflexivity.
  Qed.
  Lemma D2_even i j : (i <= n)%nat -> (j <= n)%nat ->
    rsum (S n) (fun k => cheb_m n x (n - i) k * cheb_m n x k (n - j)) = rsum (S n) (fun k => cheb_m n x i k * cheb_m n x k j).
  Proof.
    intros Hi Hj. rewrite <- (rsum_rev (S n) (fun k => cheb_m n x (n - i) k * cheb_m n x k (n - j))). apply rsum_ext. intros k Hk.
    replace (S n - 1 - k)%nat with (n - k)%nat by lia. rewrite !D_odd by lia. ring.
  Qed.
End Cheb.

(** What the solver is given for the Allen-Cahn equation on the Chebyshev grid with [n + 1] points on [[-b, b]]. *)
Definition runs_allen_cahn {W} (p : problem Cops W) (n : nat) (a b eps : R) : Prop :=
  exists x D L, construct_x_dx_cheb (PInt (Z.of_nat n)) a b = inr (x, D) /\ allen_cahn_lin (mk_marr (S n) (S n) D) eps = inr L /\
    runs_model p (allen_cahn_nl x) (n - 1) /\ p_mat p = fun i j => RtoC (m_at L i j).

Lemma construct_pair n a b x D : (2 <= n)%nat -> construct_x_dx_cheb (PInt (Z.of_nat n)) a b = inr (x, D) -> x = cheb_grid n a b /\ D = cheb_m n x.
Proof.
  intros Hn E. unfold construct_x_dx_cheb in E. rewrite construct_cheb_ok in E by exact Hn. rewrite cheb_grid_len in E. replace (S n - 1)%nat with n in E by lia. split; congruence.
Qed.
Lemma allen_cahn_at x n v : length x = S n -> (2 <= n)%nat -> exists r, allen_cahn_nl x (tab (n - 1) v) = inr r /\ length r = (n - 1)%nat /\
  forall i, (i < n - 1)%nat -> nth i r (RtoC 0) = (RtoC (nth (S i) x 0) - cpow (v i + RtoC (nth (S i) x 0)) 3)%C.
Proof.
  intros Lx Hn. unfold allen_cahn_nl. rewrite inner_len, Lx, tab_len. replace (S n - 2)%nat with (n - 1)%nat by lia. rewrite Nat.eqb_refl.
  eexists. split; [reflexivity|]. split; [apply tab_len|]. intros i Hi.
  match goal with |- nth i (tab ?m ?f) _ = _ => change (nth i (tab m f) (RtoC 0)) with (at_ (RtoC 0) (tab m f) i) end. rewrite tab_nth by lia.
  assert (X : (if Nat.eqb (n - 1) 1 then at_ 0 (inner x) 0 else at_ 0 (inner x) i) = nth (S i) x 0).
  { unfold at_. destruct (Nat.eqb_spec (n - 1) 1) as [E|E]; [replace i with O by lia|]; rewrite inner_nth by (rewrite Lx; lia); reflexivity. }
  rewrite X. destruct (Nat.eqb_spec (n - 1) 1) as [E|E]; [replace i with O by lia|]; rewrite tab_nth by lia; reflexivity.
Qed.
Lemma odd_points_ok m : sy_ok m (odd_points m).
Proof.
  split; [|split].
  - intros i Hi. unfold odd_points. cbn [sy_perm]. lia.
  - intros i j Hi Hj E. unfold odd_points in E. cbn [sy_perm] in E. lia.
  - intros i _. unfold odd_points. cbn [sy_wt]. rewrite neg_one, Cmod_opp. apply Cmod_1.
Qed.
Lemma allen_cahn_odd_fun n b : (2 <= n)%nat -> fun_equivariant (n - 1) (odd_points (n - 1)) (allen_cahn_nl (cheb_grid n (- b) b)).
Proof.
  intros Hn v. destruct (allen_cahn_at (cheb_grid n (- b) b) n v (cheb_grid_len _ _ _) Hn) as (r & -> & Lr & Hr).
  destruct (allen_cahn_at (cheb_grid n (- b) b) n (move (odd_points (n - 1)) v) (cheb_grid_len _ _ _) Hn) as (r' & -> & Lr' & Hr').
  split; [exact Lr|]. intros i Hi. rewrite Hr' by exact Hi. unfold move, odd_points, of_list. cbn [sy_wt sy_conj sy_perm cjb]. rewrite Hr by lia.
  assert (X : nth (S (n - 1 - 1 - i)) (cheb_grid n (- b) b) 0 = - nth (S i) (cheb_grid n (- b) b) 0).
  { rewrite <- x_odd by lia. f_equal. lia. }
  rewrite X, RtoC_opp, neg_one. cbn [cpow]. ring.
Qed.
Lemma allen_cahn_even_lin n b eps L : (2 <= n)%nat ->
  allen_cahn_lin (mk_marr (S n) (S n) (cheb_m n (cheb_grid n (- b) b))) eps = inr L ->
  forall i j, (i < n - 1)%nat -> (j < n - 1)%nat -> m_at L (n - 1 - 1 - i) (n - 1 - 1 - j) = m_at L i j.
Proof.
  intros Hn E i j Hi Hj. unfold allen_cahn_lin in E. cbn [m_rows m_cols] in E. rewrite Nat.eqb_refl in E. injection E as <-.
  cbn [m_at inner_mat mplus mtimes mmul meye m_rows m_cols].
  replace (S (n - 1 - 1 - i)) with (n - S i)%nat by lia. replace (S (n - 1 - 1 - j)) with (n - S j)%nat by lia.
  rewrite (D2_even n b Hn) by lia. replace (Nat.eqb (n - S i) (n - S j)) with (Nat.eqb (S i) (S j)); [reflexivity|].
  destruct (Nat.eqb_spec (S i) (S j)), (Nat.eqb_spec (n - S i) (n - S j)); try reflexivity; lia.
Qed.
Lemma rev_equivariant m (M : cmat) : (forall i j, (i < m)%nat -> (j < m)%nat -> M (m - 1 - i)%nat (m - 1 - j)%nat = M i j) -> equivariant m (odd_points m) (mdot m M).
Proof.
  intros H v i Hi. unfold move, odd_points. cbn [sy_wt sy_conj sy_perm cjb]. unfold mdot. rewrite <- csum_scal.
  rewrite (csum_rev m (fun j => RtoC (-1) * (M (m - 1 - i)%nat j * v j))%C). apply csum_ext. intros j Hj. rewrite H by assumption. ring.
Qed.

Theorem C84_allen_cahn_odd : forall (W : Type) (p : problem Cops W) (n : nat) (b eps : R), (2 <= n)%nat -> runs_allen_cahn p n (- b) b eps ->
  (forall k, cs_diagonal k = false -> cs_oracles p k -> cs_commutes (odd_points (n - 1)) p k /\ cs_keeps (symmetric (n - 1) (odd_points (n - 1))) p k) /\
  (forall k, as_diagonal k = false -> as_oracles p k ->
     (plain_error k = true -> as_commutes (odd_points (n - 1)) p k) /\ as_keeps (symmetric (n - 1) (odd_points (n - 1))) p k).
Proof.
  intros W p n b eps Hn (x & D & L & E1 & E2 & Hp & HM). destruct (construct_pair n _ _ _ _ Hn E1) as [Ex ED]. subst x D.
  assert (Es : p_size p = (n - 1)%nat) by apply Hp.
  assert (Ef : fun_equivariant (p_size p) (odd_points (n - 1)) (allen_cahn_nl (cheb_grid n (- b) b))) by (rewrite Es; apply allen_cahn_odd_fun; exact Hn).
  assert (Ep : runs_model p (allen_cahn_nl (cheb_grid n (- b) b)) (p_size p)) by (rewrite Es; exact Hp).
  assert (Ok : sy_ok (p_size p) (odd_points (n - 1))) by (rewrite Es; apply odd_points_ok).
  assert (EL : equivariant (p_size p) (odd_points (n - 1)) (mdot (p_size p) (p_mat p))).
  { rewrite Es, HM. apply rev_equivariant. intros i j Hi Hj. f_equal. apply (allen_cahn_even_lin n b eps L Hn E2); assumption. }
  split; intros k Hk HO; rewrite <- Es at 2.
  - apply (conclude_cs W p _ _ Ep Ok Ef k); [destruct k; try discriminate Hk; exact EL|exact HO].
  - apply (conclude_as W p _ _ Ep Ok Ef k); [destruct k; try discriminate Hk; exact EL|exact HO].
Qed.

(** Real data for the Allen-Cahn equation on any interval: all kinds for matrices, also with complex eigenvectors. *)
Lemma real_of n (v : cvec) : real_array n v -> forall i, (i < n)%nat -> v i = RtoC (fst (v i)).
Proof. intros H i Hi. apply Creal_R. exact (H i Hi). Qed.
Theorem C84_allen_cahn_real : forall (W : Type) (p : problem Cops W) (n : nat) (a b eps : R), (2 <= n)%nat -> runs_allen_cahn p n a b eps ->
  (forall k, cs_diagonal k = false -> cs_oracles p k -> cs_keeps (real_array (n - 1)) p k) /\
  (forall k, as_diagonal k = false -> as_oracles p k -> as_keeps (real_array (n - 1)) p k).
Proof.
  intros W p n a b eps Hn (x & D & L & E1 & E2 & Hp & HM). destruct (construct_pair n _ _ _ _ Hn E1) as [Ex ED]. subst x D.
  assert (Es : p_size p = (n - 1)%nat) by apply Hp.
  assert (EL : forall v, real_array (p_size p) v -> real_array (p_size p) (mdot (p_size p) (p_mat p) v)).
  { intros v Hv i Hi. unfold mdot. rewrite csum_snd, HM.
    rewrite (rsum_ext _ _ (fun _ => 0)).
    - clear. induction (p_size p) as [|m IH]; cbn [rsum]; [reflexivity|]. rewrite IH. ring.
    - intros j Hj. rewrite (real_of _ v Hv j Hj). cbn. ring. }
  assert (EN : keeps_real (p_size p) (p_nl p)).
  { rewrite Es. intros v w Hv. destruct Hp as [_ [g Hg]]. rewrite Hg. cbn [fst]. unfold applied.
    destruct (allen_cahn_at (cheb_grid n a b) n v (cheb_grid_len _ _ _) Hn) as (r & -> & Lr & Hr). intros i Hi. unfold of_list. rewrite Hr by exact Hi.
    rewrite (real_of _ v Hv i Hi). cbn. ring. }
  rewrite <- Es. split; intros k Hk HO.
  - intros rs w Hr. apply (C84_constant_step_real_data W p k rs w); try assumption. destruct k; try discriminate Hk; exact EL.
  - intros ks cfg compute rs w Hr. apply (C84_adaptive_real_data W p k ks cfg compute rs w); try assumption. destruct k; try discriminate Hk; exact EL.
Qed.

(** ** Non-vacuity *)

(** KdV on 4 grid points, translated by one cell: [(0, 1, 0)] becomes [(0, i, 0)]. *)
Definition kdv_case : problem Cops nat :=
  mk_problem (A := Cops) (fun v c => (applied (kdv_nl [0; 1; 2]) 3 v, S c)) 3 (of_list (kdv_lin [0; 1; 2])) (fun _ _ => RtoC 0) (mk_etdcfg (F := Rops) (1 / 100) 32 1)
    (fun _ => inl LinAlgError) (fun _ => inl LinAlgError) (fun _ _ => RtoC 0) (fun _ _ => RtoC 0) (fun _ => RtoC 0).
Example C84_translation_case : runs_model kdv_case (kdv_nl [0; 1; 2]) 3 /\ as_commutes (translation 4 1) kdv_case ETD35d /\
  move (translation 4 1) (of_list [RtoC 0; RtoC 1; RtoC 0]) 1%nat = (0, 1).
Proof.
  assert (R : runs_model kdv_case (kdv_nl [0; 1; 2]) 3) by (split; [reflexivity|]; exists S; reflexivity).
  split; [exact R|]. split.
  - apply (C84_translations nat kdv_case [0; 1; 2] 2 1 (kdv_nl [0; 1; 2])); [reflexivity|lia|left; reflexivity|exact R|reflexivity].
  - unfold move, translation, of_list. cbn [sy_wt sy_conj sy_perm cjb nth]. unfold w, Cexp. cbn [fst snd].
    replace (2 * PI * IZR (Z.of_nat 1 * 1) / INR 4) with (PI / 2) by (cbn; field). rewrite cos_PI2, sin_PI2, exp_0. unfold Cmult, RtoC. cbn. apply C_eq; ring.
Qed.
(** Burgers on 4 grid points: [sin x], with coefficients [(0, - 2 i, 0)], is odd and stays odd. *)
Definition burgers_case : problem Cops nat :=
  mk_problem (A := Cops) (fun v c => (applied (burgers_nl [0; 1; 2]) 3 v, S c)) 3 (of_list (burgers_lin [0; 1; 2] 1)) (fun _ _ => RtoC 0) (mk_etdcfg (F := Rops) (1 / 100) 32 1)
    (fun _ => inl LinAlgError) (fun _ => inl LinAlgError) (fun _ _ => RtoC 0) (fun _ _ => RtoC 0) (fun _ => RtoC 0).
Example C84_burgers_case : symmetric 3 odd_spectral (of_list [RtoC 0; (0, -2); RtoC 0]) /\ cs_keeps (symmetric 3 odd_spectral) burgers_case ETD4d /\ as_keeps (symmetric 3 odd_spectral) burgers_case IF34d.
Proof.
  assert (R : runs_model burgers_case (burgers_nl [0; 1; 2]) 3) by (split; [reflexivity|]; exists S; reflexivity).
  destruct (C84_burgers_odd nat burgers_case [0; 1; 2] 1 2 eq_refl ltac:(lia) R eq_refl) as [G1 G2].
  split; [|split; [apply (G1 ETD4d eq_refl)|apply (G2 IF34d eq_refl)]].
  intros i Hi. unfold move, odd_spectral, of_list. cbn [sy_wt sy_conj sy_perm cjb].
  destruct i as [|[|[|i]]]; [| | |lia]; cbn [nth]; unfold Cmult, Cconj, RtoC; cbn [fst snd]; apply C_eq; ring.
Qed.
(** Allen-Cahn with two interior points, working exponentials and inverses, and an explicit eigenbasis: all strategies apply. *)
Definition ac_L : marr := match allen_cahn_lin (mk_marr 4 4 (cheb_m 3 (cheb_grid 3 (-1) 1))) 1 with inr L => L | inl _ => mk_marr 0 0 (fun _ _ => 0) end.
Definition ac_mat : cmat := fun i j => RtoC (m_at ac_L i j).
Definition ac_case : problem Cops nat :=
  let cfg := mk_etdcfg (F := Rops) (1 / 100) 32 1 in
  mk_problem (A := Cops) (fun v c => (applied (allen_cahn_nl (cheb_grid 3 (-1) 1)) 2 v, S c)) 2 (fun _ => RtoC 0) ac_mat cfg
    (fun M => inr (RoundingMat.mexp 2 M)) (RoundingMatETD.find_inv 2 cfg 32)
    (fun i j => if Nat.eqb (i * j) 1 then RtoC (-1) else RtoC 1) (fun i j => if Nat.eqb (i * j) 1 then RtoC (- / 2) else RtoC (/ 2))
    (fun i => if Nat.eqb i 0 then ac_mat 0 0 + ac_mat 0 1 else ac_mat 0 0 - ac_mat 0 1)%C.
Example C84_allen_cahn_case : runs_allen_cahn ac_case 3 (- (1)) 1 1 /\ exp_series ac_case /\ inv_ok ac_case /\ diagonalizes ac_case /\
  as_keeps (real_array 2) ac_case ETD35z /\ cs_commutes (odd_points 2) ac_case ETD5n /\
  move (odd_points 2) (of_list [RtoC 1; RtoC 2]) 0%nat = RtoC (-2).
Proof.
  assert (E0 : - (1) = -1) by ring.
  assert (R : runs_allen_cahn ac_case 3 (- (1)) 1 1).
  { exists (cheb_grid 3 (-1) 1), (cheb_m 3 (cheb_grid 3 (-1) 1)), ac_L. split; [|split; [reflexivity|split; [|reflexivity]]].
    - rewrite E0. unfold construct_x_dx_cheb. rewrite construct_cheb_ok by lia. rewrite cheb_grid_len. reflexivity.
    - split; [reflexivity|]. exists S. reflexivity. }
  assert (S1 : exp_series ac_case). { intros m e E. cbn [p_expm ac_case] in E. assert (X : RoundingMat.mexp 2 m = e) by congruence. rewrite <- X. apply RoundingMat.mexp_psi. }
  assert (S2 : inv_ok ac_case).
  { intros m e E. refine (proj1 (RoundingMatETD.find_inv_spec 2 (mk_etdcfg (F := Rops) (1 / 100) 32 1) _ _ _ _ _ E)); [cbn; lra|cbn [contour_points]; lia]. }
  assert (E : forall i j, (i < 2)%nat -> (j < 2)%nat -> ac_mat (1 - i)%nat (1 - j)%nat = ac_mat i j).
  { intros i j Hi Hj. unfold ac_mat. f_equal. apply (allen_cahn_even_lin 3 1 1 ac_L ltac:(lia)); [rewrite E0; reflexivity|exact Hi|exact Hj]. }
  assert (E00 : ac_mat 1 1 = ac_mat 0 0) by exact (E 0%nat 0%nat ltac:(lia) ltac:(lia)).
  assert (E01 : ac_mat 1 0 = ac_mat 0 1) by exact (E 0%nat 1%nat ltac:(lia) ltac:(lia)).
  assert (S3 : diagonalizes ac_case).
  { unfold diagonalizes, eig_ok. cbn [p_size p_S p_Sinv p_mat p_eigs ac_case].
    repeat split; intros i j Hi Hj; (destruct i as [|[|i]]; [| |lia]); (destruct j as [|[|j]]; [| |lia]);
      unfold mprod, mident, diagm; cbn [csum Nat.eqb Nat.mul Nat.add]; rewrite ?E00, ?E01; try destruct (ac_mat 0 0) as [p q], (ac_mat 0 1) as [r t];
      unfold RtoC, Cminus, Copp, Cmult, Cplus; cbn [fst snd]; apply C_eq; field. }
  split; [exact R|]. split; [exact S1|]. split; [exact S2|]. split; [exact S3|]. split; [|split].
  - apply (C84_allen_cahn_real nat ac_case 3 (- (1)) 1 1 ltac:(lia) R); [reflexivity|exact S3].
  - apply (C84_allen_cahn_odd nat ac_case 3 1 1 ltac:(lia) R); [reflexivity|split; assumption].
  - unfold move, odd_points, of_list. cbn. unfold Cmult, RtoC. cbn. apply C_eq; ring.
Qed.

Print Assumptions C84_translation_is_translation.
Print Assumptions C84_translations.
Print Assumptions C84_odd_is_odd.
Print Assumptions C84_burgers_odd.
Print Assumptions C84_allen_cahn_odd.
Print Assumptions C84_allen_cahn_real.
