(** * Symmetries of arrays: permutation, conjugation, unimodular factors

    A symmetry sends an array [v] to [w_i c(v_(pi i))] with a permutation [pi], factors [w] of modulus one, and [c] either the
    identity or complex conjugation. Real data, Hermitian data, shifts of a periodic grid and reflections are of this form. *)

From Coq Require Import ZArith List Bool Reals Lra Lia FunctionalExtensionality Permutation Setoid Morphisms.
From Coquelicot Require Import Complex.
From Verif Require Import Scalars Control ControlRel Arrays SchemeBase SchemeIF SchemeETD4 SchemeETD5 Solvers SchemeFamily RelStep
     CInst SpecRK SchemeIFReal SpecPhi SpecPoly ContourReal SchemeETDCoefs PropsIF PropsETD PropsPsi ContourMatrix MatrixFlow Neumann PropsMatrix
     Fourier Tolerance PropsTolerance PropsMean Voc Asym PropsConverge.
Import ListNotations.
Local Open Scope R_scope.

Record symmetry := mk_symmetry { sy_perm : nat -> nat; sy_conj : bool; sy_wt : nat -> C }.
Definition cjb (b : bool) (z : C) : C := if b then Cconj z else z.
Definition sy_ok (n : nat) (s : symmetry) : Prop :=
  (forall i, (i < n)%nat -> (sy_perm s i < n)%nat) /\
  (forall i j, (i < n)%nat -> (j < n)%nat -> sy_perm s i = sy_perm s j -> i = j) /\
  (forall i, (i < n)%nat -> Cmod (sy_wt s i) = 1).
Definition move (s : symmetry) (v : cvec) : cvec := fun i => (sy_wt s i * cjb (sy_conj s) (v (sy_perm s i)))%C.

(** ** Conjugation or not *)
Lemma cjb_plus b x y : cjb b (x + y)%C = (cjb b x + cjb b y)%C.
Proof. destruct b; [apply Cplus_conj|reflexivity]. Qed.
Lemma cjb_minus b x y : cjb b (x - y)%C = (cjb b x - cjb b y)%C.
Proof. destruct b; [apply Cminus_conj|reflexivity]. Qed.
Lemma cjb_mult b x y : cjb b (x * y)%C = (cjb b x * cjb b y)%C.
Proof. destruct b; [apply Cmult_conj|reflexivity]. Qed.
Lemma cjb_div b x y : cjb b (x / y)%C = (cjb b x / cjb b y)%C.
Proof. destruct b; [apply Cdiv_conj|reflexivity]. Qed.
Lemma cjb_R b x : cjb b (RtoC x) = RtoC x.
Proof. destruct b; [apply Cconj_R|reflexivity]. Qed.
Lemma cjb_opp b x : cjb b (- x)%C = (- cjb b x)%C.
Proof. destruct b; [|reflexivity]. destruct x. unfold cjb, Cconj, Copp. cbn. reflexivity. Qed.
Lemma cjb_exp b x : cjb b (Cexp x) = Cexp (cjb b x).
Proof. destruct b; [|reflexivity]. symmetry. apply Cexp_conj. Qed.
Lemma cjb_mod b x : Cmod (cjb b x) = Cmod x.
Proof. destruct b; [|reflexivity]. unfold cjb, Cmod, Cconj. cbn. f_equal. ring. Qed.
Lemma cjb_sum b n f : cjb b (csum n f) = csum n (fun i => cjb b (f i)).
Proof. destruct b; [apply csum_conj|reflexivity]. Qed.
Lemma cjb_inj b x y : cjb b x = cjb b y -> x = y.
Proof. destruct b; [|auto]. intros H. rewrite <- (Cconj_conj x), <- (Cconj_conj y). cbn in H. rewrite H. reflexivity. Qed.
Lemma unimodular z : Cmod z = 1 -> (z * Cconj z = RtoC 1)%C.
Proof.
  intros H. destruct z as [a b]. unfold Cmod in H. cbn in H.
  assert (E : a * (a * 1) + b * (b * 1) = 1).
  { rewrite <- (sqrt_sqrt (a * (a * 1) + b * (b * 1))) by nra. rewrite H. ring. }
  unfold Cmult, Cconj, RtoC. cbn. apply C_eq; lra.
Qed.

(** ** Sums over permuted indices *)
Section Reindex.
  Variable n : nat.
  Variable pi : nat -> nat.
  Hypothesis H1 : forall i, (i < n)%nat -> (pi i < n)%nat.
  Hypothesis H2 : forall i j, (i < n)%nat -> (j < n)%nat -> pi i = pi j -> i = j.
  Lemma perm_seq : Permutation (map pi (seq 0 n)) (seq 0 n).
  Proof.
    apply NoDup_Permutation_bis.
    - assert (G : forall l, NoDup l -> (forall x, In x l -> (x < n)%nat) -> NoDup (map pi l)).
      { induction 1 as [|x l Hx Hl IH]; intros B; cbn [map]; constructor.
        - intros I. apply in_map_iff in I. destruct I as (y & E & Iy). apply Hx.
          rewrite (H2 x y); [exact Iy|apply B; left; reflexivity|apply B; right; exact Iy|symmetry; exact E].
        - apply IH. intros y Iy. apply B. right. exact Iy. }
      apply G; [apply seq_NoDup|]. intros x I. apply in_seq in I. lia.
    - rewrite map_length. lia.
    - intros y I. apply in_map_iff in I. destruct I as (x & <- & I). apply in_seq in I. apply in_seq. specialize (H1 x). lia.
  Qed.
  Lemma perm_onto j : (j < n)%nat -> exists i, (i < n)%nat /\ pi i = j.
  Proof.
    intros Hj. assert (I : In j (map pi (seq 0 n))) by (apply (Permutation_in j (Permutation_sym perm_seq)), in_seq; lia).
    apply in_map_iff in I. destruct I as (i & E & I). apply in_seq in I. exists i. split; [lia|exact E].
  Qed.
  Lemma csum_fold f m s : csum m (fun i => f (s + i)%nat) = fold_right Cplus (RtoC 0) (map f (seq s m)).
  Proof.
    revert s. induction m as [|m IH]; intros s; [reflexivity|]. rewrite csum_shift. cbn [seq map fold_right]. rewrite <- IH, Nat.add_0_r.
    f_equal. apply csum_ext. intros i _. f_equal. lia.
  Qed.
  Lemma csum_perm f : csum n (fun i => f (pi i)) = csum n f.
  Proof.
    transitivity (fold_right Cplus (RtoC 0) (map (fun i => f (pi i)) (seq 0 n))); [exact (csum_fold (fun i => f (pi i)) n 0)|].
    transitivity (fold_right Cplus (RtoC 0) (map f (seq 0 n))); [|symmetry; exact (csum_fold f n 0)].
    rewrite <- (map_map pi f).
    generalize (Permutation_map f perm_seq). generalize (map f (map pi (seq 0 n))) (map f (seq 0 n)).
    induction 1 as [|x l l' _ IH|x y l|l l' l'' _ IH1 _ IH2]; cbn [fold_right]; [reflexivity|rewrite IH; reflexivity|ring|congruence].
  Qed.
  Lemma rsum_perm f : rsum n (fun i => f (pi i)) = rsum n f.
  Proof.
    assert (E : forall g, RtoC (rsum n g) = csum n (fun i => RtoC (g i))).
    { intros g. clear. induction n as [|m IH]; [reflexivity|]. cbn [rsum csum]. rewrite RtoC_plus, IH. reflexivity. }
    apply RtoC_inj. rewrite !E. apply (csum_perm (fun i => RtoC (f i))).
  Qed.
End Reindex.

(** ** 1-D coefficients that agree, up to conjugation, at linked indices *)
Section Linked.
  Variable b : bool.
  Variable rel : nat -> nat -> Prop.
  Definition linked (c : vec Cops) : Prop := forall i j, rel i j -> c i = cjb b (c j).
  Definition realf (f : C -> C) : Prop := forall x, f (cjb b x) = cjb b (f x).

  Lemma linked_zero : linked (fun _ => lit Cops 0).
  Proof. intros i j _. rewrite lit_C. symmetry. apply cjb_R. Qed.
  Lemma linked_add c d : linked c -> linked d -> linked (vadd (A := Cops) c d).
  Proof. intros H G i j R. unfold vadd. cbn. rewrite (H i j R), (G i j R). symmetry. apply cjb_plus. Qed.
  Lemma linked_sub c d : linked c -> linked d -> linked (vsub (A := Cops) c d).
  Proof. intros H G i j R. unfold vsub. cbn. rewrite (H i j R), (G i j R). symmetry. apply cjb_minus. Qed.
  Lemma linked_scal h c : linked c -> linked (vscal (A := Cops) h c).
  Proof. intros H i j R. unfold vscal. cbn. rewrite (H i j R), cjb_mult, cjb_R. reflexivity. Qed.
  Lemma linked_div h c : linked c -> linked (vdivs (A := Cops) c h).
  Proof. intros H i j R. unfold vdivs. cbn. rewrite (H i j R), cjb_div, cjb_R. reflexivity. Qed.
  Lemma linked_map f c : realf f -> linked c -> linked (fun i => f (c i)).
  Proof. intros Hf H i j R. rewrite (H i j R). apply Hf. Qed.
  Lemma linked_exp c : linked c -> linked (vexp (A := Cops) c).
  Proof. apply (linked_map Cexp). intros x. symmetry. apply cjb_exp. Qed.
  Definition even_idx (idx : nat -> bool) : Prop := forall i j, rel i j -> idx i = idx j.
  Lemma even_small c (x : R) : linked c -> even_idx (small_idx (A := Cops) c x).
  Proof. intros H i j R. unfold small_idx. rewrite (H i j R). cbn. rewrite cjb_mod. reflexivity. Qed.
  Lemma even_not idx : even_idx idx -> even_idx (not_idx idx).
  Proof. intros H i j R. unfold not_idx. rewrite (H i j R). reflexivity. Qed.
  Lemma linked_mask idx c d : even_idx idx -> linked c -> linked d -> linked (mask_set (A := Cops) idx c d).
  Proof. intros H G K i j R. unfold mask_set. rewrite (H i j R). destruct (idx j); [apply G|apply K]; exact R. Qed.

  Lemma real_psi k : realf (psi_code k).
  Proof. intros x. destruct b; [apply psi_conj|reflexivity]. Qed.
  Lemma real_id : realf (fun x => x).
  Proof. intros x. reflexivity. Qed.
  Lemma real_scal_l (r : R) : realf (fun x => (RtoC r * x)%C).
  Proof. intros x. rewrite cjb_mult, cjb_R. reflexivity. Qed.
  Lemma real_div_r (r : R) : realf (fun x => (x / RtoC r)%C).
  Proof. intros x. rewrite cjb_div, cjb_R. reflexivity. Qed.
  Lemma real_comp f g : realf f -> realf g -> realf (fun x => f (g x)).
  Proof. intros Hf Hg x. rewrite Hg. apply Hf. Qed.
  Lemma real_contour (cfg : etdcfg Rops) h f g : realf f -> realf g -> realf (contour_avg Cops cfg h f g).
  Proof.
    intros Hf Hg x. unfold contour_avg. cbn [Cops eofT Arrays.ediv Arrays.emul esum Arrays.eadd]. rewrite cjb_div, cjb_mult, !cjb_R, cjb_sum. f_equal. f_equal.
    transitivity (csum (contour_points cfg) (fun j => f (g (cjb b x + cjb b (rho cfg j))%C))).
    - destruct b; [|reflexivity]. rewrite (csum_rev (contour_points cfg) (fun j => f (g (cjb true x + cjb true (rho cfg j))%C))).
      apply csum_ext. intros j Hj. do 3 f_equal. cbn [cjb]. rewrite rho_conj by lia. unfold rho. f_equal. lia.
    - apply csum_ext. intros j _. rewrite <- cjb_plus, Hg, Hf. reflexivity.
  Qed.
End Linked.

Ltac links :=
  repeat (eassumption || match goal with
  | |- even_idx _ (not_idx _) => apply even_not
  | |- even_idx _ (small_idx _ _) => eapply even_small
  | |- linked _ _ (mask_set _ _ _) => apply linked_mask
  | |- linked _ _ (vadd _ _) => apply linked_add
  | |- linked _ _ (vsub _ _) => apply linked_sub
  | |- linked _ _ (vscal _ _) => apply linked_scal
  | |- linked _ _ (vscalz _ _) => apply linked_scal
  | |- linked _ _ (vdivz _ _) => apply linked_div
  | |- linked _ _ (vexp _) => apply linked_exp
  | |- linked _ _ (fun i => psi1 Cops _) => apply (linked_map _ _ (psi_code 1)); [apply real_psi|]
  | |- linked _ _ (fun i => psi2 Cops _) => apply (linked_map _ _ (psi_code 2)); [apply real_psi|]
  | |- linked _ _ (fun i => psi3 Cops _) => apply (linked_map _ _ (psi_code 3)); [apply real_psi|]
  | |- linked _ _ (fun i => contour_avg Cops ?cfg ?h ?f ?g _) => apply (linked_map _ _ (contour_avg Cops cfg h f g)); [apply real_contour|]
  | |- realf _ (psi1 Cops) => apply (real_psi _ 1)
  | |- realf _ (psi2 Cops) => apply (real_psi _ 2)
  | |- realf _ (psi3 Cops) => apply (real_psi _ 3)
  | |- realf _ (fun x => x) => apply real_id
  | |- realf _ (fun x => Arrays.emul Cops (eofT Cops ?r) x) => apply (real_scal_l _ r)
  | |- realf _ (fun x => Arrays.ediv Cops x (lit Cops ?k)) => apply (real_div_r _ (IZR k))
  | |- realf ?b (fun x => Arrays.ediv Cops (Arrays.emul Cops (lit Cops ?l) x) (lit Cops ?k)) =>
      apply (real_comp b (fun x => (x / RtoC (IZR k))%C) (fun x => (RtoC (IZR l) * x)%C)); [apply real_div_r|apply real_scal_l]
  end).

Section DiagonalCoefficients.
  Variable b : bool.
  Variable rel : nat -> nat -> Prop.
  Notation ok := (linked b rel).
  Notation okr := (realf b).
  Variable cfg : etdcfg Rops.
  Variable L : vec Cops.
  Hypothesis HL : ok L.
  Variable h : R.

  Lemma if_linked : ok_if ok (mk_if_coefs (vexp (vscal (A := Cops) h L)) (vexp (vdivz (A := Cops) (vscal (A := Cops) h L) 2))).
  Proof. split; cbn [if_EL if_EL2]; links. Qed.
  Lemma dp_linked c : ok_dp ok (snd (dp_coeffs Rops Cops L h c)).
  Proof. unfold dp_coeffs, ok_dp. cbv zeta. cbn [snd dp_EL15 dp_EL310 dp_EL45 dp_EL89 dp_EL dp_a21 dp_a31 dp_a32 dp_a41 dp_a42 dp_a43
      dp_a51 dp_a52 dp_a53 dp_a54 dp_a61 dp_a62 dp_a63 dp_a64 dp_a65 dp_a71 dp_a73 dp_a74 dp_a75 dp_r1 dp_r3 dp_r4 dp_r5]. repeat apply Forall_cons; try apply Forall_nil; links. Qed.
  Lemma etd4d_linked c : ok_etd4 ok c -> ok_etd4 ok (snd (etd4d_coeffs Rops Cops cfg L h c)).
  Proof.
    unfold ok_etd4. intros H. repeat match goal with H : Forall _ (_ :: _) |- _ => inversion_clear H end. unfold etd4d_coeffs. cbv zeta.
    cbn [snd e4_EL e4_EL2 e4_a21 e4_a31 e4_a32 e4_a41 e4_a43 e4_b1 e4_b2 e4_b4]. repeat apply Forall_cons; try apply Forall_nil; links.
  Qed.
  Lemma etd34_linked z c : ok z -> ok_etd4 ok c -> ok_etd4 ok (snd (etd34_coeffs_of Rops Cops cfg h z c)).
  Proof.
    unfold ok_etd4. intros Hz H. repeat match goal with H : Forall _ (_ :: _) |- _ => inversion_clear H end. unfold etd34_coeffs_of. cbv zeta.
    cbn [snd e4_EL e4_EL2 e4_a21 e4_a31 e4_a32 e4_a41 e4_a43 e4_b1 e4_b2 e4_b4]. repeat apply Forall_cons; try apply Forall_nil; links.
  Qed.
  Ltac e5 := cbn [snd e5_EL14 e5_EL12 e5_EL34 e5_EL e5_a21 e5_a31 e5_a32 e5_a41 e5_a43 e5_a51 e5_a52 e5_a54
               e5_a61 e5_a62 e5_a63 e5_a65 e5_b1 e5_b3 e5_b4 e5_b5 e5_b6].
  Lemma etd5d_linked c : ok_etd5 ok c -> ok_etd5 ok (snd (etd5d_coeffs Rops Cops cfg L h c)).
  Proof.
    unfold ok_etd5. intros H. repeat match goal with H : Forall _ (_ :: _) |- _ => inversion_clear H end. unfold etd5d_coeffs. cbv zeta.
    e5. repeat apply Forall_cons; try apply Forall_nil; links.
  Qed.
  Lemma etd35_linked z c : ok z -> ok_etd5 ok c -> ok_etd5 ok (snd (etd35_coeffs_of Rops Cops cfg h z c)).
  Proof.
    unfold ok_etd5. intros Hz H. repeat match goal with H : Forall _ (_ :: _) |- _ => inversion_clear H end. unfold etd35_coeffs_of. cbv zeta.
    e5. repeat apply Forall_cons; try apply Forall_nil; links.
  Qed.
End DiagonalCoefficients.

(** ** Matrices that commute with a symmetry *)
Section Matrices.
  Variable n : nat.
  Variable s : symmetry.
  Hypothesis Hs : sy_ok n s.
  Notation w := (sy_wt s).
  Notation pi := (sy_perm s).
  Notation cj := (cjb (sy_conj s)).
  Definition mmove (m : cmat) : cmat := fun i j => (w i * cj (m (pi i) (pi j)) * Cconj (w j))%C.
  Definition commutes (m : cmat) : Prop := meq n (mmove m) m.

  Lemma w_inv i : (i < n)%nat -> (w i * Cconj (w i) = RtoC 1)%C.
  Proof. intros Hi. apply unimodular. apply Hs. exact Hi. Qed.
  (** The defining identity without inverses. *)
  Lemma commutes_iff m : commutes m <-> forall i j, (i < n)%nat -> (j < n)%nat -> (w i * cj (m (pi i) (pi j)))%C = (m i j * w j)%C.
  Proof.
    split; intros H i j Hi Hj.
    - rewrite <- (H i j Hi Hj). unfold mmove. replace (w i * cj (m (pi i) (pi j)) * Cconj (w j) * w j)%C with (w i * cj (m (pi i) (pi j)) * (w j * Cconj (w j)))%C by ring.
      rewrite w_inv by exact Hj. ring.
    - unfold mmove. rewrite (H i j Hi Hj). replace (m i j * w j * Cconj (w j))%C with (m i j * (w j * Cconj (w j)))%C by ring. rewrite w_inv by exact Hj. ring.
  Qed.
  Lemma mmove_ext a b : meq n a b -> meq n (mmove a) (mmove b).
  Proof. intros H i j Hi Hj. unfold mmove. rewrite (H (pi i) (pi j)); [reflexivity|apply Hs; exact Hi|apply Hs; exact Hj]. Qed.
  Lemma mmove_ident : meq n (mmove mident) mident.
  Proof.
    intros i j Hi Hj. unfold mmove, mident. destruct (Nat.eqb_spec i j) as [->|N].
    - rewrite Nat.eqb_refl, cjb_R. transitivity (w j * Cconj (w j))%C; [ring|apply w_inv; exact Hj].
    - destruct (Nat.eqb_spec (pi i) (pi j)) as [E|_]; [elim N; apply Hs; assumption|]. rewrite cjb_R. ring.
  Qed.
  Lemma mmove_prod a b : meq n (mmove (mprod n a b)) (mprod n (mmove a) (mmove b)).
  Proof.
    intros i j Hi Hj. unfold mmove, mprod. rewrite cjb_sum.
    rewrite <- (csum_perm n pi (proj1 Hs) (proj1 (proj2 Hs)) (fun k => cj (a (pi i) k * b k (pi j))%C)).
    rewrite <- csum_scal, <- csum_scal_right. apply csum_ext. intros k Hk. rewrite cjb_mult.
    transitivity (w i * cj (a (pi i) (pi k)) * (w k * Cconj (w k)) * cj (b (pi k) (pi j)) * Cconj (w j))%C; [rewrite w_inv by exact Hk|]; ring.
  Qed.
  Lemma mmove_minus a b : meq n (mmove (mminus a b)) (mminus (mmove a) (mmove b)).
  Proof. intros i j _ _. unfold mmove, mminus. rewrite cjb_minus. ring. Qed.
  Lemma mmove_times c a : meq n (mmove (mtimes c a)) (mtimes (cj c) (mmove a)).
  Proof. intros i j _ _. unfold mmove, mtimes. rewrite cjb_mult. ring. Qed.
  Lemma mmove_shift c z : meq n (mmove (shift c z)) (shift (cj c) (mmove z)).
  Proof. unfold shift. rewrite mmove_minus, mmove_times, mmove_ident. reflexivity. Qed.
  Lemma mmove_inv m q : is_inv n m q -> is_inv n (mmove m) (mmove q).
  Proof. intros [H1 H2]. split; rewrite <- mmove_prod; rewrite <- mmove_ident; apply mmove_ext; assumption. Qed.
  Lemma mmove_pow z k : meq n (mmove (mpow n z k)) (mpow n (mmove z) k).
  Proof. induction k as [|k IH]; cbn [mpow]; [apply mmove_ident|]. rewrite mmove_prod, IH. reflexivity. Qed.
  Lemma mmove_sum m (f : nat -> cmat) i j : mmove (fun i j => csum m (fun k => f k i j)) i j = csum m (fun k => mmove (f k) i j).
  Proof. unfold mmove. rewrite cjb_sum, <- csum_scal, <- csum_scal_right. reflexivity. Qed.
  Lemma mmove_psum r z m : meq n (mmove (psum n r z m)) (psum n r (mmove z) m).
  Proof.
    intros i j Hi Hj. unfold psum, mpoly. rewrite (mmove_sum m (fun k i j => (RtoC (pcoef r k) * mpow n z k i j)%C)). apply csum_ext. intros k _.
    change (mmove (mtimes (RtoC (pcoef r k)) (mpow n z k)) i j = (RtoC (pcoef r k) * mpow n (mmove z) k i j)%C).
    rewrite (mmove_times _ _ i j Hi Hj), cjb_R. unfold mtimes. rewrite (mmove_pow z k i j Hi Hj). reflexivity.
  Qed.
  Lemma mmove_psi r z P : is_psi n r z P -> is_psi n r (mmove z) (mmove P).
  Proof.
    intros H i j Hi Hj eps He. destruct (H (pi i) (pi j) (proj1 Hs i Hi) (proj1 Hs j Hj) eps He) as [K HK]. exists K. intros m Hm.
    rewrite <- (mmove_psum r z m i j Hi Hj). unfold mmove.
    replace (w i * cj (psum n r z m (pi i) (pi j)) * Cconj (w j) - w i * cj (P (pi i) (pi j)) * Cconj (w j))%C
      with (w i * cj (psum n r z m (pi i) (pi j) - P (pi i) (pi j))%C * Cconj (w j))%C by (rewrite cjb_minus; ring).
    rewrite !Cmod_mult, cjb_mod. replace (Cmod (Cconj (w j))) with (Cmod (w j)) by (symmetry; apply (cjb_mod true)).
    destruct Hs as (_ & _ & HW). rewrite !HW by assumption. rewrite Rmult_1_l, Rmult_1_r. apply HK. exact Hm.
  Qed.
  Lemma psum_ext r z z' m : meq n z z' -> meq n (psum n r z m) (psum n r z' m).
  Proof. intros H i j Hi Hj. apply csum_ext. intros k _. rewrite (mpow_ext n z z' k H i j Hi Hj). reflexivity. Qed.

  Lemma commutes_psi r z P : commutes z -> is_psi n r z P -> commutes P.
  Proof.
    intros Hz HP. apply (psi_unique n r z); [|exact HP]. intros i j Hi Hj eps He. destruct (mmove_psi r z P HP i j Hi Hj eps He) as [K HK].
    exists K. intros m Hm. rewrite <- (psum_ext r _ _ m Hz i j Hi Hj). apply HK. exact Hm.
  Qed.
  Lemma commutes_zero : commutes (mzero Cops).
  Proof. intros i j _ _. unfold mmove, mzero. rewrite lit_C, cjb_R. ring. Qed.
  Lemma commutes_add a b : commutes a -> commutes b -> commutes (madd (A := Cops) a b).
  Proof. intros H G i j Hi Hj. unfold madd. cbn. rewrite <- (H i j Hi Hj), <- (G i j Hi Hj). unfold mmove. rewrite cjb_plus. ring. Qed.
  Lemma commutes_sub a b : commutes a -> commutes b -> commutes (msub (A := Cops) a b).
  Proof. intros H G i j Hi Hj. unfold msub. cbn. rewrite <- (H i j Hi Hj), <- (G i j Hi Hj). unfold mmove. rewrite cjb_minus. ring. Qed.
  Lemma commutes_scal (h : R) a : commutes a -> commutes (mscal (A := Cops) h a).
  Proof. intros H i j Hi Hj. unfold mscal. cbn. rewrite <- (H i j Hi Hj). unfold mmove. rewrite cjb_mult, cjb_R. ring. Qed.
  Lemma commutes_div (h : R) a : commutes a -> commutes (mdivs (A := Cops) a h).
  Proof. intros H i j Hi Hj. unfold mdivs. cbn. rewrite <- (H i j Hi Hj). unfold mmove. rewrite cjb_div, cjb_R. unfold Cdiv. ring. Qed.

  Variable cfg : etdcfg Rops.
  Lemma commutes_contour z k (Q : nat -> cmat) : commutes z ->
    (forall l, (l < contour_points cfg)%nat -> is_inv n (shift (rho cfg l) z) (Q l)) -> commutes (contour cfg (psi_code k) Q).
  Proof.
    intros Hz HQ. set (M := contour_points cfg) in *. set (back := fun l : nat => if sy_conj s then (M - 1 - l)%nat else l).
    assert (B : forall l, (l < M)%nat -> (back l < M)%nat /\ back (back l) = l /\ cj (rho cfg l) = rho cfg (back l)).
    { intros l Hl. unfold back. destruct (sy_conj s); cbn [cjb]; [|auto]. split; [lia|]. split; [lia|]. apply rho_conj. exact Hl. }
    assert (E : forall l, (l < M)%nat -> meq n (mmove (Q l)) (Q (back l))).
    { intros l Hl. destruct (B l Hl) as (B1 & _ & B3). apply (is_inv_unique n (shift (rho cfg (back l)) z)); [|apply HQ; exact B1].
      apply (is_inv_ext n (mmove (shift (rho cfg l) z))); [|apply mmove_inv, HQ; exact Hl]. rewrite mmove_shift, B3.
      intros i j Hi Hj. unfold shift, mminus. rewrite (Hz i j Hi Hj). reflexivity. }
    intros i j Hi Hj. unfold contour. fold M.
    transitivity (csum M (fun l => cj (rho cfg l * psi_code k (rho cfg l))%C * mmove (Q l) i j)%C / RtoC (INR M))%C.
    - unfold mmove. rewrite cjb_div, cjb_R, cjb_sum. unfold Cdiv.
      replace (w i * (csum M (fun i0 => cj (rho cfg i0 * psi_code k (rho cfg i0) * Q i0 (pi i) (pi j))%C) * / RtoC (INR M)) * Cconj (w j))%C
        with (w i * csum M (fun i0 => cj (rho cfg i0 * psi_code k (rho cfg i0) * Q i0 (pi i) (pi j))%C) * Cconj (w j) * / RtoC (INR M))%C by ring.
      f_equal. rewrite <- csum_scal, <- csum_scal_right. apply csum_ext. intros l _. rewrite (cjb_mult _ (rho cfg l * _)%C). ring.
    - f_equal. transitivity (csum M (fun l => rho cfg (back l) * psi_code k (rho cfg (back l)) * Q (back l) i j)%C).
      + apply csum_ext. intros l Hl. destruct (B l Hl) as (B1 & B2 & B3). rewrite cjb_mult, <- (real_psi (sy_conj s) k), B3, (E l Hl i j Hi Hj). reflexivity.
      + unfold back. destruct (sy_conj s); [|reflexivity]. symmetry. apply (csum_rev M (fun l => rho cfg l * psi_code k (rho cfg l) * Q l i j)%C).
  Qed.
End Matrices.

(** ** Coefficients of the matrix strategies *)
Ltac comm :=
  repeat (eassumption || match goal with
  | |- commutes _ _ (madd _ _) => apply commutes_add
  | |- commutes _ _ (msub _ _) => apply commutes_sub
  | |- commutes _ _ (mscal _ _) => apply commutes_scal
  | |- commutes _ _ (mscalz _ _) => apply commutes_scal
  | |- commutes _ _ (mdivz _ _) => apply commutes_div
  | |- commutes _ _ (mzero _) => apply commutes_zero
  end).

Section MatrixCoefficients.
  Variable W : Type.
  Variable p : problem Cops W.
  Variable s : symmetry.
  Notation n := (p_size p).
  Notation cfg := (p_cfg p).
  Hypothesis Hs : sy_ok n s.
  Hypothesis HE : exp_series p.
  Hypothesis HI : inv_ok p.
  Hypothesis HL : commutes n s (p_mat p).
  Notation ok := (commutes n s).

  Lemma expm_commutes m e : ok m -> p_expm p m = inr e -> ok e.
  Proof. intros H E. apply (commutes_psi n s Hs 0 m e H). apply HE. exact E. Qed.
  Lemma if4n_commutes h c : ok_if ok c -> ok_if ok (snd (if4n_coeffs Rops Cops (p_expm p) (p_mat p) h c)).
  Proof.
    intros [H1 H2]. unfold if4n_coeffs. cbv zeta. destruct (p_expm p (mscal (A := Cops) h (p_mat p))) as [e|EL] eqn:E1; [split; assumption|].
    assert (G1 := expm_commutes _ _ (commutes_scal n s h _ HL) E1).
    destruct (p_expm p (mdivz (A := Cops) (mscal (A := Cops) h (p_mat p)) 2)) as [e|EL2] eqn:E2; [split; assumption|]. split; [exact G1|].
    apply (expm_commutes _ _) in E2; [exact E2|comm].
  Qed.
  Lemma if34n_commutes h c : ok_if ok c -> ok_if ok (snd (if34n_coeffs Rops Cops (p_expm p) (p_mat p) h c)).
  Proof. exact (if4n_commutes h c). Qed.

  Ltac pull H := repeat match type of H with Forall _ (_ :: _) => let X := fresh "K" in inversion_clear H as [|? ? X H'']; rename H'' into H end.
  Lemma etd4n_commutes h c : ok_etd4 ok c -> ok_etd4 ok (snd (etd4n_coeffs Rops Cops cfg (p_expm p) (p_inv p) (p_mat p) h c)).
  Proof.
    intros Hc. assert (Hc' := Hc). unfold ok_etd4 in Hc'. pull Hc'. unfold etd4n_coeffs. cbv zeta.
    destruct (p_expm p (mscal (A := Cops) h (p_mat p))) as [e|EL] eqn:E1; [exact Hc|].
    apply expm_commutes in E1; [|comm].
    destruct (p_expm p (mdivz (A := Cops) (mscal (A := Cops) h (p_mat p)) 2)) as [e|EL2] eqn:E2.
    { unfold ok_etd4. cbn [snd e4_EL e4_EL2 e4_a21 e4_a31 e4_a32 e4_a41 e4_a43 e4_b1 e4_b2 e4_b4]. repeat apply Forall_cons; try apply Forall_nil; assumption. }
    apply expm_commutes in E2; [|comm].
    destruct (etd4_contour Rops Cops cfg (p_inv p) (mscal (A := Cops) h (p_mat p)) (nodes Cops cfg) _) as [x|[q1 q2 q3 q4 q5]] eqn:HC.
    { unfold ok_etd4. cbn [snd e4_EL e4_EL2 e4_a21 e4_a31 e4_a32 e4_a41 e4_a43 e4_b1 e4_b2 e4_b4]. repeat apply Forall_cons; try apply Forall_nil; assumption. }
    destruct (etd4_contour_sum cfg (p_inv p) (mscal (A := Cops) h (p_mat p)) _ 0 _ _ HC) as (Q & Qh & HQ & HS).
    cbn [p4_1h p4_2h p4_1 p4_2 p4_3] in HS.
    assert (A : forall k z (R : nat -> cmat) q, ok z -> (forall l, (l < contour_points cfg)%nat -> p_inv p (shift (rho cfg l) z) = inr (R l)) ->
              q = contour cfg (psi_code k) R -> ok q).
    { intros k z R q Hz HR ->. apply (commutes_contour n s Hs cfg z k R Hz). intros l Hl. apply HI, HR. exact Hl. }
    assert (ok q1) by (apply (A 1%nat (mdivz (A := Cops) (mscal (A := Cops) h (p_mat p)) 2) Qh); [comm|intros l Hl; apply (HQ l Hl)|apply from_zero; intros; apply HS]).
    assert (ok q2) by (apply (A 2%nat (mdivz (A := Cops) (mscal (A := Cops) h (p_mat p)) 2) Qh); [comm|intros l Hl; apply (HQ l Hl)|apply from_zero; intros; apply HS]).
    assert (ok q3) by (apply (A 1%nat (mscal (A := Cops) h (p_mat p)) Q); [comm|intros l Hl; apply (HQ l Hl)|apply from_zero; intros; apply HS]).
    assert (ok q4) by (apply (A 2%nat (mscal (A := Cops) h (p_mat p)) Q); [comm|intros l Hl; apply (HQ l Hl)|apply from_zero; intros; apply HS]).
    assert (ok q5) by (apply (A 3%nat (mscal (A := Cops) h (p_mat p)) Q); [comm|intros l Hl; apply (HQ l Hl)|apply from_zero; intros; apply HS]).
    unfold ok_etd4. cbn [snd e4_EL e4_EL2 e4_a21 e4_a31 e4_a32 e4_a41 e4_a43 e4_b1 e4_b2 e4_b4]. repeat apply Forall_cons; try apply Forall_nil; comm.
  Qed.
  Ltac e5 := cbn [snd e5_EL14 e5_EL12 e5_EL34 e5_EL e5_a21 e5_a31 e5_a32 e5_a41 e5_a43 e5_a51 e5_a52 e5_a54
               e5_a61 e5_a62 e5_a63 e5_a65 e5_b1 e5_b3 e5_b4 e5_b5 e5_b6].
  Ltac all5 := unfold ok_etd5; e5; repeat apply Forall_cons; try apply Forall_nil; comm.
  Lemma etd5n_commutes h c : ok_etd5 ok c -> ok_etd5 ok (snd (etd5n_coeffs Rops Cops cfg (p_expm p) (p_inv p) (p_mat p) h c)).
  Proof.
    intros Hc. assert (Hc' := Hc). unfold ok_etd5 in Hc'. pull Hc'. unfold etd5n_coeffs. cbv zeta.
    set (z := mscal (A := Cops) h (p_mat p)). assert (Hz : ok z) by (unfold z; comm).
    destruct (p_expm p (mdivz (A := Cops) z 4)) as [e|E14] eqn:X1; [exact Hc|]. apply expm_commutes in X1; [|comm].
    destruct (p_expm p (mdivz (A := Cops) z 2)) as [e|E12] eqn:X2; [all5|]. apply expm_commutes in X2; [|comm].
    destruct (p_expm p (mdivz (A := Cops) (mscalz (A := Cops) 3 z) 4)) as [e|E34] eqn:X3; [all5|]. apply expm_commutes in X3; [|comm].
    destruct (p_expm p z) as [e|E1] eqn:X4; [all5|]. apply expm_commutes in X4; [|comm].
    destruct (etd5_contour Rops Cops cfg (p_inv p) z (nodes Cops cfg) _) as [x|[q1 q2 q3 q4 q5 q6 q7 q8 q9]] eqn:HC; [all5|].
    destruct (etd5_contour_sum cfg (p_inv p) z _ 0 _ _ HC) as (Q & Qq & Qh & Qt & HQ & HS). clear HC.
    cbn [p5_14a p5_14b p5_12a p5_12b p5_34a p5_34b p5_1 p5_2 p5_3] in HS.
    assert (A : forall k y (R : nat -> cmat) q, ok y -> (forall l, (l < contour_points cfg)%nat -> p_inv p (shift (rho cfg l) y) = inr (R l)) ->
              q = contour cfg (psi_code k) R -> ok q).
    { intros k y R q Hy HR ->. apply (commutes_contour n s Hs cfg y k R Hy). intros l Hl. apply HI, HR. exact Hl. }
    assert (ok q1) by (apply (A 1%nat (mdivz (A := Cops) z 4) Qq); [comm|intros l Hl; apply (HQ l Hl)|apply from_zero; intros; apply HS]).
    assert (ok q2) by (apply (A 2%nat (mdivz (A := Cops) z 4) Qq); [comm|intros l Hl; apply (HQ l Hl)|apply from_zero; intros; apply HS]).
    assert (ok q3) by (apply (A 1%nat (mdivz (A := Cops) z 2) Qh); [comm|intros l Hl; apply (HQ l Hl)|apply from_zero; intros; apply HS]).
    assert (ok q4) by (apply (A 2%nat (mdivz (A := Cops) z 2) Qh); [comm|intros l Hl; apply (HQ l Hl)|apply from_zero; intros; apply HS]).
    assert (ok q5) by (apply (A 1%nat (mdivz (A := Cops) (mscalz (A := Cops) 3 z) 4) Qt); [comm|intros l Hl; apply (HQ l Hl)|apply from_zero; intros; apply HS]).
    assert (ok q6) by (apply (A 2%nat (mdivz (A := Cops) (mscalz (A := Cops) 3 z) 4) Qt); [comm|intros l Hl; apply (HQ l Hl)|apply from_zero; intros; apply HS]).
    assert (ok q7) by (apply (A 1%nat z Q); [comm|intros l Hl; apply (HQ l Hl)|apply from_zero; intros; apply HS]).
    assert (ok q8) by (apply (A 2%nat z Q); [comm|intros l Hl; apply (HQ l Hl)|apply from_zero; intros; apply HS]).
    assert (ok q9) by (apply (A 3%nat z Q); [comm|intros l Hl; apply (HQ l Hl)|apply from_zero; intros; apply HS]).
    all5.
  Qed.
End MatrixCoefficients.

(** ** Moved arrays *)
Section Moved.
  Variable n : nat.
  Variable s : symmetry.
  Hypothesis Hs : sy_ok n s.
  Notation w := (sy_wt s).
  Notation pi := (sy_perm s).
  Notation cj := (cjb (sy_conj s)).
  (** [b] is the image of [a] (first [n] entries). *)
  Definition moved (a b : vec Cops) : Prop := forall i, (i < n)%nat -> b i = move s a i.
  Definition perm_rel (i j : nat) : Prop := (i < n)%nat /\ j = pi i.

  Lemma closed_moved : closed (A := Cops) moved.
  Proof.
    split.
    - intros i _. unfold move. rewrite lit_C, cjb_R. ceq. ring.
    - intros a b c d H G i Hi. unfold vadd. cbn. rewrite (H i Hi), (G i Hi). unfold move. rewrite cjb_plus. ceq. ring.
    - intros a b c d H G i Hi. unfold vsub. cbn. rewrite (H i Hi), (G i Hi). unfold move. rewrite cjb_minus. ceq. ring.
    - intros a b H i Hi. unfold vneg. cbn. rewrite (H i Hi). unfold move. rewrite cjb_opp. ceq. ring.
    - intros h a b H i Hi. unfold vscal. cbn. rewrite (H i Hi). unfold move. rewrite cjb_mult, cjb_R. ceq. ring.
    - intros h a b H i Hi. unfold vdivs. cbn. rewrite (H i Hi). unfold move. rewrite cjb_div, cjb_R. unfold Cdiv. ceq. ring.
  Qed.
  Lemma coeffs_moved : coeffs (A := Cops) moved (linked (sy_conj s) perm_rel).
  Proof.
    split.
    - intros c a b Hc H i Hi. unfold vmul. cbn. rewrite (H i Hi), (Hc i (pi i)) by (split; [exact Hi|reflexivity]). unfold move. rewrite cjb_mult. ceq. ring.
    - intros h c. apply linked_scal.
  Qed.
  Lemma matrix_moved m a b : commutes n s m -> moved a b -> moved (mdot n m a) (mdot n m b).
  Proof.
    intros Hm H i Hi. unfold move, mdot. rewrite cjb_sum.
    rewrite <- (csum_perm n pi (proj1 Hs) (proj1 (proj2 Hs)) (fun k => cj (m (pi i) k * a k)%C)), <- csum_scal.
    apply csum_ext. intros k Hk. rewrite (H k Hk). unfold move. rewrite cjb_mult. assert (E := proj1 (commutes_iff n s Hs m) Hm i k Hi Hk).
    transitivity (m i k * w k * cj (a (pi k)))%C; [ring|]. rewrite <- E. ceq. ring.
  Qed.

  (** Coordinates in a basis [S]. *)
  Variables S Sinv L : cmat.
  Variable lam : cvec.
  Hypothesis H1 : meq n (mprod n S Sinv) mident.
  Hypothesis H2 : meq n (mprod n Sinv S) mident.
  Hypothesis HD : meq n L (mprod n S (mprod n (diagm lam) Sinv)).
  Hypothesis HL : commutes n s L.
  Definition base : cmat := fun i j => csum n (fun k => (Sinv i k * (w k * cj (S (pi k) j)))%C).
  Definition moved_z (a b : vec Cops) : Prop := forall i, (i < n)%nat -> b i = csum n (fun j => (base i j * cj (a j))%C).
  Definition base_rel (i j : nat) : Prop := (i < n)%nat /\ (j < n)%nat /\ base i j <> RtoC 0.

  Lemma closed_moved_z : closed (A := Cops) moved_z.
  Proof.
    split.
    - intros i _. rewrite lit_C. symmetry. apply csum_0. intros j _. rewrite cjb_R. ring.
    - intros a b c d H G i Hi. unfold vadd. cbn. rewrite (H i Hi), (G i Hi), <- csum_plus. apply csum_ext. intros j _. rewrite cjb_plus. ring.
    - intros a b c d H G i Hi. unfold vsub. cbn. rewrite (H i Hi), (G i Hi).
      transitivity (csum n (fun j => base i j * cj (a j))%C + RtoC (-1) * csum n (fun j => base i j * cj (c j))%C)%C; [rm1; ring|].
      rewrite <- csum_scal, <- csum_plus. apply csum_ext. intros j _. rewrite cjb_minus. rm1. ring.
    - intros a b H i Hi. unfold vneg. cbn. rewrite (H i Hi).
      transitivity (RtoC (-1) * csum n (fun j => base i j * cj (a j))%C)%C; [rm1; ring|].
      rewrite <- csum_scal. apply csum_ext. intros j _. rewrite cjb_opp. rm1. ring.
    - intros h a b H i Hi. unfold vscal. cbn. rewrite (H i Hi), <- csum_scal. apply csum_ext. intros j _. rewrite cjb_mult, cjb_R. ring.
    - intros h a b H i Hi. unfold vdivs. cbn. rewrite (H i Hi). unfold Cdiv. rewrite <- csum_scal_right. apply csum_ext. intros j _.
      transitivity (base i j * cj (a j / RtoC h)%C)%C; [rewrite cjb_div, cjb_R; unfold Cdiv; ring|reflexivity].
  Qed.
  Lemma coeffs_moved_z : coeffs (A := Cops) moved_z (linked (sy_conj s) base_rel).
  Proof.
    split.
    - intros c a b Hc H i Hi. unfold vmul. cbn. rewrite (H i Hi), <- csum_scal. apply csum_ext. intros j Hj.
      destruct (Ceq_dec (base i j) (RtoC 0)) as [E|E]; [rewrite E; ring|].
      rewrite (Hc i j) by (split; [exact Hi|split; [exact Hj|exact E]]). rewrite cjb_mult. ring.
    - intros h c. apply linked_scal.
  Qed.
  Lemma moved_in a b : moved a b -> moved_z (mdot n Sinv a) (mdot n Sinv b).
  Proof.
    intros H i Hi. unfold mdot at 1. transitivity (csum n (fun k => Sinv i k * (w k * cj (mdot n S (mdot n Sinv a) (pi k))))%C).
    - apply csum_ext. intros k Hk. rewrite (H k Hk). unfold move. do 3 f_equal. symmetry.
      rewrite (mdot_prod n S Sinv a (pi k) (proj1 Hs k Hk)), (mdot_meq n _ _ a H1 (pi k) (proj1 Hs k Hk)). apply mdot_ident. apply Hs. exact Hk.
    - unfold base. rewrite (csum_ext n (fun j => csum n _ * _)%C (fun j => csum n (fun k => Sinv i k * (w k * cj (S (pi k) j)) * cj (mdot n Sinv a j))%C)).
      2: { intros j _. rewrite <- csum_scal_right. reflexivity. }
      rewrite csum_swap. apply csum_ext. intros k _. unfold mdot at 1. rewrite cjb_sum, <- csum_scal, <- csum_scal. apply csum_ext. intros j _.
      rewrite cjb_mult. ring.
  Qed.
  Lemma moved_out a b : moved_z a b -> moved (mdot n S a) (mdot n S b).
  Proof.
    intros H i Hi. unfold mdot at 1.
    transitivity (mdot n S (mdot n Sinv (fun k => w k * cj (mdot n S a (pi k)))%C) i).
    - unfold mdot at 1. apply csum_ext. intros l Hl. f_equal. rewrite (H l Hl). unfold base, mdot at 1.
      rewrite (csum_ext n (fun j => csum n _ * _)%C (fun j => csum n (fun k => Sinv l k * (w k * cj (S (pi k) j)) * cj (a j))%C)).
      2: { intros j _. rewrite <- csum_scal_right. reflexivity. }
      rewrite csum_swap. apply csum_ext. intros k _. unfold mdot. rewrite cjb_sum, <- csum_scal, <- csum_scal. apply csum_ext. intros j _.
      rewrite cjb_mult. ring.
    - rewrite (mdot_prod n S Sinv _ i Hi), (mdot_meq n _ _ _ H1 i Hi). rewrite (mdot_ident n _ i Hi). reflexivity.
  Qed.
  Lemma linked_eigs : linked (sy_conj s) base_rel lam.
  Proof.
    assert (E1 : forall i l, (i < n)%nat -> (l < n)%nat -> csum n (fun k => Sinv i k * L k l)%C = (lam i * Sinv i l)%C).
    { intros i l Hi Hl. change (mprod n Sinv L i l = (lam i * Sinv i l)%C). rewrite (mprod_proper n Sinv Sinv (reflexivity _) _ _ HD i l Hi Hl).
      rewrite <- (mprod_assoc n Sinv S _ i l Hi Hl). rewrite (mprod_proper n _ _ H2 _ _ (reflexivity _) i l Hi Hl). rewrite (mprod_ident_l n _ i l Hi Hl).
      exact (mdot_diag n lam (fun k => Sinv k l) i Hi). }
    assert (E2 : forall k j, (k < n)%nat -> (j < n)%nat -> csum n (fun l => L k l * S l j)%C = (S k j * lam j)%C).
    { intros k j Hk Hj. change (mprod n L S k j = (S k j * lam j)%C). rewrite (mprod_proper n _ _ HD S S (reflexivity _) k j Hk Hj).
      rewrite (mprod_assoc n S _ S k j Hk Hj). rewrite (mprod_proper n S S (reflexivity _) _ _ (mprod_assoc n (diagm lam) Sinv S) k j Hk Hj).
      rewrite (mprod_proper n S S (reflexivity _) _ _ (mprod_proper n (diagm lam) _ (reflexivity _) _ _ H2) k j Hk Hj).
      rewrite (mprod_proper n S S (reflexivity _) _ _ (mprod_ident_r n (diagm lam)) k j Hk Hj).
      unfold mprod. rewrite (csum_single n j); [unfold diagm; rewrite Nat.eqb_refl; reflexivity|exact Hj|]. intros q Hq N. unfold diagm.
      destruct (Nat.eqb_spec q j); [contradiction|ring]. }
    assert (K : forall i j, (i < n)%nat -> (j < n)%nat -> (base i j * cj (lam j))%C = (lam i * base i j)%C).
    { intros i j Hi Hj. unfold base. rewrite <- csum_scal_right, <- csum_scal.
      transitivity (csum n (fun k => csum n (fun l => Sinv i k * L k l * (w l * cj (S (pi l) j))))%C).
      - apply csum_ext. intros k Hk. transitivity (Sinv i k * (w k * cj (S (pi k) j * lam j)))%C; [rewrite cjb_mult; ring|].
        rewrite <- E2 by (try exact Hj; apply Hs; exact Hk). rewrite cjb_sum.
        rewrite <- (csum_perm n pi (proj1 Hs) (proj1 (proj2 Hs)) (fun l => cj (L (pi k) l * S l j)%C)), <- csum_scal, <- csum_scal.
        apply csum_ext. intros l Hl. rewrite cjb_mult. assert (E := proj1 (commutes_iff n s Hs L) HL k l Hk Hl).
        transitivity (Sinv i k * (w k * cj (L (pi k) (pi l))) * cj (S (pi l) j))%C; [ring|]. rewrite E. ring.
      - rewrite csum_swap. apply csum_ext. intros l Hl. rewrite csum_scal_right, E1 by assumption. ring. }
    intros i j (Hi & Hj & Hb). specialize (K i j Hi Hj).
    ceq. transitivity (lam i * base i j / base i j)%C; [field; exact Hb|]. rewrite <- K. field. exact Hb.
  Qed.
End Moved.
