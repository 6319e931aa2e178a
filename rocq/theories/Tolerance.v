(** * The error measure of the adaptive solvers

    Model of [BaseSolverAS._compute_s] (rkstiff/solveras.py:412-455) in exact arithmetic extended
    by the special values +inf, -inf, NaN with the rules of IEEE 754 / numpy, so that overflowed
    or undefined entries of the candidate and the error vector are covered. Rounding is not
    modelled here. The only zero is +0, which is the sign of every divisor that occurs (maxima of
    moduli, norms). *)

From Coq Require Import ZArith List Bool Reals Lra Lia.
From Coquelicot Require Import Complex.
From Verif Require Import Scalars Control Arrays CInst.
Import ListNotations.
Local Open Scope R_scope.

Definition ext := sval R.

Definition eadd (x y : ext) : ext :=
  match x, y with
  | SNaN, _ | _, SNaN => SNaN
  | SFin a, SFin b => SFin (a + b)
  | SPInf, SNInf | SNInf, SPInf => SNaN
  | SPInf, _ | _, SPInf => SPInf
  | SNInf, _ | _, SNInf => SNInf
  end.

(** Infinity times a finite number. *)
Definition inf_times (neg : bool) (a : R) : ext :=
  if Req_EM_T a 0 then SNaN
  else if xorb neg (Rltb a 0) then SNInf else SPInf.

Definition emul (x y : ext) : ext :=
  match x, y with
  | SNaN, _ | _, SNaN => SNaN
  | SFin a, SFin b => SFin (a * b)
  | SPInf, SFin a | SFin a, SPInf => inf_times false a
  | SNInf, SFin a | SFin a, SNInf => inf_times true a
  | SPInf, SPInf | SNInf, SNInf => SPInf
  | SPInf, SNInf | SNInf, SPInf => SNInf
  end.

Definition ediv (x y : ext) : ext :=
  match x, y with
  | SNaN, _ | _, SNaN => SNaN
  | SFin a, SFin b =>
      if Req_EM_T b 0 then (if Req_EM_T a 0 then SNaN else if Rltb a 0 then SNInf else SPInf)
      else SFin (a / b)
  | SFin _, _ => SFin 0
  | SPInf, SFin b => if Rltb b 0 then SNInf else SPInf
  | SNInf, SFin b => if Rltb b 0 then SPInf else SNInf
  | _, _ => SNaN
  end.

(** [np.max] over two values: NaN propagates. *)
Definition emax (x y : ext) : ext :=
  match x, y with
  | SNaN, _ | _, SNaN => SNaN
  | SPInf, _ | _, SPInf => SPInf
  | SNInf, z | z, SNInf => z
  | SFin a, SFin b => SFin (Rmax a b)
  end.

(** [x > c] for a finite [c]. *)
Definition egtb (x : ext) (c : R) : bool :=
  match x with SFin a => Rltb c a | SPInf => true | _ => false end.

Definition esqrt (x : ext) : ext :=
  match x with
  | SFin a => if Rltb a 0 then SNaN else SFin (sqrt a)
  | SPInf => SPInf
  | _ => SNaN
  end.

(** [np.power(x, y)] for a positive exponent [y] that is not an integer (here [1/q]). *)
Definition epow (x : ext) (y : R) : ext :=
  match x with
  | SFin a => if Req_EM_T a 0 then SFin 0 else if Rltb a 0 then SNaN else SFin (Rpower a y)
  | SPInf | SNInf => SPInf
  | SNaN => SNaN
  end.

(** Entries of a complex array: real and imaginary part. A real array is one with zero imaginary
    parts ([np.abs] and [np.linalg.norm] then give the same values). *)
Definition ecplx : Type := ext * ext.

(** [np.abs] of a complex number (C99 [hypot]: an infinite part wins over NaN). *)
Definition eabs (z : ecplx) : ext :=
  match z with
  | (SPInf, _) | (SNInf, _) | (_, SPInf) | (_, SNInf) => SPInf
  | (SFin a, SFin b) => SFin (sqrt (a * a + b * b))
  | _ => SNaN
  end.

(** [np.linalg.norm] of an array: square root of the two dot products [x.real.dot(x.real)] and
    [x.imag.dot(x.imag)]. *)
Definition edot (l : list ext) : ext := fold_right (fun x acc => eadd (emul x x) acc) (SFin 0) l.
Definition enorm (l : list ecplx) : ext := esqrt (eadd (edot (map fst l)) (edot (map snd l))).

(** Boolean indexing [v[idx]]. *)
Fixpoint mask {B} (idx : list bool) (l : list B) : list B :=
  match idx, l with
  | b :: idx, x :: l => if b then x :: mask idx l else mask idx l
  | _, _ => []
  end.

(** rkstiff/solveras.py:450-455 [_compute_s]. [magu.max()] of an empty array raises ValueError,
    indexing with a mask of the wrong length raises IndexError. [q] is [self._q()]. *)
Definition compute_s (cfg : config R) (q : nat) (u err : list ecplx) : exn + sval R :=
  match map eabs u with
  | [] => inl ValueError
  | m0 :: rest =>
      let magu := m0 :: rest in
      let top := fold_left emax rest m0 in
      let idx := map (fun x => egtb (ediv x top) (adapt_cutoff cfg)) magu in
      if Nat.eqb (length err) (length u) then
        let tol := emul (SFin (epsilon cfg)) (enorm (mask idx u)) in
        inr (emul (SFin (safety_f cfg)) (epow (ediv tol (enorm (mask idx err))) (1 / INR q)))
      else inl IndexError
  end.

(** The arrays of the exact model hold finite complex numbers; [n] is their length. *)
Definition finc (z : C) : ecplx := (SFin (fst z), SFin (snd z)).
Definition entries (n : nat) (v : vec Cops) : list ecplx := map (fun i => finc (v i)) (seq 0 n).

(** [_compute_s] as the adaptive solvers of the exact model call it. *)
Definition compute_s_vec (cfg : config (T Rops)) (q n : nat) (u err : vec Cops) : exn + sval (T Rops) :=
  compute_s cfg q (entries n u) (entries n err).

(** ** Values on finite vectors *)
Definition modulus (z : C) : R := sqrt (fst z * fst z + snd z * snd z).
Lemma modulus_Cmod z : modulus z = Cmod z.
Proof. unfold modulus, Cmod. f_equal. ring. Qed.
Lemma eabs_fin z : eabs (finc z) = SFin (Cmod z).
Proof. cbn. rewrite <- modulus_Cmod. reflexivity. Qed.

Fixpoint lsum (l : list R) : R := match l with [] => 0 | x :: l => x + lsum l end.
Lemma lsum_nonneg l : Forall (fun x => 0 <= x) l -> 0 <= lsum l.
Proof. induction 1; cbn [lsum]; lra. Qed.

Lemma edot_fin {B} (f : B -> R) l : edot (map (fun i => SFin (f i)) l) = SFin (lsum (map (fun i => f i * f i) l)).
Proof.
  induction l as [|i l IH]; [reflexivity|]. cbn [map edot fold_right] in *. unfold edot in IH. rewrite IH. reflexivity.
Qed.

Definition sq_norm {B} (l : list B) (v : B -> C) : R := lsum (map (fun i => Cmod (v i) * Cmod (v i)) l).
Lemma sq_norm_nonneg {B} (l : list B) v : 0 <= sq_norm l v.
Proof. apply lsum_nonneg, Forall_map, Forall_forall. intros i _. apply Rle_0_sqr. Qed.

Lemma enorm_fin {B} (l : list B) (v : B -> C) : enorm (map (fun i => finc (v i)) l) = SFin (sqrt (sq_norm l v)).
Proof.
  unfold enorm. rewrite !map_map. cbn [finc fst snd]. rewrite !edot_fin. cbn [eadd esqrt].
  assert (E : lsum (map (fun i => fst (v i) * fst (v i)) l) + lsum (map (fun i => snd (v i) * snd (v i)) l) = sq_norm l v).
  { unfold sq_norm. induction l as [|i l IH]; cbn [map lsum]; [ring|]. rewrite <- IH.
    rewrite <- modulus_Cmod. unfold modulus. rewrite sqrt_sqrt; [ring|].
    assert (0 <= fst (v i) * fst (v i)) by apply Rle_0_sqr. assert (0 <= snd (v i) * snd (v i)) by apply Rle_0_sqr. lra. }
  rewrite E. assert (P := sq_norm_nonneg l v). unfold Rltb. destruct (Rlt_dec _ _); [lra|reflexivity].
Qed.

Lemma mask_map {B D} (f : B -> bool) (g : B -> D) l : mask (map f l) (map g l) = map g (filter f l).
Proof. induction l as [|i l IH]; cbn; [reflexivity|]. rewrite IH. destruct (f i); reflexivity. Qed.

Lemma fold_emax (l : list R) : forall a, fold_left emax (map SFin l) (SFin a) = SFin (fold_left Rmax l a).
Proof. induction l as [|x l IH]; intros a; cbn; [reflexivity|]. apply IH. Qed.
Lemma fold_Rmax_ub (l : list R) : forall a, a <= fold_left Rmax l a /\ Forall (fun x => x <= fold_left Rmax l a) l.
Proof.
  induction l as [|x l IH]; intros a; cbn [fold_left]; [split; [lra|constructor]|].
  destruct (IH (Rmax a x)) as [H1 H2]. assert (H3 := Rmax_l a x). assert (H4 := Rmax_r a x).
  split; [lra|]. constructor; [lra|exact H2].
Qed.
Lemma fold_Rmax_in (l : list R) : forall a, In (fold_left Rmax l a) (a :: l).
Proof.
  induction l as [|x l IH]; intros a; cbn [fold_left]; [left; reflexivity|].
  destruct (IH (Rmax a x)) as [H|H].
  - rewrite <- H. unfold Rmax. destruct (Rle_dec a x); [right; left|left]; reflexivity.
  - right; right; exact H.
Qed.
