(** * Grids: uniform grids with wavenumbers, Chebyshev grid and matrix, mirrored grids *)

From Coq Require Import ZArith List Bool Reals.
From Verif Require Import Scalars Config.
Import ListNotations.

Section Uniform.
  Variable F : tops.
  (** [math.ceil] of a float; [None] for NaN and infinities. *)
  Variable ceil : T F -> option Z.
  (** The value of [2 * np.pi]. *)
  Variable two_pi : T F.
  Notation PT := (pynum (T F)).

  (** Length of [np.arange(start, stop, step)] for floats (numpy, ctors.c [_calc_length]):
      [ceil((stop - start) / step)], none if that is negative. Python floats divided by zero
      raise [ZeroDivisionError], numpy scalars give NaN or infinity and then [ValueError]. Not
      modelled: the special rule for a quotient that underflows to zero, and sizes beyond the
      address space; both are out of reach for the calls below. *)
  Definition arange_len (start stop step : PT) : exn + nat :=
    if teqb F (val step) (tofZ F 0) && negb (isnp start || isnp stop || isnp step) then inl ZeroDivisionError
    else match ceil (tdiv F (tsub F (val stop) (val start)) (val step)) with
         | None => inl ValueError
         | Some z => inr (Z.to_nat z)
         end.
  (** Its entries (numpy [PyArray_ArangeObj] and [DOUBLE_fill]): the first two are [start] and
      [start + step], the others use the difference of these two. *)
  Definition arange_val (start step : T F) (i : nat) : T F :=
    match i with
    | O => start
    | S O => tadd F start step
    | _ => tadd F start (tmul F (tofZ F (Z.of_nat i)) (tsub F (tadd F start step) start))
    end.
  Definition arange (start stop step : PT) : exn + list (T F) :=
    match arange_len start stop step with
    | inl e => inl e
    | inr k => inr (map (arange_val (val start) (val step)) (seq 0 k))
    end.

  (** The indices of [np.fft.rfftfreq(n, d)]: [0 .. n//2]; of [np.fft.fftfreq(n, d)]:
      [0 .. (n-1)//2] followed by [-(n//2) .. -1]. *)
  Definition rfft_index (n : nat) : list Z := map Z.of_nat (seq 0 (n / 2 + 1)).
  Definition fft_index (n : nat) : list Z :=
    map Z.of_nat (seq 0 ((n - 1) / 2 + 1)) ++ map (fun j => Z.of_nat j - Z.of_nat (n / 2))%Z (seq 0 (n / 2)).
  (** Both functions multiply the indices by [1.0 / (n * d)]. *)
  Definition freq (idx : list Z) (n : nat) (d : T F) : list (T F) :=
    let v := tdiv F (tofZ F 1) (tmul F (tofZ F (Z.of_nat n)) d) in
    map (fun j => tmul F (tofZ F j) v) idx.

  (** rkstiff/grids.py:77-80, 123-126: the check of [n]; [bool] is a subclass of [int]. *)
  Definition check_n (n : pyval (T F)) : exn + nat :=
    let go (z : Z) := if (z <=? 2)%Z || negb (z mod 2 =? 0)%Z then inl ValueError else inr (Z.to_nat z) in
    match n with
    | PInt z => go z
    | PBool b => go (if b then 1 else 0)%Z
    | PFloat _ | POther => inl TypeError
    end.

  (** rkstiff/grids.py:77-85 ([idx = rfft_index]) and 123-131 ([idx = fft_index]). *)
  Definition construct_x_kx (idx : nat -> list Z) (n : pyval (T F)) (a b : PT) : exn + (list (T F) * list (T F)) :=
    match check_n n with
    | inl e => inl e
    | inr k =>
        let d := psub F b a in
        let dx := PyN (isnp d) (tdiv F (val d) (tofZ F (Z.of_nat k))) in
        match arange a b dx with
        | inl e => inl e
        | inr x => inr (x, map (tmul F two_pi) (freq (idx k) k (val dx)))
        end
    end.
  Definition construct_x_kx_rfft := construct_x_kx rfft_index.
  Definition construct_x_kx_fft := construct_x_kx fft_index.
End Uniform.

(** ** Chebyshev grid and differentiation matrix, in exact arithmetic *)
Section Cheb.
  Local Open Scope R_scope.

  (** [np.linspace(start, stop, num)] for [num >= 2], entry [j]; the last entry is [stop] itself. *)
  Definition linspace (start stop : R) (num j : nat) : R :=
    if Nat.eqb j (num - 1) then stop else INR j * ((stop - start) / INR (num - 1)) + start.
  (** [np.polynomial.chebyshev.chebpts2(npts)]: [cos(linspace(-pi, 0, npts))]. *)
  Definition chebpts2 (npts : nat) : list R := map (fun j => cos (linspace (- PI) 0 npts j)) (seq 0 npts).

  (** rkstiff/grids.py:169-175. *)
  Definition construct_x_cheb (n : pyval R) (a b : R) : exn + list R :=
    let go (z : Z) := if (z <? 2)%Z then inl ValueError
                      else inr (map (fun x => a + (b - a) * (x + 1) / 2) (chebpts2 (Z.to_nat z + 1))) in
    match n with
    | PInt z => go z
    | PBool b => go (if b then 1 else 0)%Z
    | PFloat _ | POther => inl TypeError
    end.

  (** rkstiff/grids.py:214 [c], entry [i] of [n + 1]. *)
  Definition cheb_c (n i : nat) : R := (if Nat.eqb i 0 || Nat.eqb i n then 2 else 1) * (-1) ^ i.
  Fixpoint rsum (n : nat) (f : nat -> R) : R := match n with O => 0 | S n => rsum n f + f n end.
  (** rkstiff/grids.py:215-217: the matrix before and after the correction of the diagonal; [x] is
      the grid. *)
  Definition cheb_m0 (n : nat) (x : list R) (i j : nat) : R :=
    cheb_c n i * (1 / cheb_c n j) / (nth i x 0 - nth j x 0 + if Nat.eqb i j then 1 else 0).
  Definition cheb_m (n : nat) (x : list R) (i j : nat) : R :=
    cheb_m0 n x i j - if Nat.eqb i j then rsum (n + 1) (cheb_m0 n x i) else 0.
  (** rkstiff/grids.py:213-219. The size of the matrix is the number of grid points. *)
  Definition construct_x_dx_cheb (n : pyval R) (a b : R) : exn + (list R * (nat -> nat -> R)) :=
    match construct_x_cheb n a b with
    | inl e => inl e
    | inr x => inr (x, cheb_m (length x - 1) x)
    end.
End Cheb.

(** ** Mirrored grids *)
Section Mirror.
  Variable E : Type.
  Variable neg : E -> E.

  (** A 1-D array, or a 2-D array given by its rows (of equal length). *)
  Inductive nd := D1 (v : list E) | D2 (rows : list (list E)).

  (** [np.flipud], [np.fliplr] (which needs two dimensions), [np.hstack], [np.vstack] of two arrays
      of the same shape; a 1-D array is one row for [np.vstack]. *)
  Definition flipud (u : nd) : nd := match u with D1 v => D1 (rev v) | D2 m => D2 (rev m) end.
  Definition fliplr (u : nd) : exn + nd := match u with D1 _ => inl ValueError | D2 m => inr (D2 (map (@rev E) m)) end.
  Fixpoint zip_app (m m' : list (list E)) : list (list E) :=
    match m, m' with r :: m, r' :: m' => (r ++ r') :: zip_app m m' | _, _ => [] end.
  Definition hstack (u v : nd) : exn + nd :=
    match u, v with
    | D1 a, D1 b => inr (D1 (a ++ b))
    | D2 a, D2 b => inr (D2 (zip_app a b))
    | _, _ => inl ValueError
    end.
  Definition vstack (u v : nd) : exn + nd :=
    match u, v with
    | D1 a, D1 b => inr (D2 [a; b])
    | D2 a, D2 b => inr (D2 (a ++ b))
    | _, _ => inl ValueError
    end.

  (** rkstiff/grids.py:308-321 [mirror_grid], for a 1-D grid [r]. *)
  Definition mirror_grid (r : list E) (u : option nd) (axis : Z) : exn + (list E * option nd) :=
    let rnew := map neg (rev r) ++ r in
    let out (x : exn + nd) := match x with inl e => inl e | inr v => inr (rnew, Some v) end in
    match u with
    | None => inr (rnew, None)
    | Some u =>
        if (axis =? -1)%Z then out (hstack (flipud u) u)
        else if (axis =? 0)%Z then out (vstack (flipud u) u)
        else if (axis =? 1)%Z then match fliplr u with inl e => inl e | inr f => out (hstack f u) end
        else inl ValueError
    end.
End Mirror.
Arguments D1 {E} v.  Arguments D2 {E} rows.
Arguments mirror_grid {E} neg r u axis.
