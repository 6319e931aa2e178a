(** * Benchmark models

    Model of rkstiff/models.py in exact arithmetic, for 1-D arrays. [np.fft.rfft] and [np.fft.irfft] are
    those of Derivatives.v. *)

From Coq Require Import ZArith List Bool Reals.
From Coquelicot Require Import Complex.
From Verif Require Import Scalars Config CInst SpecPhi Grids Derivatives.
Import ListNotations.
Local Open Scope R_scope.

(** The expression of rkstiff/models.py:72 at one grid point. *)
Definition soliton_at (ampl x0 t x : R) : R :=
  1 / 2 * ampl ^ 2 / (cosh (ampl * (x - x0 - ampl ^ 2 * t) / 2)) ^ 2.

(** rkstiff/models.py:32-73 [kdv_soliton]. *)
Definition kdv_soliton (x : list R) (ampl x0 t : R) : list R := map (soliton_at ampl x0 t) x.

(** rkstiff/models.py:76-110 [kdv_multi_soliton]: the rows of the [n x m] array are summed. *)
Definition kdv_multi_soliton (x ampl x0 : list R) (t : R) : exn + list R :=
  if negb (Nat.eqb (length x0) (length ampl)) then inl ValueError
  else inr (map (fun xi => rsum (length ampl) (fun j => soliton_at (at_ 0 ampl j) (at_ 0 x0 j) t xi)) x).

(** [np.fft.irfft(v)] without a length: [n = 2 * (m - 1)], and [n < 1] raises [ValueError]. *)
Definition irfft_default (v : list C) : exn + list R :=
  let n := (2 * (length v - 1))%nat in
  if Nat.eqb n 0 then inl ValueError else inr (irfft v n).

(** [1j * kx * v]; an array [kx] of one entry is broadcast. *)
Definition ik_times (kx : list R) (v : list C) : exn + list C :=
  let entry := fun k => if Nat.eqb (length kx) 1 then at_ 0 kx 0 else at_ 0 kx k in
  if Nat.eqb (length kx) (length v) || Nat.eqb (length kx) 1
  then inr (tab (length v) (fun k => (0, entry k)%R * at_ (RtoC 0) v k)%C)
  else inl ValueError.

(** [c * np.fft.rfft(u * ux)] with [u = irfft(uf)], [ux = irfft(1j * kx * uf)]; both arrays have the
    same length. An array [uf] of one entry is refused by the first [irfft]. *)
Definition advection (c : R) (kx : list R) (uf : list C) : exn + list C :=
  match irfft_default uf with
  | inl e => inl e
  | inr u =>
      match ik_times kx uf with
      | inl e => inl e
      | inr d =>
          match irfft_default d with
          | inl e => inl e
          | inr ux => inr (map (Cmult (RtoC c)) (rfft (tab (length u) (fun j => at_ 0 u j * at_ 0 ux j))))
          end
      end
  end.

(** rkstiff/models.py:138, 140-143: the two results of [kdv_ops]. *)
Definition kdv_lin (kx : list R) : list C := map (fun k => (0, 1)%R * RtoC (k ^ 3))%C kx.
Definition kdv_nl (kx : list R) (uf : list C) : exn + list C := advection (-6) kx uf.

(** rkstiff/models.py:187, 189-192: the two results of [burgers_ops]. *)
Definition burgers_lin (kx : list R) (mu : R) : list C := map (fun k => RtoC (- mu * k ^ 2)) kx.
Definition burgers_nl (kx : list R) (uf : list C) : exn + list C := advection (-1) kx uf.

(** [m[1:-1, 1:-1]] and [x[1:-1]]. *)
Definition inner_mat (m : marr) : marr :=
  mk_marr (m_rows m - 2) (m_cols m - 2) (fun i j => m_at m (S i) (S j)).
Definition inner {B} (x : list B) : list B := removelast (tl x).
(** [np.eye(r, c)], entrywise sum and multiples. *)
Definition meye (r c : nat) : marr := mk_marr r c (fun i j => if Nat.eqb i j then 1 else 0).
Definition mplus (a b : marr) : marr := mk_marr (m_rows a) (m_cols a) (fun i j => m_at a i j + m_at b i j).
Definition mtimes (c : R) (a : marr) : marr := mk_marr (m_rows a) (m_cols a) (fun i j => c * m_at a i j).

(** rkstiff/models.py:239-241: the matrix returned by [allen_cahn_ops] for a 2-D array [d]; [d.dot(d)]
    raises [ValueError] when [d] is not square. *)
Definition allen_cahn_lin (d : marr) (epsilon : R) : exn + marr :=
  if Nat.eqb (m_cols d) (m_rows d)
  then let d2 := mmul d d in
       inr (inner_mat (mplus (mtimes epsilon d2) (meye (m_rows d2) (m_cols d2))))
  else inl ValueError.

(** rkstiff/models.py:243-245: the function returned by [allen_cahn_ops]; arrays of one entry are
    broadcast, [np.power(z, 3)] is the product of three factors, [ravel] leaves a 1-D array unchanged. *)
Definition allen_cahn_nl (x : list R) (u : list C) : exn + list C :=
  let xi := inner x in
  let entry {B} (d : B) (l : list B) k := if Nat.eqb (length l) 1 then at_ d l 0 else at_ d l k in
  let go n := inr (tab n (fun k => RtoC (entry 0 xi k) - cpow (entry (RtoC 0) u k + RtoC (entry 0 xi k)) 3)%C) in
  if Nat.eqb (length u) (length xi) then go (length u)
  else if Nat.eqb (length u) 1 then go (length xi)
  else if Nat.eqb (length xi) 1 then go (length u)
  else inl ValueError.
