(** * Spectral derivatives

    Model of rkstiff/derivatives.py in exact arithmetic, for 1-D arrays (2-D as well for the
    Chebyshev matrix). The transforms of [np.fft] are given by their defining sums; that numpy computes
    these is trusted. *)

From Coq Require Import ZArith List Bool Reals.
From Coquelicot Require Import Complex.
From Verif Require Import Scalars Config CInst SpecPhi Grids.
Import ListNotations.

(** Entry [k] of [np.fft.fft], entry [j] of [np.fft.ifft], for arrays of length [n]. *)
Definition dft (n : nat) (u : nat -> C) (k : nat) : C :=
  csum n (fun j => u j * Cexp (0, - (2 * PI * INR j * INR k / INR n))%R)%C.
Definition idft (n : nat) (v : nat -> C) (j : nat) : C :=
  (RtoC (/ INR n) * csum n (fun k => v k * Cexp (0, 2 * PI * INR j * INR k / INR n)%R))%C.

Definition at_ {B} (d : B) (l : list B) (i : nat) : B := nth i l d.
Definition tab {B} (n : nat) (f : nat -> B) : list B := map f (seq 0 n).

Definition fft (u : list C) : list C := tab (length u) (dft (length u) (at_ (RtoC 0) u)).
Definition ifft (v : list C) : list C := tab (length v) (idft (length v) (at_ (RtoC 0) v)).
(** [np.fft.rfft]: the entries [0 .. n//2] of the transform of a real array. *)
Definition rfft (u : list R) : list C :=
  tab (length u / 2 + 1) (dft (length u) (fun j => RtoC (at_ 0%R u j))).
(** [np.fft.irfft(v, n)]: inverse transform of the Hermitian extension of [v]; the imaginary parts of
    entry 0 and, for even [n], of entry [n/2] are ignored. *)
Definition hermitian (n : nat) (v : nat -> C) (k : nat) : C :=
  if Nat.eqb k 0 || Nat.eqb (2 * k) n then RtoC (fst (v k))
  else if Nat.ltb (2 * k) n then v k else Cconj (v (n - k)%nat).
Definition irfft (v : list C) (n : nat) : list R :=
  tab n (fun j => fst (idft n (hermitian n (at_ (RtoC 0) v)) j)).

(** [(1j * kx) ** n * u_fft], entry by entry. *)
Definition apply_ik (kx : list R) (n : nat) (v : list C) : list C :=
  tab (length v) (fun k => (cpow (0%R, at_ 0%R kx k) n * at_ (RtoC 0) v k)%C).

(** The checks of the order at the top of each function (rkstiff/derivatives.py:100-103, 167-170,
    230-233). *)
Definition check_order (n : pyval R) : exn + nat :=
  let go (z : Z) := if (z <? 0)%Z then inl ValueError else inr (Z.to_nat z) in
  match n with
  | PInt z => go z
  | PBool b => go (if b then 1 else 0)%Z
  | PFloat _ | POther => inl TypeError
  end.

(** rkstiff/derivatives.py:167-179 [dx_fft]; the transform of an empty array raises [ValueError]. *)
Definition dx_fft (kx : list R) (u : list C) (n : pyval R) : exn + list C :=
  match check_order n with
  | inl e => inl e
  | inr O => inr u
  | inr k =>
      if Nat.eqb (length u) 0 then inl ValueError
      else if Nat.eqb (length kx) (length (fft u)) then inr (ifft (apply_ik kx k (fft u)))
      else inl ValueError
  end.

(** A real or a complex array. *)
Inductive uin := URe (u : list R) | UCx (u : list C).

(** rkstiff/derivatives.py:100-123 [dx_rfft]. *)
Definition dx_rfft (kx : list R) (u : uin) (n : pyval R) : exn + list R :=
  match check_order n with
  | inl e => inl e
  | inr k =>
      match u with
      | UCx _ => inl TypeError
      | URe u =>
          if Nat.eqb (length u) 0 then inr []
          else match k with
               | O => inr u
               | _ => if Nat.eqb (length kx) (length (rfft u)) then inr (irfft (apply_ik kx k (rfft u)) (length u))
                      else inl ValueError
               end
      end
  end.

(** 2-D arrays, and the argument [u] of [dx_cheb]: 1-D, 2-D or of another dimension. *)
Record marr := mk_marr { m_rows : nat; m_cols : nat; m_at : nat -> nat -> R }.
Inductive uarr := U1 (len : nat) (v : nat -> R) | U2 (m : marr) | Und.
(** [a @ b]; numpy raises [ValueError] when the inner dimensions differ. *)
Definition mmul (a b : marr) : marr :=
  mk_marr (m_rows a) (m_cols b) (fun i j => rsum (m_cols a) (fun k => m_at a i k * m_at b k j)%R).
Definition matmul (a : marr) (u : uarr) : exn + uarr :=
  match u with
  | U1 len v => if Nat.eqb (m_cols a) len then inr (U1 (m_rows a) (fun i => rsum (m_cols a) (fun k => m_at a i k * v k)%R))
                else inl ValueError
  | U2 m => if Nat.eqb (m_cols a) (m_rows m) then inr (U2 (mmul a m)) else inl ValueError
  | Und => inl ValueError
  end.
(** [np.linalg.matrix_power(a, S k)] for a square matrix; numpy uses repeated squaring, which gives the
    same in exact arithmetic. *)
Fixpoint mpow (a : marr) (k : nat) : marr := match k with O => a | S k => mmul (mpow a k) a end.

(** rkstiff/derivatives.py:230-253 [dx_cheb]. [matrix_power] raises [LinAlgError] if the matrix is not
    square. *)
Definition dx_cheb (d : marr) (u : uarr) (n : pyval R) : exn + uarr :=
  match check_order n with
  | inl e => inl e
  | inr O => inr u
  | inr (S k) =>
      let go :=
        match k with
        | O => matmul d u
        | _ => if Nat.eqb (m_rows d) (m_cols d) then matmul (mpow d k) u else inl LinAlgError
        end in
      match u with
      | U1 len _ => if negb (Nat.eqb (m_rows d) (m_cols d)) then inl ValueError
                    else if negb (Nat.eqb (m_rows d) len) then inl ValueError else go
      | U2 m => if negb (Nat.eqb (m_rows d) (m_rows m)) then inl ValueError else go
      | Und => inl ValueError
      end
  end.
