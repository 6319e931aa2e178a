(** * Fourth-order exponential time differencing: ETD4 and ETD34

    Models of [rkstiff/etd4.py] and [rkstiff/etd34.py], statement by statement, over any
    arithmetic. [nl] is the user's nonlinear function, [expm] is [scipy.linalg.expm], [inv] is
    [numpy.linalg.inv] (both may raise). *)

From Coq Require Import ZArith List Bool.
From Verif Require Import Scalars Control Arrays SchemeBase.
Import ListNotations.
Local Open Scope m_scope.
Local Open Scope arr_scope.
Local Open Scope Z_scope.

(** Cached coefficients (rkstiff/etd4.py:80-82, 226-230; etd34.py:66-77, 342-352; the fields
    [b1 b2 b4] are called [_a51 _a52 _a54] in etd34.py). *)
Record etd4_coefs (X : Type) := mk_etd4_coefs {
  e4_EL : X; e4_EL2 : X;
  e4_a21 : X; e4_a31 : X; e4_a32 : X; e4_a41 : X; e4_a43 : X;
  e4_b1 : X; e4_b2 : X; e4_b4 : X }.
Arguments mk_etd4_coefs {X}.
Arguments e4_EL {X} e.   Arguments e4_EL2 {X} e.  Arguments e4_a21 {X} e.
Arguments e4_a31 {X} e.  Arguments e4_a32 {X} e.  Arguments e4_a41 {X} e.
Arguments e4_a43 {X} e.  Arguments e4_b1 {X} e.   Arguments e4_b2 {X} e.  Arguments e4_b4 {X} e.

(** The contour sums [psi1_12, psi2_12, psi1_1, psi2_1, psi3_1] of the matrix strategies. *)
Record psis4 (X : Type) := mk_psis4 { p4_1h : X; p4_2h : X; p4_1 : X; p4_2 : X; p4_3 : X }.
Arguments mk_psis4 {X}.
Arguments p4_1h {X} p.  Arguments p4_2h {X} p.  Arguments p4_1 {X} p.
Arguments p4_2 {X} p.   Arguments p4_3 {X} p.

Section ETD4.
  Variable F : tops.
  Variable A : aops F.
  Variable W : Type.
  Notation vec := (vec A).
  Notation mat := (mat A).
  Variable nl : vec -> W -> (exn + vec) * W.
  Variable cfg : etdcfg F.
  Variable n : nat.
  Variables expm inv : mat -> exn + mat.
  Notation "m @ v" := (emdot A n m v) (at level 35, right associativity).
  (** A quotient of two literals, e.g. [3.0 / 2]; [q 1 2] is also the literal [0.5]. *)
  Notation q a b := (tdiv F (tofZ F a) (tofZ F b)).
  Notation "'vpsi' f v" := (fun i => f A (v%arr i)) (at level 10, f at level 9, v at level 9).

  (** ** Coefficients of the diagonal strategies *)

  (** rkstiff/etd4.py:87-139 *)
  Definition etd4d_coeffs (L : vec) (h : T F) (c : etd4_coefs vec) : (exn + unit) * etd4_coefs vec :=
    let z := h *s L in
    let EL := vexp z in
    let EL2 := vexp (z /z 2) in
    let small := small_idx z (modecutoff cfg) in
    let big := not_idx small in
    (* big modes *)
    let psi1_12 := h *s vpsi psi1 (z /z 2) in
    let psi2_12 := h *s vpsi psi2 (z /z 2) in
    let psi1_1 := h *s vpsi psi1 z in
    let psi2_1 := h *s vpsi psi2 z in
    let psi3_1 := h *s vpsi psi3 z in
    let a21 := mask_set big (q 1 2 *s psi1_12) (e4_a21 c) in
    let a31 := mask_set big (q 1 2 *s (psi1_12 -v psi2_12)) (e4_a31 c) in
    let a32 := mask_set big (q 1 2 *s psi2_12) (e4_a32 c) in
    let a41 := mask_set big (psi1_1 -v psi2_1) (e4_a41 c) in
    let a43 := mask_set big psi2_1 (e4_a43 c) in
    let b1 := mask_set big (psi1_1 -v q 3 2 *s psi2_1 +v q 2 3 *s psi3_1) (e4_b1 c) in
    let b2 := mask_set big (psi2_1 -v q 2 3 *s psi3_1) (e4_b2 c) in
    let b4 := mask_set big (q (-1) 2 *s psi2_1 +v q 2 3 *s psi3_1) (e4_b4 c) in
    (* small modes *)
    let half_of (x : E A) := ediv A x (lit A 2) in
    let id_of (x : E A) := x in
    let psi1_12 := fun i => contour_avg A cfg h (psi1 A) half_of (z i) in
    let psi2_12 := fun i => contour_avg A cfg h (psi2 A) half_of (z i) in
    let psi1_1 := fun i => contour_avg A cfg h (psi1 A) id_of (z i) in
    let psi2_1 := fun i => contour_avg A cfg h (psi2 A) id_of (z i) in
    let psi3_1 := fun i => contour_avg A cfg h (psi3 A) id_of (z i) in
    let a21 := mask_set small (q 1 2 *s psi1_12) a21 in
    let a31 := mask_set small (q 1 2 *s (psi1_12 -v psi2_12)) a31 in
    let a32 := mask_set small (q 1 2 *s psi2_12) a32 in
    let a41 := mask_set small (psi1_1 -v psi2_1) a41 in
    let a43 := mask_set small psi2_1 a43 in
    let b1 := mask_set small (psi1_1 -v q 3 2 *s psi2_1 +v q 2 3 *s psi3_1) b1 in
    let b2 := mask_set small (psi2_1 -v q 2 3 *s psi3_1) b2 in
    let b4 := mask_set small (q (-1) 2 *s psi2_1 +v q 2 3 *s psi3_1) b4 in
    (inr tt, mk_etd4_coefs EL EL2 a21 a31 a32 a41 a43 b1 b2 b4).

  (** rkstiff/etd34.py:96-149 [_update_coeffs_diagonal], called with [z = h * lin_op]
      (84-94) or [z = h * eig_vals] (248-258). *)
  Definition etd34_coeffs_of (h : T F) (z : vec) (c : etd4_coefs vec) : (exn + unit) * etd4_coefs vec :=
    let EL := vexp z in
    let EL2 := vexp (z /z 2) in
    let small := small_idx z (modecutoff cfg) in
    let big := not_idx small in
    (* big modes *)
    let psi1_12 := h *s vpsi psi1 (z /z 2) in
    let psi2_12 := h *s vpsi psi2 (z /z 2) in
    let psi1_1 := h *s vpsi psi1 z in
    let psi2_1 := h *s vpsi psi2 z in
    let psi3_1 := h *s vpsi psi3 z in
    let a21 := mask_set big (q 1 2 *s psi1_12) (e4_a21 c) in
    let a31 := mask_set big (q 1 2 *s (psi1_12 -v psi2_12)) (e4_a31 c) in
    let a32 := mask_set big (q 1 2 *s psi2_12) (e4_a32 c) in
    let a41 := mask_set big (psi1_1 -v psi2_1) (e4_a41 c) in
    let a43 := mask_set big psi2_1 (e4_a43 c) in
    let b1 := mask_set big (psi1_1 -v q 3 2 *s psi2_1 +v q 2 3 *s psi3_1) (e4_b1 c) in
    let b2 := mask_set big (psi2_1 -v q 2 3 *s psi3_1) (e4_b2 c) in
    let b4 := mask_set big (q (-1) 2 *s psi2_1 +v q 2 3 *s psi3_1) (e4_b4 c) in
    (* small modes *)
    let half_of (x : E A) := ediv A x (lit A 2) in
    let id_of (x : E A) := x in
    let psi1_12 := fun i => contour_avg A cfg h (psi1 A) half_of (z i) in
    let psi2_12 := fun i => contour_avg A cfg h (psi2 A) half_of (z i) in
    let psi1_1 := fun i => contour_avg A cfg h (psi1 A) id_of (z i) in
    let psi2_1 := fun i => contour_avg A cfg h (psi2 A) id_of (z i) in
    let psi3_1 := fun i => contour_avg A cfg h (psi3 A) id_of (z i) in
    let a21 := mask_set small (q 1 2 *s psi1_12) a21 in
    let a31 := mask_set small (q 1 2 *s (psi1_12 -v psi2_12)) a31 in
    let a32 := mask_set small (q 1 2 *s psi2_12) a32 in
    let a41 := mask_set small (psi1_1 -v psi2_1) a41 in
    let a43 := mask_set small psi2_1 a43 in
    let b1 := mask_set small (psi1_1 -v q 3 2 *s psi2_1 +v q 2 3 *s psi3_1) b1 in
    let b2 := mask_set small (psi2_1 -v q 2 3 *s psi3_1) b2 in
    let b4 := mask_set small (q (-1) 2 *s psi2_1 +v q 2 3 *s psi3_1) b4 in
    (inr tt, mk_etd4_coefs EL EL2 a21 a31 a32 a41 a43 b1 b2 b4).

  (** ** Coefficients of the matrix strategies *)

  (** rkstiff/etd4.py:252-262, etd34.py:373-383: one pass over the contour points. *)
  Fixpoint etd4_contour (z : mat) (pts : list (E A)) (p : psis4 mat) : exn + psis4 mat :=
    match pts with
    | [] => inr p
    | pt :: pts =>
        match inv (mscale pt (eye A) -m z) with
        | inl e => inl e
        | inr Q =>
            match inv (mscale pt (eye A) -m z /zm 2) with
            | inl e => inl e
            | inr Q2 =>
                let term (f : E A) (m : mat) := mscale (emul A pt f) m /sm npts cfg in
                etd4_contour z pts
                  (mk_psis4 (p4_1h p +m term (psi1 A pt) Q2) (p4_2h p +m term (psi2 A pt) Q2)
                            (p4_1 p +m term (psi1 A pt) Q) (p4_2 p +m term (psi2 A pt) Q)
                            (p4_3 p +m term (psi3 A pt) Q))
            end
        end
    end.

  (** rkstiff/etd4.py:235-271, etd34.py:356-392 (the same statements). [expm] and [inv] may
      raise; the exponentials assigned before stay assigned. *)
  Definition etd4n_coeffs (L : mat) (h : T F) (c : etd4_coefs mat) : (exn + unit) * etd4_coefs mat :=
    let z := h *sm L in
    let keep EL EL2 := mk_etd4_coefs EL EL2 (e4_a21 c) (e4_a31 c) (e4_a32 c) (e4_a41 c) (e4_a43 c)
                                     (e4_b1 c) (e4_b2 c) (e4_b4 c) in
    match expm z with
    | inl e => (inl e, c)
    | inr EL =>
        match expm (z /zm 2) with
        | inl e => (inl e, keep EL (e4_EL2 c))
        | inr EL2 =>
            match etd4_contour z (nodes A cfg)
                    (mk_psis4 (mzero A) (mzero A) (mzero A) (mzero A) (mzero A)) with
            | inl e => (inl e, keep EL EL2)
            | inr (mk_psis4 psi1_12 psi2_12 psi1_1 psi2_1 psi3_1) =>
                (inr tt,
                 mk_etd4_coefs EL EL2
                   (tmul F (q 1 2) h *sm psi1_12)
                   (tmul F (q 1 2) h *sm (psi1_12 -m psi2_12))
                   (tmul F (q 1 2) h *sm psi2_12)
                   (h *sm (psi1_1 -m psi2_1))
                   (h *sm psi2_1)
                   (h *sm (psi1_1 -m q 3 2 *sm psi2_1 +m q 2 3 *sm psi3_1))
                   (h *sm (psi2_1 -m q 2 3 *sm psi3_1))
                   (h *sm (q (-1) 2 *sm psi2_1 +m q 2 3 *sm psi3_1)))
            end
        end
    end.

  (** ** ETD4 stages *)
  Section ETD4Diagonal.
    Variable L : vec.
    Notation st := (sst (T F) (etd4_coefs vec) (mem1 vec)).

    (** rkstiff/etd4.py:141-150 *)
    Definition etd4d_init (u : vec) : M st W unit :=
      n1 <- call nl u ;; upd (set_mem (mk_mem1 n1)).

    (** rkstiff/etd4.py:152-175; the argument [h] is not used by the stages. *)
    Definition etd4d_stages (u : vec) (h : T F) : M st W vec :=
      c <- get coefs ;;
      m <- get mem ;;
      let NL1 := m1_NL1 m in
      NL2 <- call nl (e4_EL2 c *v u +v e4_a21 c *v NL1) ;;
      NL3 <- call nl (e4_EL2 c *v u +v e4_a31 c *v NL1 +v e4_a32 c *v NL2) ;;
      NL4 <- call nl (e4_EL c *v u +v e4_a41 c *v NL1 +v e4_a43 c *v NL3) ;;
      let k := e4_EL c *v u +v e4_b1 c *v NL1 +v e4_b2 c *v (NL2 +v NL3) +v e4_b4 c *v NL4 in
      NL1' <- call nl k ;;
      upd (set_mem (mk_mem1 NL1')) ;;;
      ret k.

    Definition etd4_diag : csm (T F) vec W :=
      cs_solver F vec W (etd4_coefs vec) (mem1 vec) (etd4d_coeffs L) etd4d_init etd4d_stages.
  End ETD4Diagonal.

  Section ETD4NonDiagonal.
    Variable L : mat.
    Notation st := (sst (T F) (etd4_coefs mat) (mem1 vec)).

    (** rkstiff/etd4.py:273-282 *)
    Definition etd4n_init (u : vec) : M st W unit :=
      n1 <- call nl u ;; upd (set_mem (mk_mem1 n1)).

    (** rkstiff/etd4.py:284-308 *)
    Definition etd4n_stages (u : vec) (h : T F) : M st W vec :=
      c <- get coefs ;;
      m <- get mem ;;
      let NL1 := m1_NL1 m in
      NL2 <- call nl (e4_EL2 c @ u +v e4_a21 c @ NL1) ;;
      NL3 <- call nl (e4_EL2 c @ u +v e4_a31 c @ NL1 +v e4_a32 c @ NL2) ;;
      NL4 <- call nl (e4_EL c @ u +v e4_a41 c @ NL1 +v e4_a43 c @ NL3) ;;
      let k := e4_EL c @ u +v e4_b1 c @ NL1 +v e4_b2 c @ (NL2 +v NL3) +v e4_b4 c @ NL4 in
      NL1' <- call nl k ;;
      upd (set_mem (mk_mem1 NL1')) ;;;
      ret k.

    Definition etd4_nondiag : csm (T F) vec W :=
      cs_solver F vec W (etd4_coefs mat) (mem1 vec) (etd4n_coeffs L) etd4n_init etd4n_stages.
  End ETD4NonDiagonal.

  (** ** ETD34 stages *)
  Section ETD34Diagonal.
    Variable L : vec.
    Notation st := (sst (T F) (etd4_coefs vec) (mem2 vec)).

    (** rkstiff/etd34.py:84-94 *)
    Definition etd34d_coeffs (h : T F) (c : etd4_coefs vec) := etd34_coeffs_of h (h *s L) c.

    (** rkstiff/etd34.py:151-160 *)
    Definition etd34d_init (u : vec) : M st W unit :=
      n1 <- call nl u ;;
      m <- get mem ;;
      upd (set_mem (mk_mem2 n1 (m2_NLn m))).

    (** rkstiff/etd34.py:162-191 *)
    Definition etd34d_stages (accept : bool) (u : vec) (h : T F) : M st W (vec * vec) :=
      c <- get coefs ;;
      m <- get mem ;;
      let NL1 := if accept then m2_NLn m else m2_NL1 m in
      upd (set_mem (mk_mem2 NL1 (m2_NLn m))) ;;;
      NL2 <- call nl (e4_EL2 c *v u +v e4_a21 c *v NL1) ;;
      NL3 <- call nl (e4_EL2 c *v u +v e4_a31 c *v NL1 +v e4_a32 c *v NL2) ;;
      NL4 <- call nl (e4_EL c *v u +v e4_a41 c *v NL1 +v e4_a43 c *v NL3) ;;
      let k := e4_EL c *v u +v e4_b1 c *v NL1 +v e4_b2 c *v (NL2 +v NL3) +v e4_b4 c *v NL4 in
      NL5 <- call nl k ;;
      upd (set_mem (mk_mem2 NL1 NL5)) ;;;
      ret (k, e4_b4 c *v (NL4 -v NL5)).

    Definition etd34_diag : asm (T F) vec W :=
      as_solver F vec W (etd4_coefs vec) (mem2 vec) etd34d_coeffs etd34d_init etd34d_stages.
  End ETD34Diagonal.

  Section ETD34Diagonalized.
    (** Eigenvectors, inverse, eigenvalues from the constructor (rkstiff/etd34.py:212-246). *)
    Variables (Smat Sinv : mat) (lam : vec).
    Notation st := (sst (T F) (etd4_coefs vec) (mem3 vec)).

    (** rkstiff/etd34.py:248-258 *)
    Definition etd34z_coeffs (h : T F) (c : etd4_coefs vec) := etd34_coeffs_of h (h *s lam) c.

    (** rkstiff/etd34.py:260-270 *)
    Definition etd34z_init (u : vec) : M st W unit :=
      n1 <- call nl u ;;
      m <- get mem ;;
      upd (set_mem (mk_mem3 (Sinv @ n1) (m3_NLn m) (Sinv @ u))).

    (** rkstiff/etd34.py:272-304 *)
    Definition etd34z_stages (accept : bool) (u : vec) (h : T F) : M st W (vec * vec) :=
      c <- get coefs ;;
      m <- get mem ;;
      let NL1 := if accept then m3_NLn m else m3_NL1 m in
      let v := if accept then Sinv @ u else m3_v m in
      upd (set_mem (mk_mem3 NL1 (m3_NLn m) v)) ;;;
      r2 <- call nl (Smat @ (e4_EL2 c *v v +v e4_a21 c *v NL1)) ;; let NL2 := Sinv @ r2 in
      r3 <- call nl (Smat @ (e4_EL2 c *v v +v e4_a31 c *v NL1 +v e4_a32 c *v NL2)) ;;
      let NL3 := Sinv @ r3 in
      r4 <- call nl (Smat @ (e4_EL c *v v +v e4_a41 c *v NL1 +v e4_a43 c *v NL3)) ;;
      let NL4 := Sinv @ r4 in
      let k := e4_EL c *v v +v e4_b1 c *v NL1 +v e4_b2 c *v (NL2 +v NL3) +v e4_b4 c *v NL4 in
      r5 <- call nl (Smat @ k) ;; let NL5 := Sinv @ r5 in
      upd (set_mem (mk_mem3 NL1 NL5 v)) ;;;
      ret (Smat @ k, e4_b4 c *v (NL4 -v NL5)).

    Definition etd34_diagonalized : asm (T F) vec W :=
      as_solver F vec W (etd4_coefs vec) (mem3 vec) etd34z_coeffs etd34z_init etd34z_stages.
  End ETD34Diagonalized.

  Section ETD34NonDiagonal.
    Variable L : mat.
    Notation st := (sst (T F) (etd4_coefs mat) (mem2 vec)).

    (** rkstiff/etd34.py:394-403 *)
    Definition etd34n_init (u : vec) : M st W unit :=
      n1 <- call nl u ;;
      m <- get mem ;;
      upd (set_mem (mk_mem2 n1 (m2_NLn m))).

    (** rkstiff/etd34.py:405-436 *)
    Definition etd34n_stages (accept : bool) (u : vec) (h : T F) : M st W (vec * vec) :=
      c <- get coefs ;;
      m <- get mem ;;
      let NL1 := if accept then m2_NLn m else m2_NL1 m in
      upd (set_mem (mk_mem2 NL1 (m2_NLn m))) ;;;
      NL2 <- call nl (e4_EL2 c @ u +v e4_a21 c @ NL1) ;;
      NL3 <- call nl (e4_EL2 c @ u +v e4_a31 c @ NL1 +v e4_a32 c @ NL2) ;;
      NL4 <- call nl (e4_EL c @ u +v e4_a41 c @ NL1 +v e4_a43 c @ NL3) ;;
      let k := e4_EL c @ u +v e4_b1 c @ NL1 +v e4_b2 c @ (NL2 +v NL3) +v e4_b4 c @ NL4 in
      NL5 <- call nl k ;;
      upd (set_mem (mk_mem2 NL1 NL5)) ;;;
      ret (k, e4_b4 c @ (NL4 -v NL5)).

    Definition etd34_nondiag : asm (T F) vec W :=
      as_solver F vec W (etd4_coefs mat) (mem2 vec) (etd4n_coeffs L) etd34n_init etd34n_stages.
  End ETD34NonDiagonal.
End ETD4.
