(** * Fifth-order exponential time differencing: ETD5 and ETD35

    Models of [rkstiff/etd5.py] and [rkstiff/etd35.py], statement by statement, over any
    arithmetic. [nl] is the user's nonlinear function, [expm] is [scipy.linalg.expm], [inv] is
    [numpy.linalg.inv] (both may raise). [_a64] is allocated but never used and is left out. *)

From Coq Require Import ZArith List Bool.
From Verif Require Import Scalars Control Arrays SchemeBase.
Import ListNotations.
Local Open Scope m_scope.
Local Open Scope arr_scope.
Local Open Scope Z_scope.

(** Cached coefficients (rkstiff/etd5.py:94-112, 332-355; etd35.py:130-151, 574-598; the fields
    [b1 b3 b4 b5 b6] are called [_a71 _a73 _a74 _a75 _a76] in etd35.py). *)
Record etd5_coefs (X : Type) := mk_etd5_coefs {
  e5_EL14 : X; e5_EL12 : X; e5_EL34 : X; e5_EL : X;
  e5_a21 : X; e5_a31 : X; e5_a32 : X; e5_a41 : X; e5_a43 : X; e5_a51 : X; e5_a52 : X; e5_a54 : X;
  e5_a61 : X; e5_a62 : X; e5_a63 : X; e5_a65 : X;
  e5_b1 : X; e5_b3 : X; e5_b4 : X; e5_b5 : X; e5_b6 : X }.
Arguments mk_etd5_coefs {X}.
Arguments e5_EL14 {X} e.
Arguments e5_EL12 {X} e.
Arguments e5_EL34 {X} e.
Arguments e5_EL {X} e.
Arguments e5_a21 {X} e.
Arguments e5_a31 {X} e.
Arguments e5_a32 {X} e.
Arguments e5_a41 {X} e.
Arguments e5_a43 {X} e.
Arguments e5_a51 {X} e.
Arguments e5_a52 {X} e.
Arguments e5_a54 {X} e.
Arguments e5_a61 {X} e.
Arguments e5_a62 {X} e.
Arguments e5_a63 {X} e.
Arguments e5_a65 {X} e.
Arguments e5_b1 {X} e.
Arguments e5_b3 {X} e.
Arguments e5_b4 {X} e.
Arguments e5_b5 {X} e.
Arguments e5_b6 {X} e.

(** The contour sums of the matrix strategies: [psi1_14, psi2_14, psi1_12, psi2_12, psi1_34,
    psi2_34, psi1_1, psi2_1, psi3_1]. *)
Record psis5 (X : Type) := mk_psis5 {
  p5_14a : X; p5_14b : X; p5_12a : X; p5_12b : X; p5_34a : X; p5_34b : X;
  p5_1 : X; p5_2 : X; p5_3 : X }.
Arguments mk_psis5 {X}.
Arguments p5_14a {X} p.
Arguments p5_14b {X} p.
Arguments p5_12a {X} p.
Arguments p5_12b {X} p.
Arguments p5_34a {X} p.
Arguments p5_34b {X} p.
Arguments p5_1 {X} p.
Arguments p5_2 {X} p.
Arguments p5_3 {X} p.

Section ETD5.
  Variable F : tops.
  Variable A : aops F.
  Variable W : Type.
  Notation vec := (vec A).
  Notation mat := (mat A).
  Variable nl : vec -> W -> (exn + vec) * W.
  Variable cfg : etdcfg F.
  Variable n : nat.
  Variables expm inv : mat -> exn + mat.
  Notation "m @ v" := (emdot A n m v) (at level 35, right associativity).
  (** A quotient of two literals, e.g. [3 / 4]. *)
  Notation q a b := (tdiv F (tofZ F a) (tofZ F b)).
  Notation "'vpsi' f v" := (fun i => f A (v%arr i)) (at level 10, f at level 9, v at level 9).

  (** ** Coefficients of the diagonal strategies *)

  (** rkstiff/etd5.py:115-203 *)
  Definition etd5d_coeffs (L : vec) (h : T F) (c : etd5_coefs vec) : (exn + unit) * etd5_coefs vec :=
    let z := h *s L in
    let EL14 := vexp (z /z 4) in
    let EL12 := vexp (z /z 2) in
    let EL34 := vexp (3 *z z /z 4) in
    let EL := vexp z in
    let small := small_idx z (modecutoff cfg) in
    let big := not_idx small in
    (* big modes *)
    let psi1_14 := h *s vpsi psi1 (z /z 4) in
    let psi2_14 := h *s vpsi psi2 (z /z 4) in
    let psi1_12 := h *s vpsi psi1 (z /z 2) in
    let psi2_12 := h *s vpsi psi2 (z /z 2) in
    let psi1_34 := h *s vpsi psi1 (3 *z z /z 4) in
    let psi2_34 := h *s vpsi psi2 (3 *z z /z 4) in
    let psi1_1 := h *s vpsi psi1 z in
    let psi2_1 := h *s vpsi psi2 z in
    let psi3_1 := h *s vpsi psi3 z in
    let a21 := mask_set big (psi1_14 /z 4) (e5_a21 c) in
    let a31 := mask_set big ((psi1_14 -v psi2_14 /z 2) /z 4) (e5_a31 c) in
    let a32 := mask_set big (psi2_14 /z 8) (e5_a32 c) in
    let a41 := mask_set big ((psi1_12 -v psi2_12) /z 2) (e5_a41 c) in
    let a43 := mask_set big (psi2_12 /z 2) (e5_a43 c) in
    let a51 := mask_set big (3 *z (psi1_34 -v 3 *z psi2_34 /z 4) /z 4) (e5_a51 c) in
    let a52 := mask_set big ((-3) *z psi1_34 /z 8) (e5_a52 c) in
    let a54 := mask_set big (9 *z psi2_34 /z 16) (e5_a54 c) in
    let a61 := mask_set big (((-77) *z psi1_1 +v 59 *z psi2_1) /z 42) (e5_a61 c) in
    let a62 := mask_set big (8 *z psi1_1 /z 7) (e5_a62 c) in
    let a63 := mask_set big ((111 *z psi1_1 -v 87 *z psi2_1) /z 28) (e5_a63 c) in
    let a65 := mask_set big (((-47) *z psi1_1 +v 143 *z psi2_1) /z 84) (e5_a65 c) in
    let b1 := mask_set big (7 *z (257 *z psi1_1 -v 497 *z psi2_1 +v 270 *z psi3_1) /z 2700) (e5_b1 c) in
    let b3 := mask_set big ((1097 *z psi1_1 -v 467 *z psi2_1 -v 150 *z psi3_1) /z 1350) (e5_b3 c) in
    let b4 := mask_set big (2 *z ((-49) *z psi1_1 +v 199 *z psi2_1 -v 135 *z psi3_1) /z 225) (e5_b4 c) in
    let b5 := mask_set big (((-313) *z psi1_1 +v 883 *z psi2_1 -v 90 *z psi3_1) /z 1350) (e5_b5 c) in
    let b6 := mask_set big ((509 *z psi1_1 -v 2129 *z psi2_1 +v 1830 *z psi3_1) /z 2700) (e5_b6 c) in
    (* small modes *)
    let q4 (x : E A) := ediv A x (lit A 4) in
    let q2 (x : E A) := ediv A x (lit A 2) in
    let q34 (x : E A) := ediv A (emul A (lit A 3) x) (lit A 4) in
    let q1 (x : E A) := x in
    let avg f g := fun i => contour_avg A cfg h (f A) g (z i) in
    let psi1_14 := avg (@psi1 F) q4 in
    let psi2_14 := avg (@psi2 F) q4 in
    let psi1_12 := avg (@psi1 F) q2 in
    let psi2_12 := avg (@psi2 F) q2 in
    let psi1_34 := avg (@psi1 F) q34 in
    let psi2_34 := avg (@psi2 F) q34 in
    let psi1_1 := avg (@psi1 F) q1 in
    let psi2_1 := avg (@psi2 F) q1 in
    let psi3_1 := avg (@psi3 F) q1 in
    let a21 := mask_set small (psi1_14 /z 4) a21 in
    let a31 := mask_set small ((psi1_14 -v psi2_14 /z 2) /z 4) a31 in
    let a32 := mask_set small (psi2_14 /z 8) a32 in
    let a41 := mask_set small ((psi1_12 -v psi2_12) /z 2) a41 in
    let a43 := mask_set small (psi2_12 /z 2) a43 in
    let a51 := mask_set small (3 *z (psi1_34 -v 3 *z psi2_34 /z 4) /z 4) a51 in
    let a52 := mask_set small ((-3) *z psi1_34 /z 8) a52 in
    let a54 := mask_set small (9 *z psi2_34 /z 16) a54 in
    let a61 := mask_set small (((-77) *z psi1_1 +v 59 *z psi2_1) /z 42) a61 in
    let a62 := mask_set small (8 *z psi1_1 /z 7) a62 in
    let a63 := mask_set small ((111 *z psi1_1 -v 87 *z psi2_1) /z 28) a63 in
    let a65 := mask_set small (((-47) *z psi1_1 +v 143 *z psi2_1) /z 84) a65 in
    let b1 := mask_set small (7 *z (257 *z psi1_1 -v 497 *z psi2_1 +v 270 *z psi3_1) /z 2700) b1 in
    let b3 := mask_set small ((1097 *z psi1_1 -v 467 *z psi2_1 -v 150 *z psi3_1) /z 1350) b3 in
    let b4 := mask_set small (2 *z ((-49) *z psi1_1 +v 199 *z psi2_1 -v 135 *z psi3_1) /z 225) b4 in
    let b5 := mask_set small (((-313) *z psi1_1 +v 883 *z psi2_1 -v 90 *z psi3_1) /z 1350) b5 in
    let b6 := mask_set small ((509 *z psi1_1 -v 2129 *z psi2_1 +v 1830 *z psi3_1) /z 2700) b6 in
    (inr tt, mk_etd5_coefs EL14 EL12 EL34 EL a21 a31 a32 a41 a43 a51 a52 a54 a61 a62 a63 a65 b1 b3 b4 b5 b6).

  (** rkstiff/etd35.py:169-288 [_update_coeffs_diagonal], [_update_large_mode_coeffs],
      [_update_small_mode_coeffs], called with [z = h * lin_op] (157-167) or [z = h * eig_vals]
      (423-433). The early returns for empty masks change nothing and are not modelled. *)
  Definition etd35_coeffs_of (h : T F) (z : vec) (c : etd5_coefs vec) : (exn + unit) * etd5_coefs vec :=
    let EL14 := vexp (z /z 4) in
    let EL12 := vexp (z /z 2) in
    let EL34 := vexp (3 *z z /z 4) in
    let EL := vexp z in
    let small := small_idx z (modecutoff cfg) in
    let big := not_idx small in
    (* big modes *)
    let psi1_14 := h *s vpsi psi1 (z /z 4) in
    let psi2_14 := h *s vpsi psi2 (z /z 4) in
    let psi1_12 := h *s vpsi psi1 (z /z 2) in
    let psi2_12 := h *s vpsi psi2 (z /z 2) in
    let psi1_34 := h *s vpsi psi1 (3 *z z /z 4) in
    let psi2_34 := h *s vpsi psi2 (3 *z z /z 4) in
    let psi1_1 := h *s vpsi psi1 z in
    let psi2_1 := h *s vpsi psi2 z in
    let psi3_1 := h *s vpsi psi3 z in
    let a21 := mask_set big (psi1_14 /z 4) (e5_a21 c) in
    let a31 := mask_set big ((psi1_14 -v psi2_14 /z 2) /z 4) (e5_a31 c) in
    let a32 := mask_set big (psi2_14 /z 8) (e5_a32 c) in
    let a41 := mask_set big ((psi1_12 -v psi2_12) /z 2) (e5_a41 c) in
    let a43 := mask_set big (psi2_12 /z 2) (e5_a43 c) in
    let a51 := mask_set big (3 *z (psi1_34 -v 3 *z psi2_34 /z 4) /z 4) (e5_a51 c) in
    let a52 := mask_set big ((-3) *z psi1_34 /z 8) (e5_a52 c) in
    let a54 := mask_set big (9 *z psi2_34 /z 16) (e5_a54 c) in
    let a61 := mask_set big (((-77) *z psi1_1 +v 59 *z psi2_1) /z 42) (e5_a61 c) in
    let a62 := mask_set big (8 *z psi1_1 /z 7) (e5_a62 c) in
    let a63 := mask_set big ((111 *z psi1_1 -v 87 *z psi2_1) /z 28) (e5_a63 c) in
    let a65 := mask_set big (((-47) *z psi1_1 +v 143 *z psi2_1) /z 84) (e5_a65 c) in
    let b1 := mask_set big (7 *z (257 *z psi1_1 -v 497 *z psi2_1 +v 270 *z psi3_1) /z 2700) (e5_b1 c) in
    let b3 := mask_set big ((1097 *z psi1_1 -v 467 *z psi2_1 -v 150 *z psi3_1) /z 1350) (e5_b3 c) in
    let b4 := mask_set big (2 *z ((-49) *z psi1_1 +v 199 *z psi2_1 -v 135 *z psi3_1) /z 225) (e5_b4 c) in
    let b5 := mask_set big (((-313) *z psi1_1 +v 883 *z psi2_1 -v 90 *z psi3_1) /z 1350) (e5_b5 c) in
    let b6 := mask_set big ((509 *z psi1_1 -v 2129 *z psi2_1 +v 1830 *z psi3_1) /z 2700) (e5_b6 c) in
    (* small modes *)
    let factor (f : T F) (x : E A) := emul A (eofT A f) x in
    let q4 := factor (q 1 4) in
    let q2 := factor (q 1 2) in
    let q34 := factor (q 3 4) in
    let q1 := factor (tofZ F 1) in
    let avg f g := fun i => contour_avg A cfg h (f A) g (z i) in
    let psi1_14 := avg (@psi1 F) q4 in
    let psi2_14 := avg (@psi2 F) q4 in
    let psi1_12 := avg (@psi1 F) q2 in
    let psi2_12 := avg (@psi2 F) q2 in
    let psi1_34 := avg (@psi1 F) q34 in
    let psi2_34 := avg (@psi2 F) q34 in
    let psi1_1 := avg (@psi1 F) q1 in
    let psi2_1 := avg (@psi2 F) q1 in
    let psi3_1 := avg (@psi3 F) q1 in
    let a21 := mask_set small (psi1_14 /z 4) a21 in
    let a31 := mask_set small ((psi1_14 -v psi2_14 /z 2) /z 4) a31 in
    let a32 := mask_set small (psi2_14 /z 8) a32 in
    let a41 := mask_set small ((psi1_12 -v psi2_12) /z 2) a41 in
    let a43 := mask_set small (psi2_12 /z 2) a43 in
    let a51 := mask_set small (3 *z (psi1_34 -v 3 *z psi2_34 /z 4) /z 4) a51 in
    let a52 := mask_set small ((-3) *z psi1_34 /z 8) a52 in
    let a54 := mask_set small (9 *z psi2_34 /z 16) a54 in
    let a61 := mask_set small (((-77) *z psi1_1 +v 59 *z psi2_1) /z 42) a61 in
    let a62 := mask_set small (8 *z psi1_1 /z 7) a62 in
    let a63 := mask_set small ((111 *z psi1_1 -v 87 *z psi2_1) /z 28) a63 in
    let a65 := mask_set small (((-47) *z psi1_1 +v 143 *z psi2_1) /z 84) a65 in
    let b1 := mask_set small (7 *z (257 *z psi1_1 -v 497 *z psi2_1 +v 270 *z psi3_1) /z 2700) b1 in
    let b3 := mask_set small ((1097 *z psi1_1 -v 467 *z psi2_1 -v 150 *z psi3_1) /z 1350) b3 in
    let b4 := mask_set small (2 *z ((-49) *z psi1_1 +v 199 *z psi2_1 -v 135 *z psi3_1) /z 225) b4 in
    let b5 := mask_set small (((-313) *z psi1_1 +v 883 *z psi2_1 -v 90 *z psi3_1) /z 1350) b5 in
    let b6 := mask_set small ((509 *z psi1_1 -v 2129 *z psi2_1 +v 1830 *z psi3_1) /z 2700) b6 in
    (inr tt, mk_etd5_coefs EL14 EL12 EL34 EL a21 a31 a32 a41 a43 a51 a52 a54 a61 a62 a63 a65 b1 b3 b4 b5 b6).

  (** ** Coefficients of the matrix strategies *)

  (** rkstiff/etd5.py:387-401, etd35.py:627-640: one pass over the contour points. *)
  Fixpoint etd5_contour (z : mat) (pts : list (E A)) (p : psis5 mat) : exn + psis5 mat :=
    match pts with
    | [] => inr p
    | pt :: pts =>
        match inv (mscale pt (eye A) -m z /zm 4) with
        | inl e => inl e
        | inr Q14 =>
        match inv (mscale pt (eye A) -m z /zm 2) with
        | inl e => inl e
        | inr Q12 =>
        match inv (mscale pt (eye A) -m 3 *zm z /zm 4) with
        | inl e => inl e
        | inr Q34 =>
        match inv (mscale pt (eye A) -m z) with
        | inl e => inl e
        | inr Q =>
            let term (f : E A) (m : mat) := mscale (emul A pt f) m /sm npts cfg in
            etd5_contour z pts
              (mk_psis5
                 (p5_14a p +m term (psi1 A pt) Q14) (p5_14b p +m term (psi2 A pt) Q14)
                 (p5_12a p +m term (psi1 A pt) Q12) (p5_12b p +m term (psi2 A pt) Q12)
                 (p5_34a p +m term (psi1 A pt) Q34) (p5_34b p +m term (psi2 A pt) Q34)
                 (p5_1 p +m term (psi1 A pt) Q) (p5_2 p +m term (psi2 A pt) Q)
                 (p5_3 p +m term (psi3 A pt) Q))
        end end end end
    end.

  (** rkstiff/etd5.py:360-420, etd35.py:602-658 (the same statements). *)
  Definition etd5n_coeffs (L : mat) (h : T F) (c : etd5_coefs mat) : (exn + unit) * etd5_coefs mat :=
    let z := h *sm L in
    let keep EL14 EL12 EL34 EL :=
      mk_etd5_coefs EL14 EL12 EL34 EL
        (e5_a21 c) (e5_a31 c) (e5_a32 c) (e5_a41 c) (e5_a43 c) (e5_a51 c) (e5_a52 c) (e5_a54 c) 
        (e5_a61 c) (e5_a62 c) (e5_a63 c) (e5_a65 c) 
        (e5_b1 c) (e5_b3 c) (e5_b4 c) (e5_b5 c) (e5_b6 c) in
    match expm (z /zm 4) with
    | inl e => (inl e, c)
    | inr EL14 =>
    match expm (z /zm 2) with
    | inl e => (inl e, keep EL14 (e5_EL12 c) (e5_EL34 c) (e5_EL c))
    | inr EL12 =>
    match expm (3 *zm z /zm 4) with
    | inl e => (inl e, keep EL14 EL12 (e5_EL34 c) (e5_EL c))
    | inr EL34 =>
    match expm z with
    | inl e => (inl e, keep EL14 EL12 EL34 (e5_EL c))
    | inr EL =>
    match etd5_contour z (nodes A cfg)
            (mk_psis5 (mzero A) (mzero A) (mzero A) (mzero A) (mzero A) (mzero A)
                      (mzero A) (mzero A) (mzero A)) with
    | inl e => (inl e, keep EL14 EL12 EL34 EL)
    | inr (mk_psis5 psi1_14 psi2_14 psi1_12 psi2_12 psi1_34 psi2_34 psi1_1 psi2_1 psi3_1) =>
        (inr tt,
         mk_etd5_coefs EL14 EL12 EL34 EL
           (h *sm psi1_14 /zm 4)
           (h *sm (psi1_14 -m psi2_14 /zm 2) /zm 4)
           (h *sm psi2_14 /zm 8)
           (h *sm (psi1_12 -m psi2_12) /zm 2)
           (h *sm psi2_12 /zm 2)
           (tmul F h (tofZ F 3) *sm (psi1_34 -m 3 *zm psi2_34 /zm 4) /zm 4)
           (tmul F (tofZ F (-3)) h *sm psi1_34 /zm 8)
           (tmul F h (tofZ F 9) *sm psi2_34 /zm 16)
           (h *sm ((-77) *zm psi1_1 +m 59 *zm psi2_1) /zm 42)
           (tmul F h (tofZ F 8) *sm psi1_1 /zm 7)
           (h *sm (111 *zm psi1_1 -m 87 *zm psi2_1) /zm 28)
           (h *sm ((-47) *zm psi1_1 +m 143 *zm psi2_1) /zm 84)
           (tmul F h (tofZ F 7) *sm (257 *zm psi1_1 -m 497 *zm psi2_1 +m 270 *zm psi3_1) /zm 2700)
           (h *sm (1097 *zm psi1_1 -m 467 *zm psi2_1 -m 150 *zm psi3_1) /zm 1350)
           (tmul F h (tofZ F 2) *sm ((-49) *zm psi1_1 +m 199 *zm psi2_1 -m 135 *zm psi3_1) /zm 225)
           (h *sm ((-313) *zm psi1_1 +m 883 *zm psi2_1 -m 90 *zm psi3_1) /zm 1350)
           (h *sm (509 *zm psi1_1 -m 2129 *zm psi2_1 +m 1830 *zm psi3_1) /zm 2700))
    end end end end end.

  (** ** ETD5 stages *)
  Section ETD5Diagonal.
    Variable L : vec.
    Notation st := (sst (T F) (etd5_coefs vec) (mem1 vec)).

    (** rkstiff/etd5.py:205-217 *)
    Definition etd5d_init (u : vec) : M st W unit :=
      n1 <- call nl u ;; upd (set_mem (mk_mem1 n1)).

    (** rkstiff/etd5.py:219-261 *)
    Definition etd5d_stages (u : vec) (h : T F) : M st W vec :=
      c <- get coefs ;;
      m <- get mem ;;
      let NL1 := m1_NL1 m in
      NL2 <- call nl (e5_EL14 c *v u +v e5_a21 c *v NL1) ;;
      NL3 <- call nl (e5_EL14 c *v u +v e5_a31 c *v NL1 +v e5_a32 c *v NL2) ;;
      NL4 <- call nl (e5_EL12 c *v u +v e5_a41 c *v NL1 +v e5_a43 c *v NL3) ;;
      NL5 <- call nl (e5_EL34 c *v u +v e5_a51 c *v NL1 +v e5_a52 c *v (NL2 -v NL3)
                      +v e5_a54 c *v NL4) ;;
      NL6 <- call nl (e5_EL c *v u +v e5_a61 c *v NL1 +v e5_a62 c *v (NL2 -v 3 *z NL4 /z 2)
                      +v e5_a63 c *v NL3 +v e5_a65 c *v NL5) ;;
      let k := e5_EL c *v u +v e5_b1 c *v NL1 +v e5_b3 c *v NL3 +v e5_b4 c *v NL4
               +v e5_b5 c *v NL5 +v e5_b6 c *v NL6 in
      NL1' <- call nl k ;;
      upd (set_mem (mk_mem1 NL1')) ;;;
      ret k.

    Definition etd5_diag : csm (T F) vec W :=
      cs_solver F vec W (etd5_coefs vec) (mem1 vec) (etd5d_coeffs L) etd5d_init etd5d_stages.
  End ETD5Diagonal.

  Section ETD5NonDiagonal.
    Variable L : mat.
    Notation st := (sst (T F) (etd5_coefs mat) (mem1 vec)).

    (** rkstiff/etd5.py:422-433 *)
    Definition etd5n_init (u : vec) : M st W unit :=
      n1 <- call nl u ;; upd (set_mem (mk_mem1 n1)).

    (** rkstiff/etd5.py:435-482 *)
    Definition etd5n_stages (u : vec) (h : T F) : M st W vec :=
      c <- get coefs ;;
      m <- get mem ;;
      let NL1 := m1_NL1 m in
      NL2 <- call nl (e5_EL14 c @ u +v e5_a21 c @ NL1) ;;
      NL3 <- call nl (e5_EL14 c @ u +v e5_a31 c @ NL1 +v e5_a32 c @ NL2) ;;
      NL4 <- call nl (e5_EL12 c @ u +v e5_a41 c @ NL1 +v e5_a43 c @ NL3) ;;
      NL5 <- call nl (e5_EL34 c @ u +v e5_a51 c @ NL1 +v e5_a52 c @ (NL2 -v NL3)
                      +v e5_a54 c @ NL4) ;;
      NL6 <- call nl (e5_EL c @ u +v e5_a61 c @ NL1 +v e5_a62 c @ (NL2 -v 3 *z NL4 /z 2)
                      +v e5_a63 c @ NL3 +v e5_a65 c @ NL5) ;;
      let k := e5_EL c @ u +v e5_b1 c @ NL1 +v e5_b3 c @ NL3 +v e5_b4 c @ NL4
               +v e5_b5 c @ NL5 +v e5_b6 c @ NL6 in
      NL1' <- call nl k ;;
      upd (set_mem (mk_mem1 NL1')) ;;;
      ret k.

    Definition etd5_nondiag : csm (T F) vec W :=
      cs_solver F vec W (etd5_coefs mat) (mem1 vec) (etd5n_coeffs L) etd5n_init etd5n_stages.
  End ETD5NonDiagonal.

  (** ** ETD35 stages. After an accepted step the first stage is evaluated again at the new state
      ([stage_init]); after a rejection the stored one is used. *)
  Section ETD35Diagonal.
    Variable L : vec.
    Notation st := (sst (T F) (etd5_coefs vec) (mem1 vec)).

    (** rkstiff/etd35.py:157-167 *)
    Definition etd35d_coeffs (h : T F) (c : etd5_coefs vec) := etd35_coeffs_of h (h *s L) c.

    (** rkstiff/etd35.py:290-299 *)
    Definition etd35d_init (u : vec) : M st W unit :=
      n1 <- call nl u ;; upd (set_mem (mk_mem1 n1)).

    (** rkstiff/etd35.py:301-345 *)
    Definition etd35d_stages (accept : bool) (u : vec) (h : T F) : M st W (vec * vec) :=
      (if accept then etd35d_init u else ret tt) ;;;
      c <- get coefs ;;
      m <- get mem ;;
      let NL1 := m1_NL1 m in
      NL2 <- call nl (e5_EL14 c *v u +v e5_a21 c *v NL1) ;;
      NL3 <- call nl (e5_EL14 c *v u +v e5_a31 c *v NL1 +v e5_a32 c *v NL2) ;;
      NL4 <- call nl (e5_EL12 c *v u +v e5_a41 c *v NL1 +v e5_a43 c *v NL3) ;;
      NL5 <- call nl (e5_EL34 c *v u +v e5_a51 c *v NL1 +v e5_a52 c *v (NL2 -v NL3)
                      +v e5_a54 c *v NL4) ;;
      NL6 <- call nl (e5_EL c *v u +v e5_a61 c *v NL1 +v e5_a62 c *v (NL2 -v 3 *z NL4 /z 2)
                      +v e5_a63 c *v NL3 +v e5_a65 c *v NL5) ;;
      let k := e5_EL c *v u +v e5_b1 c *v NL1 +v e5_b3 c *v NL3 +v e5_b4 c *v NL4
               +v e5_b5 c *v NL5 +v e5_b6 c *v NL6 in
      ret (k, e5_b5 c *v (vneg NL1 +v 4 *z NL3 -v 6 *z NL4 +v 4 *z NL5 -v NL6)).

    Definition etd35_diag : asm (T F) vec W :=
      as_solver F vec W (etd5_coefs vec) (mem1 vec) etd35d_coeffs etd35d_init etd35d_stages.
  End ETD35Diagonal.

  Section ETD35Diagonalized.
    (** Eigenvectors, inverse, eigenvalues from the constructor (rkstiff/etd35.py:388-421). *)
    Variables (Smat Sinv : mat) (lam : vec).
    Notation st := (sst (T F) (etd5_coefs vec) (mem4 vec)).

    (** rkstiff/etd35.py:423-433 *)
    Definition etd35z_coeffs (h : T F) (c : etd5_coefs vec) := etd35_coeffs_of h (h *s lam) c.

    (** rkstiff/etd35.py:436-446 *)
    Definition etd35z_init (u : vec) : M st W unit :=
      n1 <- call nl u ;; upd (set_mem (mk_mem4 (Sinv @ n1) (Sinv @ u))).

    (** rkstiff/etd35.py:448-495 *)
    Definition etd35z_stages (accept : bool) (u : vec) (h : T F) : M st W (vec * vec) :=
      (if accept then etd35z_init u else ret tt) ;;;
      c <- get coefs ;;
      m <- get mem ;;
      let NL1 := m4_NL1 m in
      let v := m4_v m in
      r2 <- call nl (Smat @ (e5_EL14 c *v v +v e5_a21 c *v NL1)) ;;
      let NL2 := Sinv @ r2 in
      r3 <- call nl (Smat @ (e5_EL14 c *v v +v e5_a31 c *v NL1 +v e5_a32 c *v NL2)) ;;
      let NL3 := Sinv @ r3 in
      r4 <- call nl (Smat @ (e5_EL12 c *v v +v e5_a41 c *v NL1 +v e5_a43 c *v NL3)) ;;
      let NL4 := Sinv @ r4 in
      r5 <- call nl (Smat @ (e5_EL34 c *v v +v e5_a51 c *v NL1 +v e5_a52 c *v (NL2 -v NL3)
                      +v e5_a54 c *v NL4)) ;;
      let NL5 := Sinv @ r5 in
      r6 <- call nl (Smat @ (e5_EL c *v v +v e5_a61 c *v NL1 +v e5_a62 c *v (NL2 -v 3 *z NL4 /z 2)
                      +v e5_a63 c *v NL3 +v e5_a65 c *v NL5)) ;;
      let NL6 := Sinv @ r6 in
      let k := e5_EL c *v v +v e5_b1 c *v NL1 +v e5_b3 c *v NL3 +v e5_b4 c *v NL4
               +v e5_b5 c *v NL5 +v e5_b6 c *v NL6 in
      ret (Smat @ k, e5_b5 c *v (vneg NL1 +v 4 *z NL3 -v 6 *z NL4 +v 4 *z NL5 -v NL6)).

    Definition etd35_diagonalized : asm (T F) vec W :=
      as_solver F vec W (etd5_coefs vec) (mem4 vec) etd35z_coeffs etd35z_init etd35z_stages.
  End ETD35Diagonalized.

  Section ETD35NonDiagonal.
    Variable L : mat.
    Notation st := (sst (T F) (etd5_coefs mat) (mem1 vec)).

    (** rkstiff/etd35.py:660-669 *)
    Definition etd35n_init (u : vec) : M st W unit :=
      n1 <- call nl u ;; upd (set_mem (mk_mem1 n1)).

    (** rkstiff/etd35.py:671-720 *)
    Definition etd35n_stages (accept : bool) (u : vec) (h : T F) : M st W (vec * vec) :=
      (if accept then etd35n_init u else ret tt) ;;;
      c <- get coefs ;;
      m <- get mem ;;
      let NL1 := m1_NL1 m in
      NL2 <- call nl (e5_EL14 c @ u +v e5_a21 c @ NL1) ;;
      NL3 <- call nl (e5_EL14 c @ u +v e5_a31 c @ NL1 +v e5_a32 c @ NL2) ;;
      NL4 <- call nl (e5_EL12 c @ u +v e5_a41 c @ NL1 +v e5_a43 c @ NL3) ;;
      NL5 <- call nl (e5_EL34 c @ u +v e5_a51 c @ NL1 +v e5_a52 c @ (NL2 -v NL3)
                      +v e5_a54 c @ NL4) ;;
      NL6 <- call nl (e5_EL c @ u +v e5_a61 c @ NL1 +v e5_a62 c @ (NL2 -v 3 *z NL4 /z 2)
                      +v e5_a63 c @ NL3 +v e5_a65 c @ NL5) ;;
      let k := e5_EL c @ u +v e5_b1 c @ NL1 +v e5_b3 c @ NL3 +v e5_b4 c @ NL4
               +v e5_b5 c @ NL5 +v e5_b6 c @ NL6 in
      ret (k, e5_b5 c @ (vneg NL1 +v 4 *z NL3 -v 6 *z NL4 +v 4 *z NL5 -v NL6)).

    Definition etd35_nondiag : asm (T F) vec W :=
      as_solver F vec W (etd5_coefs mat) (mem1 vec) (etd5n_coeffs L) etd35n_init etd35n_stages.
  End ETD35NonDiagonal.

End ETD5.
