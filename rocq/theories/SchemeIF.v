(** * Integrating-factor solvers: IF4, IF34, IF45DP

    Models of [rkstiff/if4.py], [rkstiff/if34.py], [rkstiff/if45dp.py], statement by statement,
    over any arithmetic. [nl] is the user's nonlinear function, [expm] is
    [scipy.linalg.expm] (may raise). The [mem] fields are the arrays that survive a call. *)

From Coq Require Import ZArith List Bool.
From Verif Require Import Scalars Control Arrays SchemeBase.
Import ListNotations.
Local Open Scope m_scope.
Local Open Scope arr_scope.
Local Open Scope Z_scope.

(** Cached exponentials [_EL], [_EL2] (rkstiff/if4.py:68, 147; if34.py:74, 220): 1-D arrays for
    the diagonal strategies, matrices for the others. *)
Record if_coefs (X : Type) := mk_if_coefs { if_EL : X; if_EL2 : X }.
Arguments mk_if_coefs {X}.  Arguments if_EL {X} i.  Arguments if_EL2 {X} i.

(** Coefficients of IF45DP (rkstiff/if45dp.py:71-98); [_a76], [_r6], [_r7] are scalars. *)
Record dp_coefs (V S : Type) := mk_dp_coefs {
  dp_EL15 : V; dp_EL310 : V; dp_EL45 : V; dp_EL89 : V; dp_EL : V;
  dp_a21 : V; dp_a31 : V; dp_a32 : V; dp_a41 : V; dp_a42 : V; dp_a43 : V;
  dp_a51 : V; dp_a52 : V; dp_a53 : V; dp_a54 : V;
  dp_a61 : V; dp_a62 : V; dp_a63 : V; dp_a64 : V; dp_a65 : V;
  dp_a71 : V; dp_a73 : V; dp_a74 : V; dp_a75 : V; dp_a76 : S;
  dp_r1 : V; dp_r3 : V; dp_r4 : V; dp_r5 : V; dp_r6 : S; dp_r7 : S }.
Arguments mk_dp_coefs {V S}.
Arguments dp_EL15 {V S} d.  Arguments dp_EL310 {V S} d.  Arguments dp_EL45 {V S} d.
Arguments dp_EL89 {V S} d.  Arguments dp_EL {V S} d.
Arguments dp_a21 {V S} d.  Arguments dp_a31 {V S} d.  Arguments dp_a32 {V S} d.
Arguments dp_a41 {V S} d.  Arguments dp_a42 {V S} d.  Arguments dp_a43 {V S} d.
Arguments dp_a51 {V S} d.  Arguments dp_a52 {V S} d.  Arguments dp_a53 {V S} d.
Arguments dp_a54 {V S} d.  Arguments dp_a61 {V S} d.  Arguments dp_a62 {V S} d.
Arguments dp_a63 {V S} d.  Arguments dp_a64 {V S} d.  Arguments dp_a65 {V S} d.
Arguments dp_a71 {V S} d.  Arguments dp_a73 {V S} d.  Arguments dp_a74 {V S} d.
Arguments dp_a75 {V S} d.  Arguments dp_a76 {V S} d.
Arguments dp_r1 {V S} d.  Arguments dp_r3 {V S} d.  Arguments dp_r4 {V S} d.
Arguments dp_r5 {V S} d.  Arguments dp_r6 {V S} d.  Arguments dp_r7 {V S} d.

Section IF.
  Variable F : tops.
  Variable A : aops F.
  Variable W : Type.
  Notation vec := (vec A).
  Notation mat := (mat A).
  Variable nl : vec -> W -> (exn + vec) * W.
  (** Matrix size, [scipy.linalg.expm], and the eigendecomposition computed by the constructor of
      the diagonalized strategy. *)
  Variable n : nat.
  Variable expm : mat -> exn + mat.
  Notation "m @ v" := (emdot A n m v) (at level 35, right associativity).

  (** ** IF4, 1-D operator *)
  Section IF4Diagonal.
    Variable L : vec.
    Notation st := (sst (T F) (if_coefs vec) (mem1 vec)).

    (** rkstiff/if4.py:72-83 *)
    Definition if4d_coeffs (h : T F) (c : if_coefs vec) : (exn + unit) * if_coefs vec :=
      let z := h *s L in
      (inr tt, mk_if_coefs (vexp z) (vexp (z /z 2))).

    (** rkstiff/if4.py:85-94 *)
    Definition if4d_init (u : vec) : M st W unit :=
      n1 <- call nl u ;; upd (set_mem (mk_mem1 n1)).

    (** rkstiff/if4.py:96-122 *)
    Definition if4d_stages (u : vec) (h : T F) : M st W vec :=
      c <- get coefs ;;
      m <- get mem ;;
      let EL := if_EL c in let EL2 := if_EL2 c in let NL1 := m1_NL1 m in
      NL2 <- call nl (EL2 *v u +v h *s EL2 *v NL1 /z 2) ;;
      NL3 <- call nl (EL2 *v u +v h *s NL2 /z 2) ;;
      NL4 <- call nl (EL *v u +v h *s EL2 *v NL3) ;;
      let k := EL *v u +v h *s (EL *v NL1 /z 6 +v EL2 *v NL2 /z 3 +v EL2 *v NL3 /z 3 +v NL4 /z 6) in
      NL1' <- call nl k ;;
      upd (set_mem (mk_mem1 NL1')) ;;;
      ret k.

    Definition if4_diag : csm (T F) vec W :=
      cs_solver F vec W (if_coefs vec) (mem1 vec) if4d_coeffs if4d_init if4d_stages.
  End IF4Diagonal.

  (** ** IF4, matrix operator *)
  Section IF4NonDiagonal.
    Variable L : mat.
    Notation st := (sst (T F) (if_coefs mat) (mem1 vec)).

    (** rkstiff/if4.py:152-164. [expm] may raise between the two assignments. *)
    Definition if4n_coeffs (h : T F) (c : if_coefs mat) : (exn + unit) * if_coefs mat :=
      let z := h *sm L in
      match expm z with
      | inl e => (inl e, c)
      | inr EL =>
          match expm (z /zm 2) with
          | inl e => (inl e, mk_if_coefs EL (if_EL2 c))
          | inr EL2 => (inr tt, mk_if_coefs EL EL2)
          end
      end.

    (** rkstiff/if4.py:166-168 *)
    Definition if4n_init (u : vec) : M st W unit :=
      n1 <- call nl u ;; upd (set_mem (mk_mem1 n1)).

    (** rkstiff/if4.py:170-199 *)
    Definition if4n_stages (u : vec) (h : T F) : M st W vec :=
      c <- get coefs ;;
      m <- get mem ;;
      let EL := if_EL c in let EL2 := if_EL2 c in let NL1 := m1_NL1 m in
      NL2 <- call nl (EL2 @ u +v h *s (EL2 @ (NL1 /z 2))) ;;
      NL3 <- call nl (EL2 @ u +v h *s NL2 /z 2) ;;
      NL4 <- call nl (EL @ u +v h *s (EL2 @ NL3)) ;;
      let k := EL @ u +v h *s (EL @ (NL1 /z 6) +v EL2 @ (NL2 /z 3) +v EL2 @ (NL3 /z 3) +v NL4 /z 6) in
      NL1' <- call nl k ;;
      upd (set_mem (mk_mem1 NL1')) ;;;
      ret k.

    Definition if4_nondiag : csm (T F) vec W :=
      cs_solver F vec W (if_coefs mat) (mem1 vec) if4n_coeffs if4n_init if4n_stages.
  End IF4NonDiagonal.

  (** ** IF34, 1-D operator *)
  Section IF34Diagonal.
    Variable L : vec.
    Notation st := (sst (T F) (if_coefs vec) (mem2 vec)).

    (** rkstiff/if34.py:81-93 *)
    Definition if34d_coeffs (h : T F) (c : if_coefs vec) : (exn + unit) * if_coefs vec :=
      let z := h *s L in
      (inr tt, mk_if_coefs (vexp z) (vexp (z /z 2))).

    (** rkstiff/if34.py:95-97 *)
    Definition if34d_init (u : vec) : M st W unit :=
      n1 <- call nl u ;;
      m <- get mem ;;
      upd (set_mem (mk_mem2 n1 (m2_NLn m))).

    (** rkstiff/if34.py:99-131 *)
    Definition if34d_stages (accept : bool) (u : vec) (h : T F) : M st W (vec * vec) :=
      c <- get coefs ;;
      m <- get mem ;;
      let NL1 := if accept then m2_NLn m else m2_NL1 m in
      upd (set_mem (mk_mem2 NL1 (m2_NLn m))) ;;;
      let EL := if_EL c in let EL2 := if_EL2 c in
      NL2 <- call nl (EL2 *v u +v h *s EL2 *v NL1 /z 2) ;;
      NL3 <- call nl (EL2 *v u +v h *s NL2 /z 2) ;;
      NL4 <- call nl (EL *v u +v h *s EL2 *v NL3) ;;
      let k := EL *v u +v h *s (EL *v NL1 /z 6 +v EL2 *v NL2 /z 3 +v EL2 *v NL3 /z 3 +v NL4 /z 6) in
      NL5 <- call nl k ;;
      upd (set_mem (mk_mem2 NL1 NL5)) ;;;
      ret (k, h *s (NL4 -v NL5) /z 6).

    Definition if34_diag : asm (T F) vec W :=
      as_solver F vec W (if_coefs vec) (mem2 vec) if34d_coeffs if34d_init if34d_stages.
  End IF34Diagonal.

  (** ** IF34, diagonalized matrix operator: [Smat], [Sinv], [lam] are the eigenvectors, their
      inverse and the eigenvalues found by the constructor (rkstiff/if34.py:149-166) *)
  Section IF34Diagonalized.
    Variables (Smat Sinv : mat) (lam : vec).
    Notation st := (sst (T F) (if_coefs vec) (mem3 vec)).

    (** rkstiff/if34.py:168-172 *)
    Definition if34z_coeffs (h : T F) (c : if_coefs vec) : (exn + unit) * if_coefs vec :=
      let z := h *s lam in
      (inr tt, mk_if_coefs (vexp z) (vexp (z /z 2))).

    (** rkstiff/if34.py:174-177 *)
    Definition if34z_init (u : vec) : M st W unit :=
      n1 <- call nl u ;;
      m <- get mem ;;
      upd (set_mem (mk_mem3 (Sinv @ n1) (m3_NLn m) (Sinv @ u))).

    (** rkstiff/if34.py:179-196. [nlz k] is [Sinv.dot(nl_func(S.dot(k)))]. *)
    Definition if34z_stages (accept : bool) (u : vec) (h : T F) : M st W (vec * vec) :=
      c <- get coefs ;;
      m <- get mem ;;
      let NL1 := if accept then m3_NLn m else m3_NL1 m in
      let v := if accept then Sinv @ u else m3_v m in
      upd (set_mem (mk_mem3 NL1 (m3_NLn m) v)) ;;;
      let EL := if_EL c in let EL2 := if_EL2 c in
      r2 <- call nl (Smat @ (EL2 *v v +v h *s EL2 *v NL1 /z 2)) ;; let NL2 := Sinv @ r2 in
      r3 <- call nl (Smat @ (EL2 *v v +v h *s NL2 /z 2)) ;; let NL3 := Sinv @ r3 in
      r4 <- call nl (Smat @ (EL *v v +v h *s EL2 *v NL3)) ;; let NL4 := Sinv @ r4 in
      let k := EL *v v +v h *s (EL *v NL1 /z 6 +v EL2 *v NL2 /z 3 +v EL2 *v NL3 /z 3 +v NL4 /z 6) in
      r5 <- call nl (Smat @ k) ;; let NL5 := Sinv @ r5 in
      upd (set_mem (mk_mem3 NL1 NL5 v)) ;;;
      ret (Smat @ k, h *s (NL4 -v NL5) /z 6).

    Definition if34_diagonalized : asm (T F) vec W :=
      as_solver F vec W (if_coefs vec) (mem3 vec) if34z_coeffs if34z_init if34z_stages.
  End IF34Diagonalized.

  (** ** IF34, matrix operator *)
  Section IF34NonDiagonal.
    Variable L : mat.
    Notation st := (sst (T F) (if_coefs mat) (mem2 vec)).

    (** rkstiff/if34.py:225-229 *)
    Definition if34n_coeffs (h : T F) (c : if_coefs mat) : (exn + unit) * if_coefs mat :=
      let z := h *sm L in
      match expm z with
      | inl e => (inl e, c)
      | inr EL =>
          match expm (z /zm 2) with
          | inl e => (inl e, mk_if_coefs EL (if_EL2 c))
          | inr EL2 => (inr tt, mk_if_coefs EL EL2)
          end
      end.

    (** rkstiff/if34.py:231-233 *)
    Definition if34n_init (u : vec) : M st W unit :=
      n1 <- call nl u ;;
      m <- get mem ;;
      upd (set_mem (mk_mem2 n1 (m2_NLn m))).

    (** rkstiff/if34.py:235-254 *)
    Definition if34n_stages (accept : bool) (u : vec) (h : T F) : M st W (vec * vec) :=
      c <- get coefs ;;
      m <- get mem ;;
      let NL1 := if accept then m2_NLn m else m2_NL1 m in
      upd (set_mem (mk_mem2 NL1 (m2_NLn m))) ;;;
      let EL := if_EL c in let EL2 := if_EL2 c in
      NL2 <- call nl (EL2 @ u +v h *s (EL2 @ (NL1 /z 2))) ;;
      NL3 <- call nl (EL2 @ u +v h *s NL2 /z 2) ;;
      NL4 <- call nl (EL @ u +v h *s (EL2 @ NL3)) ;;
      let k := EL @ u +v h *s (EL @ (NL1 /z 6) +v EL2 @ (NL2 /z 3) +v EL2 @ (NL3 /z 3) +v NL4 /z 6) in
      NL5 <- call nl k ;;
      upd (set_mem (mk_mem2 NL1 NL5)) ;;;
      ret (k, h *s (NL4 -v NL5) /z 6).

    Definition if34_nondiag : asm (T F) vec W :=
      as_solver F vec W (if_coefs mat) (mem2 vec) if34n_coeffs if34n_init if34n_stages.
  End IF34NonDiagonal.

  (** ** IF45DP (1-D operators only) *)
  Section IF45DP.
    Variable L : vec.
    Notation K := (dp_coefs vec (T F)).
    Notation st := (sst (T F) K (mem2 vec)).

    (** rkstiff/if45dp.py:183-238 (after the test on [_h_coeff], which is [s_update_coeffs]).
        [q z] below is the Python integer times a float: [19372 * h] is computed first. *)
    Definition dp_coeffs (h : T F) (c : K) : (exn + unit) * K :=
      let zh (q : Z) := tmul F (tofZ F q) h in
      let z := h *s L in
      let EL15 := vexp (z /z 5) in
      let EL310 := vexp (3 *z z /z 10) in
      let EL45 := vexp (4 *z z /z 5) in
      let EL89 := vexp (8 *z z /z 9) in
      let EL := vexp z in
      let EL710 := vexp (7 *z z /z 10) in
      let EL19 := vexp (z /z 9) in
      (inr tt,
       mk_dp_coefs EL15 EL310 EL45 EL89 EL
         (h *s EL15 /z 5)
         (zh 3 *s EL310 /z 40)
         (zh 9 *s vexp (z /z 10) /z 40)
         (zh 44 *s EL45 /z 45)
         (zh (-56) *s vexp (3 *z z /z 5) /z 15)
         (zh 32 *s vexp (z /z 2) /z 9)
         (zh 19372 *s EL89 /z 6561)
         (zh (-25360) *s vexp (31 *z z /z 45) /z 2187)
         (zh 64448 *s vexp (53 *z z /z 90) /z 6561)
         (zh (-212) *s vexp (4 *z z /z 45) /z 729)
         (zh 9017 *s EL /z 3168)
         (zh (-355) *s EL45 /z 33)
         (zh 46732 *s EL710 /z 5247)
         (zh 49 *s EL15 /z 176)
         (zh (-5103) *s EL19 /z 18656)
         (* _a71 _a73 _a74 _a75 _a76 *)
         (zh 35 *s EL /z 384)
         (zh 500 *s EL710 /z 1113)
         (zh 125 *s EL15 /z 192)
         (zh (-2187) *s EL19 /z 6784)
         (tdiv F (zh 11) (tofZ F 84))
         (* _r1 _r3 _r4 _r5 _r6 _r7 *)
         (tmul F h (tofZ F 71) *s EL /z 57600)
         (zh (-71) *s EL710 /z 16695)
         (zh 17 *s EL15 /z 1920)
         (zh (-17253) *s EL19 /z 339200)
         (tdiv F (zh 22) (tofZ F 525))
         (tdiv F (zh (-1)) (tofZ F 40))).

    (** rkstiff/if45dp.py:112-181 [_update_stages]: here the re-use of the last stage is in the
        [elif] branch of the initialisation test. *)
    Definition dp_update_stages (accept : bool) (u : vec) (h : T F) : M st W (vec * vec) :=
      s_update_coeffs F W K (mem2 vec) dp_coeffs h ;;;
      b <- get n1_init ;;
      (if b then
         (if accept then (m <- get mem ;; upd (set_mem (mk_mem2 (m2_NLn m) (m2_NLn m)))) else ret tt)
       else
         (n1 <- call nl u ;;
          m <- get mem ;;
          upd (set_mem (mk_mem2 n1 (m2_NLn m))) ;;;
          upd (set_init true))) ;;;
      c <- get coefs ;;
      m <- get mem ;;
      let NL1 := m2_NL1 m in
      NL2 <- call nl (dp_EL15 c *v u +v dp_a21 c *v NL1) ;;
      NL3 <- call nl (dp_EL310 c *v u +v dp_a31 c *v NL1 +v dp_a32 c *v NL2) ;;
      NL4 <- call nl (dp_EL45 c *v u +v dp_a41 c *v NL1 +v dp_a42 c *v NL2 +v dp_a43 c *v NL3) ;;
      NL5 <- call nl (dp_EL89 c *v u +v dp_a51 c *v NL1 +v dp_a52 c *v NL2 +v dp_a53 c *v NL3
                      +v dp_a54 c *v NL4) ;;
      NL6 <- call nl (dp_EL c *v u +v dp_a61 c *v NL1 +v dp_a62 c *v NL2 +v dp_a63 c *v NL3
                      +v dp_a64 c *v NL4 +v dp_a65 c *v NL5) ;;
      let k := dp_EL c *v u +v dp_a71 c *v NL1 +v dp_a73 c *v NL3 +v dp_a74 c *v NL4
               +v dp_a75 c *v NL5 +v dp_a76 c *s NL6 in
      NL7 <- call nl k ;;
      upd (set_mem (mk_mem2 NL1 NL7)) ;;;
      let err := dp_r1 c *v NL1 +v dp_r3 c *v NL3 +v dp_r4 c *v NL4 +v dp_r5 c *v NL5
                 +v dp_r6 c *s NL6 +v dp_r7 c *s NL7 in
      ret (k, err).

    Definition if45dp : asm (T F) vec W :=
      mk_asm (T F) vec W st (s_reset F K (mem2 vec)) dp_update_stages.
  End IF45DP.
End IF.
