(** * Arrays with shapes: the solvers when shapes are not taken for granted

    The other models take arrays to be 1-D of the length of the operator. Here an array carries
    its numpy shape; elementwise operations broadcast, [dot] contracts, and both raise ValueError
    for shapes that do not fit. The strategies are written out again, statement by statement, over
    such arrays. Coefficient arrays are those of the other models (they are computed by the
    solver itself from the operator, always with the right shapes).

    Simplifications: the nonlinear function returns arrays (a plain Python number, which has no
    [copy] method and no [shape], is not modelled; a 0-d array is); a product with a 2-D array is
    taken column by column with the same routine as a product with a 1-D array. *)

From Coq Require Import ZArith List Bool.
From Verif Require Import Scalars Control Arrays SchemeBase SchemeIF SchemeETD4 SchemeETD5 Solvers SchemeFamily.
Import ListNotations.
Local Open Scope m_scope.
Local Open Scope arr_scope.
Local Open Scope Z_scope.

(** ** Shapes *)

(** A shape as the list of its axis lengths, LAST axis first (numpy aligns shapes at the last
    axis): [a.shape == (2, 3)] is [[3; 2]], a 1-D array of length n is [[n]], a 0-d array []. *)
Definition shape := list nat.

(** numpy broadcasting of two axis lengths: equal, or one of them is 1. *)
Definition bcd (a b : nat) : option nat :=
  if Nat.eqb a b then Some a else if Nat.eqb a 1 then Some b else if Nat.eqb b 1 then Some a else None.
(** numpy broadcasting of two shapes: missing axes on the left count as 1. *)
Fixpoint bc (s t : shape) : option shape :=
  match s, t with
  | [], _ => Some t
  | _, [] => Some s
  | a :: s', b :: t' =>
      match bcd a b, bc s' t' with Some d, Some r => Some (d :: r) | _, _ => None end
  end.
(** Index into an operand of shape [s] that belongs to the index [idx] of the broadcast result of
    shape [t]: a stretched axis is read at 0, missing axes are dropped. *)
Fixpoint clip (s t : shape) (idx : list nat) : list nat :=
  match s, t, idx with
  | a :: s', b :: t', i :: idx' => (if Nat.eqb a b then i else 0%nat) :: clip s' t' idx'
  | _, _, _ => []
  end.

(** An array: shape and entries (indices in the order of the shape). *)
Record nd {F} (A : aops F) := mk_nd { sh : shape; el : list nat -> E A }.
Arguments mk_nd {F A}.  Arguments sh {F A} n.  Arguments el {F A} n _.

(** The value of an array expression: an array, or the exception its evaluation raises. *)
Definition sarr {F} (A : aops F) : Type := (exn + nd A)%type.
Definition okarr {F} {A : aops F} (x : nd A) : sarr A := inr x.
Coercion okarr : nd >-> sarr.

Section Ops.
  Variable F : tops.
  Variable A : aops F.
  Notation nd := (nd A).
  Notation vec := (vec A).
  Notation mat := (mat A).
  Notation sarr := (sarr A).

  Definition lift1 (f : nd -> sarr) (x : sarr) : sarr := match x with inl e => inl e | inr a => f a end.
  Definition lift2 (f : nd -> nd -> sarr) (x y : sarr) : sarr :=
    match x with inl e => inl e | inr a => match y with inl e => inl e | inr b => f a b end end.

  (** Elementwise operations with broadcasting ("operands could not be broadcast together" is a
      ValueError). *)
  Definition map2 (op : E A -> E A -> E A) (a b : nd) : sarr :=
    match bc (sh a) (sh b) with
    | None => inl ValueError
    | Some t => inr (mk_nd t (fun idx => op (el a (clip (sh a) t idx)) (el b (clip (sh b) t idx))))
    end.
  Definition map1 (op : E A -> E A) (a : nd) : sarr := inr (mk_nd (sh a) (fun idx => op (el a idx))).

  (** [a + b], [a - b], [-a], [c * a] and [a / c] for a Python scalar (or literal) [c]. *)
  Definition aadd : sarr -> sarr -> sarr := lift2 (map2 (eadd A)).
  Definition asub : sarr -> sarr -> sarr := lift2 (map2 (esub A)).
  Definition aneg : sarr -> sarr := lift1 (map1 (eneg A)).
  Definition ascal (c : T F) : sarr -> sarr := lift1 (map1 (fun x => emul A (eofT A c) x)).
  Definition adivs (x : sarr) (c : T F) : sarr := lift1 (map1 (fun x => ediv A x (eofT A c))) x.
  Definition ascalz (c : Z) : sarr -> sarr := ascal (tofZ F c).
  Definition adivz (x : sarr) (c : Z) : sarr := adivs x (tofZ F c).

  (** A coefficient array (1-D, length [n]) as an array. *)
  Definition of_vec (n : nat) (c : vec) : nd := mk_nd [n] (fun idx => c (hd 0%nat idx)).
  (** [c * a] for a coefficient array [c] of length [n]. *)
  Definition amul (n : nat) (c : vec) : sarr -> sarr := lift1 (map2 (emul A) (of_vec n c)).

  (** [m.dot(a)] for an n x n matrix: the last axis of [m] is contracted with the last but one
      axis of [a] (with the only axis if [a] is 1-D); "shapes not aligned" is a ValueError; a 0-d
      array is multiplied elementwise. *)
  Definition dot1 (n : nat) (m : mat) (a : nd) : sarr :=
    match sh a with
    | [] => inr (mk_nd [n; n] (fun idx => match idx with c :: r :: _ => emul A (m r c) (el a []) | _ => el a [] end))
    | [k] => if Nat.eqb k n then inr (mk_nd [n] (fun idx => emdot A n m (fun j => el a [j]) (hd 0%nat idx))) else inl ValueError
    | w :: k :: rest =>
        if Nat.eqb k n then
          inr (mk_nd (w :: rest ++ [n])
                 (fun idx => match idx with
                             | c :: b => emdot A n m (fun j => el a (c :: j :: removelast b)) (last b 0%nat)
                             | [] => el a []
                             end))
        else inl ValueError
    end.
  Definition adot (n : nat) (m : mat) : sarr -> sarr := lift1 (dot1 n m).
End Ops.
Arguments lift1 {F A} f x.  Arguments lift2 {F A} f x y.
Arguments map1 {F A} op a.  Arguments map2 {F A} op a b.
Arguments aadd {F A} _ _.  Arguments asub {F A} _ _.  Arguments aneg {F A} _.
Arguments ascal {F A} c _.  Arguments adivs {F A} x c.  Arguments ascalz {F A} c _.  Arguments adivz {F A} x c.
Arguments of_vec {F A} n c.  Arguments amul {F A} n c _.  Arguments dot1 {F A} n m a.  Arguments adot {F A} n m _.

(** Evaluation of an array expression inside a solver method. *)
Definition eval {F} {A : aops F} {S W} (x : sarr A) : M S W (nd A) := fun s w => (x, s, w).

(** ** The strategies *)
Section Strategies.
  Variable F : tops.
  Variable A : aops F.
  Variable W : Type.
  Notation nd := (nd A).
  Notation vec := (vec A).
  Notation mat := (mat A).
  (** The user's nonlinear function, on arrays of any shape. *)
  Variable nl : nd -> W -> (exn + nd) * W.
  (** Length of the operator. *)
  Variable n : nat.

  Infix "[+]" := aadd (at level 50, left associativity).
  Infix "[-]" := asub (at level 50, left associativity).
  Infix "[h*]" := ascal (at level 40, left associativity).
  Infix "[z*]" := ascalz (at level 40, left associativity).
  Infix "[/]" := adivz (at level 40, left associativity).
  Infix "[*]" := (amul n) (at level 40, left associativity).
  Infix "[@]" := (adot n) (at level 35, right associativity).

  (** [nl_func(expression)]: the expression is evaluated first. *)
  Definition ecall {S} (x : sarr A) : M S W nd := k <- eval x ;; call nl k.

  (** The surviving arrays. *)
  Definition getm {K} (X : Type) : M (sst (T F) K X) W X := get mem.

  (** ** IF4, 1-D operator *)
  (** rkstiff/if4.py:85-94 *)
  Definition s_if4d_init (u : nd) : M (sst (T F) (if_coefs vec) (mem1 nd)) W unit :=
      n1 <- call nl u ;; upd (set_mem (mk_mem1 n1)).

  (** rkstiff/if4.py:96-122 *)
  Definition s_if4d_stages (u : nd) (h : T F) : M (sst (T F) (if_coefs vec) (mem1 nd)) W nd :=
      c <- get coefs ;;
      m <- getm (mem1 nd) ;;
      let EL := if_EL c in let EL2 := if_EL2 c in let NL1 := m1_NL1 m in
      NL2 <- ecall (EL2 [*] u [+] h *s EL2 [*] NL1 [/] 2) ;;
      NL3 <- ecall (EL2 [*] u [+] h [h*] NL2 [/] 2) ;;
      NL4 <- ecall (EL [*] u [+] h *s EL2 [*] NL3) ;;
      k <- eval (EL [*] u [+] h [h*] (EL [*] NL1 [/] 6 [+] EL2 [*] NL2 [/] 3 [+] EL2 [*] NL3 [/] 3 [+] NL4 [/] 6)) ;;
      NL1' <- call nl k ;;
      upd (set_mem (mk_mem1 NL1')) ;;;
      ret k.

  (** ** IF4, matrix operator *)
  (** rkstiff/if4.py:166-168 *)
  Definition s_if4n_init (u : nd) : M (sst (T F) (if_coefs mat) (mem1 nd)) W unit :=
      n1 <- call nl u ;; upd (set_mem (mk_mem1 n1)).

  (** rkstiff/if4.py:170-199 *)
  Definition s_if4n_stages (u : nd) (h : T F) : M (sst (T F) (if_coefs mat) (mem1 nd)) W nd :=
      c <- get coefs ;;
      m <- getm (mem1 nd) ;;
      let EL := if_EL c in let EL2 := if_EL2 c in let NL1 := m1_NL1 m in
      NL2 <- ecall (EL2 [@] u [+] h [h*] (EL2 [@] (NL1 [/] 2))) ;;
      NL3 <- ecall (EL2 [@] u [+] h [h*] NL2 [/] 2) ;;
      NL4 <- ecall (EL [@] u [+] h [h*] (EL2 [@] NL3)) ;;
      k <- eval (EL [@] u [+] h [h*] (EL [@] (NL1 [/] 6) [+] EL2 [@] (NL2 [/] 3) [+] EL2 [@] (NL3 [/] 3) [+] NL4 [/] 6)) ;;
      NL1' <- call nl k ;;
      upd (set_mem (mk_mem1 NL1')) ;;;
      ret k.

  (** ** IF34, 1-D operator *)
  (** rkstiff/if34.py:95-97 *)
  Definition s_if34d_init (u : nd) : M (sst (T F) (if_coefs vec) (mem2 nd)) W unit :=
      n1 <- call nl u ;;
      m <- getm (mem2 nd) ;;
      upd (set_mem (mk_mem2 n1 (m2_NLn m))).

  (** rkstiff/if34.py:99-131 *)
  Definition s_if34d_stages (accept : bool) (u : nd) (h : T F) : M (sst (T F) (if_coefs vec) (mem2 nd)) W (nd * nd) :=
      c <- get coefs ;;
      m <- getm (mem2 nd) ;;
      let NL1 := if accept then m2_NLn m else m2_NL1 m in
      upd (set_mem (mk_mem2 NL1 (m2_NLn m))) ;;;
      let EL := if_EL c in let EL2 := if_EL2 c in
      NL2 <- ecall (EL2 [*] u [+] h *s EL2 [*] NL1 [/] 2) ;;
      NL3 <- ecall (EL2 [*] u [+] h [h*] NL2 [/] 2) ;;
      NL4 <- ecall (EL [*] u [+] h *s EL2 [*] NL3) ;;
      k <- eval (EL [*] u [+] h [h*] (EL [*] NL1 [/] 6 [+] EL2 [*] NL2 [/] 3 [+] EL2 [*] NL3 [/] 3 [+] NL4 [/] 6)) ;;
      NL5 <- call nl k ;;
      upd (set_mem (mk_mem2 NL1 NL5)) ;;;
      err <- eval (h [h*] (NL4 [-] NL5) [/] 6) ;;
      ret (k, err).

  (** ** IF34, diagonalized operator *)
  (** rkstiff/if34.py:174-177 *)
  Definition s_if34z_init (Sinv : mat) (u : nd) : M (sst (T F) (if_coefs vec) (mem3 nd)) W unit :=
      n1 <- call nl u ;;
      x <- eval (Sinv [@] n1) ;;
      m <- getm (mem3 nd) ;;
      upd (set_mem (mk_mem3 x (m3_NLn m) (m3_v m))) ;;;
      y <- eval (Sinv [@] u) ;;
      upd (set_mem (mk_mem3 x (m3_NLn m) y)).

  (** rkstiff/if34.py:179-196. [nlz k] is [Sinv.dot(nl_func(S.dot(k)))]. *)
  Definition s_if34z_stages (Smat Sinv : mat) (accept : bool) (u : nd) (h : T F) : M (sst (T F) (if_coefs vec) (mem3 nd)) W (nd * nd) :=
      c <- get coefs ;;
      m <- getm (mem3 nd) ;;
      let NL1 := if accept then m3_NLn m else m3_NL1 m in
      upd (set_mem (mk_mem3 NL1 (m3_NLn m) (m3_v m))) ;;;
      v <- (if accept then eval (Sinv [@] u) else ret (m3_v m)) ;;
      upd (set_mem (mk_mem3 NL1 (m3_NLn m) v)) ;;;
      let EL := if_EL c in let EL2 := if_EL2 c in
      r2 <- ecall (Smat [@] (EL2 [*] v [+] h *s EL2 [*] NL1 [/] 2)) ;; NL2 <- eval (Sinv [@] r2) ;;
      r3 <- ecall (Smat [@] (EL2 [*] v [+] h [h*] NL2 [/] 2)) ;; NL3 <- eval (Sinv [@] r3) ;;
      r4 <- ecall (Smat [@] (EL [*] v [+] h *s EL2 [*] NL3)) ;; NL4 <- eval (Sinv [@] r4) ;;
      k <- eval (EL [*] v [+] h [h*] (EL [*] NL1 [/] 6 [+] EL2 [*] NL2 [/] 3 [+] EL2 [*] NL3 [/] 3 [+] NL4 [/] 6)) ;;
      r5 <- ecall (Smat [@] k) ;; NL5 <- eval (Sinv [@] r5) ;;
      upd (set_mem (mk_mem3 NL1 NL5 v)) ;;;
      err <- eval (h [h*] (NL4 [-] NL5) [/] 6) ;;
      r <- eval (Smat [@] k) ;;
      ret (r, err).

  (** ** IF34, matrix operator *)
  (** rkstiff/if34.py:231-233 *)
  Definition s_if34n_init (u : nd) : M (sst (T F) (if_coefs mat) (mem2 nd)) W unit :=
      n1 <- call nl u ;;
      m <- getm (mem2 nd) ;;
      upd (set_mem (mk_mem2 n1 (m2_NLn m))).

  (** rkstiff/if34.py:235-254 *)
  Definition s_if34n_stages (accept : bool) (u : nd) (h : T F) : M (sst (T F) (if_coefs mat) (mem2 nd)) W (nd * nd) :=
      c <- get coefs ;;
      m <- getm (mem2 nd) ;;
      let NL1 := if accept then m2_NLn m else m2_NL1 m in
      upd (set_mem (mk_mem2 NL1 (m2_NLn m))) ;;;
      let EL := if_EL c in let EL2 := if_EL2 c in
      NL2 <- ecall (EL2 [@] u [+] h [h*] (EL2 [@] (NL1 [/] 2))) ;;
      NL3 <- ecall (EL2 [@] u [+] h [h*] NL2 [/] 2) ;;
      NL4 <- ecall (EL [@] u [+] h [h*] (EL2 [@] NL3)) ;;
      k <- eval (EL [@] u [+] h [h*] (EL [@] (NL1 [/] 6) [+] EL2 [@] (NL2 [/] 3) [+] EL2 [@] (NL3 [/] 3) [+] NL4 [/] 6)) ;;
      NL5 <- call nl k ;;
      upd (set_mem (mk_mem2 NL1 NL5)) ;;;
      err <- eval (h [h*] (NL4 [-] NL5) [/] 6) ;;
      ret (k, err).

  (** ** ETD4, 1-D operator *)
  (** rkstiff/etd4.py:141-150 *)
  Definition s_etd4d_init (u : nd) : M (sst (T F) (etd4_coefs vec) (mem1 nd)) W unit :=
      n1 <- call nl u ;; upd (set_mem (mk_mem1 n1)).

  (** rkstiff/etd4.py:152-175; the argument [h] is not used by the stages. *)
  Definition s_etd4d_stages (u : nd) (h : T F) : M (sst (T F) (etd4_coefs vec) (mem1 nd)) W nd :=
      c <- get coefs ;;
      m <- getm (mem1 nd) ;;
      let NL1 := m1_NL1 m in
      NL2 <- ecall (e4_EL2 c [*] u [+] e4_a21 c [*] NL1) ;;
      NL3 <- ecall (e4_EL2 c [*] u [+] e4_a31 c [*] NL1 [+] e4_a32 c [*] NL2) ;;
      NL4 <- ecall (e4_EL c [*] u [+] e4_a41 c [*] NL1 [+] e4_a43 c [*] NL3) ;;
      k <- eval (e4_EL c [*] u [+] e4_b1 c [*] NL1 [+] e4_b2 c [*] (NL2 [+] NL3) [+] e4_b4 c [*] NL4) ;;
      NL1' <- call nl k ;;
      upd (set_mem (mk_mem1 NL1')) ;;;
      ret k.

  (** ** ETD4, matrix operator *)
  (** rkstiff/etd4.py:273-282 *)
  Definition s_etd4n_init (u : nd) : M (sst (T F) (etd4_coefs mat) (mem1 nd)) W unit :=
      n1 <- call nl u ;; upd (set_mem (mk_mem1 n1)).

  (** rkstiff/etd4.py:284-308 *)
  Definition s_etd4n_stages (u : nd) (h : T F) : M (sst (T F) (etd4_coefs mat) (mem1 nd)) W nd :=
      c <- get coefs ;;
      m <- getm (mem1 nd) ;;
      let NL1 := m1_NL1 m in
      NL2 <- ecall (e4_EL2 c [@] u [+] e4_a21 c [@] NL1) ;;
      NL3 <- ecall (e4_EL2 c [@] u [+] e4_a31 c [@] NL1 [+] e4_a32 c [@] NL2) ;;
      NL4 <- ecall (e4_EL c [@] u [+] e4_a41 c [@] NL1 [+] e4_a43 c [@] NL3) ;;
      k <- eval (e4_EL c [@] u [+] e4_b1 c [@] NL1 [+] e4_b2 c [@] (NL2 [+] NL3) [+] e4_b4 c [@] NL4) ;;
      NL1' <- call nl k ;;
      upd (set_mem (mk_mem1 NL1')) ;;;
      ret k.

  (** ** ETD34, 1-D operator *)
  (** rkstiff/etd34.py:151-160 *)
  Definition s_etd34d_init (u : nd) : M (sst (T F) (etd4_coefs vec) (mem2 nd)) W unit :=
      n1 <- call nl u ;;
      m <- getm (mem2 nd) ;;
      upd (set_mem (mk_mem2 n1 (m2_NLn m))).

  (** rkstiff/etd34.py:162-191 *)
  Definition s_etd34d_stages (accept : bool) (u : nd) (h : T F) : M (sst (T F) (etd4_coefs vec) (mem2 nd)) W (nd * nd) :=
      c <- get coefs ;;
      m <- getm (mem2 nd) ;;
      let NL1 := if accept then m2_NLn m else m2_NL1 m in
      upd (set_mem (mk_mem2 NL1 (m2_NLn m))) ;;;
      NL2 <- ecall (e4_EL2 c [*] u [+] e4_a21 c [*] NL1) ;;
      NL3 <- ecall (e4_EL2 c [*] u [+] e4_a31 c [*] NL1 [+] e4_a32 c [*] NL2) ;;
      NL4 <- ecall (e4_EL c [*] u [+] e4_a41 c [*] NL1 [+] e4_a43 c [*] NL3) ;;
      k <- eval (e4_EL c [*] u [+] e4_b1 c [*] NL1 [+] e4_b2 c [*] (NL2 [+] NL3) [+] e4_b4 c [*] NL4) ;;
      NL5 <- call nl k ;;
      upd (set_mem (mk_mem2 NL1 NL5)) ;;;
      err <- eval (e4_b4 c [*] (NL4 [-] NL5)) ;;
      ret (k, err).

  (** ** ETD34, diagonalized operator *)
  (** rkstiff/etd34.py:260-270 *)
  Definition s_etd34z_init (Sinv : mat) (u : nd) : M (sst (T F) (etd4_coefs vec) (mem3 nd)) W unit :=
      n1 <- call nl u ;;
      x <- eval (Sinv [@] n1) ;;
      m <- getm (mem3 nd) ;;
      upd (set_mem (mk_mem3 x (m3_NLn m) (m3_v m))) ;;;
      y <- eval (Sinv [@] u) ;;
      upd (set_mem (mk_mem3 x (m3_NLn m) y)).

  (** rkstiff/etd34.py:272-304 *)
  Definition s_etd34z_stages (Smat Sinv : mat) (accept : bool) (u : nd) (h : T F) : M (sst (T F) (etd4_coefs vec) (mem3 nd)) W (nd * nd) :=
      c <- get coefs ;;
      m <- getm (mem3 nd) ;;
      let NL1 := if accept then m3_NLn m else m3_NL1 m in
      upd (set_mem (mk_mem3 NL1 (m3_NLn m) (m3_v m))) ;;;
      v <- (if accept then eval (Sinv [@] u) else ret (m3_v m)) ;;
      upd (set_mem (mk_mem3 NL1 (m3_NLn m) v)) ;;;
      r2 <- ecall (Smat [@] (e4_EL2 c [*] v [+] e4_a21 c [*] NL1)) ;; NL2 <- eval (Sinv [@] r2) ;;
      r3 <- ecall (Smat [@] (e4_EL2 c [*] v [+] e4_a31 c [*] NL1 [+] e4_a32 c [*] NL2)) ;;
      NL3 <- eval (Sinv [@] r3) ;;
      r4 <- ecall (Smat [@] (e4_EL c [*] v [+] e4_a41 c [*] NL1 [+] e4_a43 c [*] NL3)) ;;
      NL4 <- eval (Sinv [@] r4) ;;
      k <- eval (e4_EL c [*] v [+] e4_b1 c [*] NL1 [+] e4_b2 c [*] (NL2 [+] NL3) [+] e4_b4 c [*] NL4) ;;
      r5 <- ecall (Smat [@] k) ;; NL5 <- eval (Sinv [@] r5) ;;
      upd (set_mem (mk_mem3 NL1 NL5 v)) ;;;
      err <- eval (e4_b4 c [*] (NL4 [-] NL5)) ;;
      r <- eval (Smat [@] k) ;;
      ret (r, err).

  (** ** ETD34, matrix operator *)
  (** rkstiff/etd34.py:394-403 *)
  Definition s_etd34n_init (u : nd) : M (sst (T F) (etd4_coefs mat) (mem2 nd)) W unit :=
      n1 <- call nl u ;;
      m <- getm (mem2 nd) ;;
      upd (set_mem (mk_mem2 n1 (m2_NLn m))).

  (** rkstiff/etd34.py:405-436 *)
  Definition s_etd34n_stages (accept : bool) (u : nd) (h : T F) : M (sst (T F) (etd4_coefs mat) (mem2 nd)) W (nd * nd) :=
      c <- get coefs ;;
      m <- getm (mem2 nd) ;;
      let NL1 := if accept then m2_NLn m else m2_NL1 m in
      upd (set_mem (mk_mem2 NL1 (m2_NLn m))) ;;;
      NL2 <- ecall (e4_EL2 c [@] u [+] e4_a21 c [@] NL1) ;;
      NL3 <- ecall (e4_EL2 c [@] u [+] e4_a31 c [@] NL1 [+] e4_a32 c [@] NL2) ;;
      NL4 <- ecall (e4_EL c [@] u [+] e4_a41 c [@] NL1 [+] e4_a43 c [@] NL3) ;;
      k <- eval (e4_EL c [@] u [+] e4_b1 c [@] NL1 [+] e4_b2 c [@] (NL2 [+] NL3) [+] e4_b4 c [@] NL4) ;;
      NL5 <- call nl k ;;
      upd (set_mem (mk_mem2 NL1 NL5)) ;;;
      err <- eval (e4_b4 c [@] (NL4 [-] NL5)) ;;
      ret (k, err).

  (** ** ETD5, 1-D operator *)
  (** rkstiff/etd5.py:205-217 *)
  Definition s_etd5d_init (u : nd) : M (sst (T F) (etd5_coefs vec) (mem1 nd)) W unit :=
      n1 <- call nl u ;; upd (set_mem (mk_mem1 n1)).

  (** rkstiff/etd5.py:219-261 *)
  Definition s_etd5d_stages (u : nd) (h : T F) : M (sst (T F) (etd5_coefs vec) (mem1 nd)) W nd :=
      c <- get coefs ;;
      m <- getm (mem1 nd) ;;
      let NL1 := m1_NL1 m in
      NL2 <- ecall (e5_EL14 c [*] u [+] e5_a21 c [*] NL1) ;;
      NL3 <- ecall (e5_EL14 c [*] u [+] e5_a31 c [*] NL1 [+] e5_a32 c [*] NL2) ;;
      NL4 <- ecall (e5_EL12 c [*] u [+] e5_a41 c [*] NL1 [+] e5_a43 c [*] NL3) ;;
      NL5 <- ecall (e5_EL34 c [*] u [+] e5_a51 c [*] NL1 [+] e5_a52 c [*] (NL2 [-] NL3)
                      [+] e5_a54 c [*] NL4) ;;
      NL6 <- ecall (e5_EL c [*] u [+] e5_a61 c [*] NL1 [+] e5_a62 c [*] (NL2 [-] 3 [z*] NL4 [/] 2)
                      [+] e5_a63 c [*] NL3 [+] e5_a65 c [*] NL5) ;;
      k <- eval (e5_EL c [*] u [+] e5_b1 c [*] NL1 [+] e5_b3 c [*] NL3 [+] e5_b4 c [*] NL4
               [+] e5_b5 c [*] NL5 [+] e5_b6 c [*] NL6) ;;
      NL1' <- call nl k ;;
      upd (set_mem (mk_mem1 NL1')) ;;;
      ret k.

  (** ** ETD5, matrix operator *)
  (** rkstiff/etd5.py:422-433 *)
  Definition s_etd5n_init (u : nd) : M (sst (T F) (etd5_coefs mat) (mem1 nd)) W unit :=
      n1 <- call nl u ;; upd (set_mem (mk_mem1 n1)).

  (** rkstiff/etd5.py:435-482 *)
  Definition s_etd5n_stages (u : nd) (h : T F) : M (sst (T F) (etd5_coefs mat) (mem1 nd)) W nd :=
      c <- get coefs ;;
      m <- getm (mem1 nd) ;;
      let NL1 := m1_NL1 m in
      NL2 <- ecall (e5_EL14 c [@] u [+] e5_a21 c [@] NL1) ;;
      NL3 <- ecall (e5_EL14 c [@] u [+] e5_a31 c [@] NL1 [+] e5_a32 c [@] NL2) ;;
      NL4 <- ecall (e5_EL12 c [@] u [+] e5_a41 c [@] NL1 [+] e5_a43 c [@] NL3) ;;
      NL5 <- ecall (e5_EL34 c [@] u [+] e5_a51 c [@] NL1 [+] e5_a52 c [@] (NL2 [-] NL3)
                      [+] e5_a54 c [@] NL4) ;;
      NL6 <- ecall (e5_EL c [@] u [+] e5_a61 c [@] NL1 [+] e5_a62 c [@] (NL2 [-] 3 [z*] NL4 [/] 2)
                      [+] e5_a63 c [@] NL3 [+] e5_a65 c [@] NL5) ;;
      k <- eval (e5_EL c [@] u [+] e5_b1 c [@] NL1 [+] e5_b3 c [@] NL3 [+] e5_b4 c [@] NL4
               [+] e5_b5 c [@] NL5 [+] e5_b6 c [@] NL6) ;;
      NL1' <- call nl k ;;
      upd (set_mem (mk_mem1 NL1')) ;;;
      ret k.

  (** ** ETD35, 1-D operator *)
  (** rkstiff/etd35.py:290-299 *)
  Definition s_etd35d_init (u : nd) : M (sst (T F) (etd5_coefs vec) (mem1 nd)) W unit :=
      n1 <- call nl u ;; upd (set_mem (mk_mem1 n1)).

  (** rkstiff/etd35.py:301-345 *)
  Definition s_etd35d_stages (accept : bool) (u : nd) (h : T F) : M (sst (T F) (etd5_coefs vec) (mem1 nd)) W (nd * nd) :=
      (if accept then s_etd35d_init u else ret tt) ;;;
      c <- get coefs ;;
      m <- getm (mem1 nd) ;;
      let NL1 := m1_NL1 m in
      NL2 <- ecall (e5_EL14 c [*] u [+] e5_a21 c [*] NL1) ;;
      NL3 <- ecall (e5_EL14 c [*] u [+] e5_a31 c [*] NL1 [+] e5_a32 c [*] NL2) ;;
      NL4 <- ecall (e5_EL12 c [*] u [+] e5_a41 c [*] NL1 [+] e5_a43 c [*] NL3) ;;
      NL5 <- ecall (e5_EL34 c [*] u [+] e5_a51 c [*] NL1 [+] e5_a52 c [*] (NL2 [-] NL3)
                      [+] e5_a54 c [*] NL4) ;;
      NL6 <- ecall (e5_EL c [*] u [+] e5_a61 c [*] NL1 [+] e5_a62 c [*] (NL2 [-] 3 [z*] NL4 [/] 2)
                      [+] e5_a63 c [*] NL3 [+] e5_a65 c [*] NL5) ;;
      k <- eval (e5_EL c [*] u [+] e5_b1 c [*] NL1 [+] e5_b3 c [*] NL3 [+] e5_b4 c [*] NL4
               [+] e5_b5 c [*] NL5 [+] e5_b6 c [*] NL6) ;;
      err <- eval (e5_b5 c [*] (aneg NL1 [+] 4 [z*] NL3 [-] 6 [z*] NL4 [+] 4 [z*] NL5 [-] NL6)) ;;
      ret (k, err).

  (** ** ETD35, diagonalized operator *)
  (** rkstiff/etd35.py:436-446 *)
  Definition s_etd35z_init (Sinv : mat) (u : nd) : M (sst (T F) (etd5_coefs vec) (mem4 nd)) W unit :=
      n1 <- call nl u ;;
      x <- eval (Sinv [@] n1) ;;
      m <- getm (mem4 nd) ;;
      upd (set_mem (mk_mem4 x (m4_v m))) ;;;
      y <- eval (Sinv [@] u) ;;
      upd (set_mem (mk_mem4 x y)).

  (** rkstiff/etd35.py:448-495 *)
  Definition s_etd35z_stages (Smat Sinv : mat) (accept : bool) (u : nd) (h : T F) : M (sst (T F) (etd5_coefs vec) (mem4 nd)) W (nd * nd) :=
      (if accept then s_etd35z_init Sinv u else ret tt) ;;;
      c <- get coefs ;;
      m <- getm (mem4 nd) ;;
      let NL1 := m4_NL1 m in
      let v := m4_v m in
      r2 <- ecall (Smat [@] (e5_EL14 c [*] v [+] e5_a21 c [*] NL1)) ;;
      NL2 <- eval (Sinv [@] r2) ;;
      r3 <- ecall (Smat [@] (e5_EL14 c [*] v [+] e5_a31 c [*] NL1 [+] e5_a32 c [*] NL2)) ;;
      NL3 <- eval (Sinv [@] r3) ;;
      r4 <- ecall (Smat [@] (e5_EL12 c [*] v [+] e5_a41 c [*] NL1 [+] e5_a43 c [*] NL3)) ;;
      NL4 <- eval (Sinv [@] r4) ;;
      r5 <- ecall (Smat [@] (e5_EL34 c [*] v [+] e5_a51 c [*] NL1 [+] e5_a52 c [*] (NL2 [-] NL3)
                      [+] e5_a54 c [*] NL4)) ;;
      NL5 <- eval (Sinv [@] r5) ;;
      r6 <- ecall (Smat [@] (e5_EL c [*] v [+] e5_a61 c [*] NL1 [+] e5_a62 c [*] (NL2 [-] 3 [z*] NL4 [/] 2)
                      [+] e5_a63 c [*] NL3 [+] e5_a65 c [*] NL5)) ;;
      NL6 <- eval (Sinv [@] r6) ;;
      k <- eval (e5_EL c [*] v [+] e5_b1 c [*] NL1 [+] e5_b3 c [*] NL3 [+] e5_b4 c [*] NL4
               [+] e5_b5 c [*] NL5 [+] e5_b6 c [*] NL6) ;;
      err <- eval (e5_b5 c [*] (aneg NL1 [+] 4 [z*] NL3 [-] 6 [z*] NL4 [+] 4 [z*] NL5 [-] NL6)) ;;
      r <- eval (Smat [@] k) ;;
      ret (r, err).

  (** ** ETD35, matrix operator *)
  (** rkstiff/etd35.py:660-669 *)
  Definition s_etd35n_init (u : nd) : M (sst (T F) (etd5_coefs mat) (mem1 nd)) W unit :=
      n1 <- call nl u ;; upd (set_mem (mk_mem1 n1)).

  (** rkstiff/etd35.py:671-720 *)
  Definition s_etd35n_stages (accept : bool) (u : nd) (h : T F) : M (sst (T F) (etd5_coefs mat) (mem1 nd)) W (nd * nd) :=
      (if accept then s_etd35n_init u else ret tt) ;;;
      c <- get coefs ;;
      m <- getm (mem1 nd) ;;
      let NL1 := m1_NL1 m in
      NL2 <- ecall (e5_EL14 c [@] u [+] e5_a21 c [@] NL1) ;;
      NL3 <- ecall (e5_EL14 c [@] u [+] e5_a31 c [@] NL1 [+] e5_a32 c [@] NL2) ;;
      NL4 <- ecall (e5_EL12 c [@] u [+] e5_a41 c [@] NL1 [+] e5_a43 c [@] NL3) ;;
      NL5 <- ecall (e5_EL34 c [@] u [+] e5_a51 c [@] NL1 [+] e5_a52 c [@] (NL2 [-] NL3)
                      [+] e5_a54 c [@] NL4) ;;
      NL6 <- ecall (e5_EL c [@] u [+] e5_a61 c [@] NL1 [+] e5_a62 c [@] (NL2 [-] 3 [z*] NL4 [/] 2)
                      [+] e5_a63 c [@] NL3 [+] e5_a65 c [@] NL5) ;;
      k <- eval (e5_EL c [@] u [+] e5_b1 c [@] NL1 [+] e5_b3 c [@] NL3 [+] e5_b4 c [@] NL4
               [+] e5_b5 c [@] NL5 [+] e5_b6 c [@] NL6) ;;
      err <- eval (e5_b5 c [@] (aneg NL1 [+] 4 [z*] NL3 [-] 6 [z*] NL4 [+] 4 [z*] NL5 [-] NL6)) ;;
      ret (k, err).

  (** ** IF45DP *)
  (** rkstiff/if45dp.py:112-181 *)
  Definition s_dp_update_stages (L : vec) (accept : bool) (u : nd) (h : T F) : M (sst (T F) (dp_coefs vec (T F)) (mem2 nd)) W (nd * nd) :=
      s_update_coeffs F W (dp_coefs vec (T F)) (mem2 nd) (dp_coeffs F A L) h ;;;
      b <- get n1_init ;;
      (if b then
         (if accept then (m <- getm (mem2 nd) ;; upd (set_mem (mk_mem2 (m2_NLn m) (m2_NLn m)))) else ret tt)
       else
         (n1 <- call nl u ;;
          m <- getm (mem2 nd) ;;
          upd (set_mem (mk_mem2 n1 (m2_NLn m))) ;;;
          upd (set_init true))) ;;;
      c <- get coefs ;;
      m <- getm (mem2 nd) ;;
      let NL1 := m2_NL1 m in
      NL2 <- ecall (dp_EL15 c [*] u [+] dp_a21 c [*] NL1) ;;
      NL3 <- ecall (dp_EL310 c [*] u [+] dp_a31 c [*] NL1 [+] dp_a32 c [*] NL2) ;;
      NL4 <- ecall (dp_EL45 c [*] u [+] dp_a41 c [*] NL1 [+] dp_a42 c [*] NL2 [+] dp_a43 c [*] NL3) ;;
      NL5 <- ecall (dp_EL89 c [*] u [+] dp_a51 c [*] NL1 [+] dp_a52 c [*] NL2 [+] dp_a53 c [*] NL3
                      [+] dp_a54 c [*] NL4) ;;
      NL6 <- ecall (dp_EL c [*] u [+] dp_a61 c [*] NL1 [+] dp_a62 c [*] NL2 [+] dp_a63 c [*] NL3
                      [+] dp_a64 c [*] NL4 [+] dp_a65 c [*] NL5) ;;
      k <- eval (dp_EL c [*] u [+] dp_a71 c [*] NL1 [+] dp_a73 c [*] NL3 [+] dp_a74 c [*] NL4
               [+] dp_a75 c [*] NL5 [+] dp_a76 c [h*] NL6) ;;
      NL7 <- call nl k ;;
      upd (set_mem (mk_mem2 NL1 NL7)) ;;;
      err <- eval (dp_r1 c [*] NL1 [+] dp_r3 c [*] NL3 [+] dp_r4 c [*] NL4 [+] dp_r5 c [*] NL5
                 [+] dp_r6 c [h*] NL6 [+] dp_r7 c [h*] NL7) ;;
      ret (k, err).
End Strategies.

(** ** The family *)
Section Family.
  Variable F : tops.
  Variable A : aops F.
  Variable W : Type.
  (** Operator, configuration and external routines; the nonlinear function of [p] is not used. *)
  Variable p : problem A unit.
  Variable nl : nd A -> W -> (exn + nd A) * W.
  Notation nd := (nd A).
  Notation n := (p_size p).
  Notation Sm := (p_S p).
  Notation Si := (p_Sinv p).

  (** The classes IF4, ETD4, ETD5 (rkstiff/if4.py:253-275, etd4.py:374-422, etd5.py:578-655). *)
  Definition cs_smodel (k : cs_kind) : csm (T F) nd W :=
    match k with
    | IF4d => cs_solver F nd W _ _ (cs_uc p IF4d) (s_if4d_init F A W nl) (s_if4d_stages F A W nl n)
    | IF4n => cs_solver F nd W _ _ (cs_uc p IF4n) (s_if4n_init F A W nl) (s_if4n_stages F A W nl n)
    | ETD4d => cs_solver F nd W _ _ (cs_uc p ETD4d) (s_etd4d_init F A W nl) (s_etd4d_stages F A W nl n)
    | ETD4n => cs_solver F nd W _ _ (cs_uc p ETD4n) (s_etd4n_init F A W nl) (s_etd4n_stages F A W nl n)
    | ETD5d => cs_solver F nd W _ _ (cs_uc p ETD5d) (s_etd5d_init F A W nl) (s_etd5d_stages F A W nl n)
    | ETD5n => cs_solver F nd W _ _ (cs_uc p ETD5n) (s_etd5n_init F A W nl) (s_etd5n_stages F A W nl n)
    end.
  (** The classes IF34, IF45DP, ETD34, ETD35 (rkstiff/if34.py:308-334, if45dp.py:105-238,
      etd34.py:557-609, etd35.py:832-878). *)
  Definition as_smodel (k : as_kind) : asm (T F) nd W :=
    match k with
    | IF34d => as_solver F nd W _ _ (as_uc p IF34d) (s_if34d_init F A W nl) (s_if34d_stages F A W nl n)
    | IF34n => as_solver F nd W _ _ (as_uc p IF34n) (s_if34n_init F A W nl) (s_if34n_stages F A W nl n)
    | IF34z => as_solver F nd W _ _ (as_uc p IF34z) (s_if34z_init F A W nl n Si) (s_if34z_stages F A W nl n Sm Si)
    | IF45DPd => mk_asm (T F) nd W (sst (T F) (dp_coefs (vec A) (T F)) (mem2 nd)) (s_reset F _ _)
                   (s_dp_update_stages F A W nl n (p_vec p))
    | ETD34d => as_solver F nd W _ _ (as_uc p ETD34d) (s_etd34d_init F A W nl) (s_etd34d_stages F A W nl n)
    | ETD34n => as_solver F nd W _ _ (as_uc p ETD34n) (s_etd34n_init F A W nl) (s_etd34n_stages F A W nl n)
    | ETD34z => as_solver F nd W _ _ (as_uc p ETD34z) (s_etd34z_init F A W nl n Si) (s_etd34z_stages F A W nl n Sm Si)
    | ETD35d => as_solver F nd W _ _ (as_uc p ETD35d) (s_etd35d_init F A W nl) (s_etd35d_stages F A W nl n)
    | ETD35n => as_solver F nd W _ _ (as_uc p ETD35n) (s_etd35n_init F A W nl) (s_etd35n_stages F A W nl n)
    | ETD35z => as_solver F nd W _ _ (as_uc p ETD35z) (s_etd35z_init F A W nl n Si) (s_etd35z_stages F A W nl n Sm Si)
    end.

  (** State right after construction: the stored stages are zeros of length n (citations at
      [Solvers.cs_new]). *)
  Definition nzero : nd := of_vec n (vzero A).
  Definition cs_snew (k : cs_kind) : cs_st (cs_smodel k) :=
    match k with
    | IF4d => mk_sst None false (cs_k0 A IF4d) (mk_mem1 nzero) | IF4n => mk_sst None false (cs_k0 A IF4n) (mk_mem1 nzero)
    | ETD4d => mk_sst None false (cs_k0 A ETD4d) (mk_mem1 nzero) | ETD4n => mk_sst None false (cs_k0 A ETD4n) (mk_mem1 nzero)
    | ETD5d => mk_sst None false (cs_k0 A ETD5d) (mk_mem1 nzero) | ETD5n => mk_sst None false (cs_k0 A ETD5n) (mk_mem1 nzero)
    end.
  Definition as_snew (k : as_kind) : as_st (as_smodel k) :=
    match k with
    | IF34d => mk_sst None false (as_k0 A IF34d) (mk_mem2 nzero nzero)
    | IF34n => mk_sst None false (as_k0 A IF34n) (mk_mem2 nzero nzero)
    | IF34z => mk_sst None false (as_k0 A IF34z) (mk_mem3 nzero nzero nzero)
    | IF45DPd => mk_sst None false (as_k0 A IF45DPd) (mk_mem2 nzero nzero)
    | ETD34d => mk_sst None false (as_k0 A ETD34d) (mk_mem2 nzero nzero)
    | ETD34n => mk_sst None false (as_k0 A ETD34n) (mk_mem2 nzero nzero)
    | ETD34z => mk_sst None false (as_k0 A ETD34z) (mk_mem3 nzero nzero nzero)
    | ETD35d => mk_sst None false (as_k0 A ETD35d) (mk_mem1 nzero)
    | ETD35n => mk_sst None false (as_k0 A ETD35n) (mk_mem1 nzero)
    | ETD35z => mk_sst None false (as_k0 A ETD35z) (mk_mem4 nzero nzero)
    end.
  Definition cs_snew_obj (k : cs_kind) : csobj F nd W (cs_smodel k) :=
    mk_csobj [] [] (PyN false (tofZ F 0)) (PyN false (tofZ F 0)) (cs_snew k).
  Definition as_snew_obj (k : as_kind) : asobj F nd W (as_smodel k) :=
    mk_asobj [] [] (PyN false (tofZ F 0)) (PyN false (tofZ F 0)) false (as_snew k).
End Family.
Arguments nzero {F A} p.
Arguments cs_smodel {F A W} p nl k.  Arguments as_smodel {F A W} p nl k.
Arguments cs_snew {F A W} p nl k.  Arguments as_snew {F A W} p nl k.
Arguments cs_snew_obj {F A W} p nl k.  Arguments as_snew_obj {F A W} p nl k.
