(** * Discrete Hankel transform

    Model of rkstiff/transforms.py and of [construct_r_kr_hankel], over any arithmetic. The Bessel
    functions and the routine that computes the zeros of [J_0] are oracles. *)

From Coq Require Import ZArith List Bool Reals.
From Verif Require Import Scalars Config Grids.
Import ListNotations.

Section Hankel.
  Variable F : tops.
  Notation TF := (T F).
  (** [sp.j0], [sp.j1] on one number. *)
  Variables j0 j1 : TF -> TF.
  (** [sp.jn_zeros(0, nt)]: the zeros, or an exception (for instance [MemoryError]). [nt] is a Python
      value: the constructor does not insist on an [int]. *)
  Variable jn_zeros : pyval TF -> exn + list TF.

  (** [nr + 1]; only used for values that passed [nr < 4]. *)
  Definition plus_one (nr : pyval TF) : pyval TF :=
    match nr with
    | PInt z => PInt (z + 1)
    | PBool b => PInt (if b then 2 else 1)
    | PFloat x => PFloat (tadd F x (tofZ F 1))
    | POther => POther
    end.
  (** [v < 4] and [v <= 0]; [None] if the comparison raises [TypeError]. *)
  Definition below4 (v : pyval TF) : option bool :=
    match v with
    | PInt z => Some (z <? 4)%Z
    | PBool _ => Some true
    | PFloat x => Some (tltb F x (tofZ F 4))
    | POther => None
    end.
  Definition nonpos (v : pyval TF) : option bool :=
    match v with
    | PInt z => Some (z <=? 0)%Z
    | PBool b => Some (negb b)
    | PFloat x => Some (tleb F x (tofZ F 0))
    | POther => None
    end.
  (** Value in arithmetic with a float array. Not modelled: [OverflowError] of integers beyond 2^1024. *)
  Definition hnum (v : pyval TF) : TF :=
    match v with PInt z => tofZ F z | PBool b => tofZ F (if b then 1 else 0)%Z | PFloat x => x | POther => tofZ F 0 end.

  (** rkstiff/grids.py:255-264 [construct_r_kr_hankel]: [r, kr, bessel_zeros, jN]. [bessel_zeros[-1]]
      of an empty array would raise [IndexError]. *)
  Definition construct_r_kr_hankel (nr rmax : pyval TF) : exn + (list TF * list TF * list TF * TF) :=
    match below4 nr with
    | None => inl TypeError
    | Some true => inl ValueError
    | Some false =>
        match nonpos rmax with
        | None => inl TypeError
        | Some true => inl ValueError
        | Some false =>
            match jn_zeros (plus_one nr) with
            | inl e => inl e
            | inr [] => inl IndexError
            | inr (z :: zs) =>
                let all := z :: zs in
                let bz := removelast all in
                let jN := last all z in
                let rm := hnum rmax in
                inr (map (fun b => tdiv F (tmul F b rm) jN) bz, map (fun b => tdiv F b rm) bz, bz, jN)
            end
        end
    end.

  (** The attributes of a [HankelTransform]; [hY] lists the rows of [_Y]. *)
  Record hankel := mk_hankel {
    h_nr : pyval TF; h_rmax : pyval TF;
    h_r : list TF; h_kr : list TF; h_zeros : list TF; h_jN : TF; h_Y : list (list TF) }.

  (** rkstiff/transforms.py:110-114 [_sethankelmatrix], entry by entry: the denominator
      [self._jN * j1vec**2] is broadcast along the rows. *)
  Definition hankel_matrix (bz : list TF) (jN : TF) : list (list TF) :=
    map (fun zi => map (fun zj =>
      tdiv F (tmul F (tofZ F 2) (j0 (tdiv F (tmul F zi zj) jN)))
             (tmul F jN (tmul F (j1 zj) (j1 zj)))) bz) bz.

  (** rkstiff/transforms.py:103-108 [_setnr_setrmax]: the two parameters are stored before the grids are
      built; an exception leaves the other attributes as they were. Returns the exception, if any, and
      the object. *)
  Definition setnr_setrmax (o : hankel) (nr rmax : pyval TF) : option exn * hankel :=
    let o1 := mk_hankel nr rmax (h_r o) (h_kr o) (h_zeros o) (h_jN o) (h_Y o) in
    match construct_r_kr_hankel nr rmax with
    | inl e => (Some e, o1)
    | inr (r, kr, bz, jN) => (None, mk_hankel nr rmax r kr bz jN (hankel_matrix bz jN))
    end.

  (** rkstiff/transforms.py:96-101 [__init__]; the object is lost if it raises. *)
  Definition blank : hankel := mk_hankel POther POther [] [] [] (tofZ F 0) [].
  Definition hankel_init (nr rmax : pyval TF) : exn + hankel :=
    match setnr_setrmax blank nr rmax with
    | (None, o) => inr o
    | (Some e, _) => inl e
    end.

  (** rkstiff/transforms.py:155-160, the setter of [nr]. *)
  Definition set_nr (o : hankel) (v : pyval TF) : option exn * hankel :=
    match v with
    | PInt z => if (z <? 4)%Z then (Some ValueError, o) else setnr_setrmax o v (h_rmax o)
    | _ => (Some ValueError, o)  (* not an [int], or a [bool], which is below 4 *)
    end.
  (** rkstiff/transforms.py:167-172, the setter of [rmax]. *)
  Definition set_rmax (o : hankel) (v : pyval TF) : option exn * hankel :=
    match nonpos v with
    | None => (Some TypeError, o)
    | Some true => (Some ValueError, o)
    | Some false => setnr_setrmax o (h_nr o) v
    end.

  Inductive hop := SetNr (v : pyval TF) | SetRmax (v : pyval TF).
  Definition happly (o : hankel) (p : hop) : option exn * hankel :=
    match p with SetNr v => set_nr o v | SetRmax v => set_rmax o v end.
  (** A program that assigns to the properties and catches every exception. *)
  Definition hrun (o : hankel) (ps : list hop) : hankel := fold_left (fun o p => snd (happly o p)) ps o.

  (** rkstiff/transforms.py:116-118 [_scalefactor]; [rmax**2] is taken as a product (also for an [int]). *)
  Definition scalefactor (o : hankel) : TF :=
    let rm := hnum (h_rmax o) in tdiv F (tmul F rm rm) (h_jN o).
  (** [A.dot(f)] for a 1-D array: [ValueError] unless the lengths agree; the sum is accumulated from the
      left here, numpy's order may differ (immaterial in exact arithmetic). *)
  Definition dotv (a b : list TF) : TF :=
    fold_left (fun s p => tadd F s (tmul F (fst p) (snd p))) (combine a b) (tofZ F 0).
  Definition mat_dot (A : list (list TF)) (n : nat) (f : list TF) : exn + list TF :=
    if Nat.eqb n (length f) then inr (map (fun row => dotv row f) A) else inl ValueError.
  (** rkstiff/transforms.py:178-208 [ht]. *)
  Definition ht (o : hankel) (f : list TF) : exn + list TF :=
    match mat_dot (h_Y o) (length (h_zeros o)) f with
    | inl e => inl e
    | inr v => inr (map (tmul F (scalefactor o)) v)
    end.
  (** rkstiff/transforms.py:210-240 [iht]. *)
  Definition iht (o : hankel) (g : list TF) : exn + list TF :=
    match mat_dot (h_Y o) (length (h_zeros o)) g with
    | inl e => inl e
    | inr v => inr (map (fun y => tdiv F y (scalefactor o)) v)
    end.
End Hankel.
