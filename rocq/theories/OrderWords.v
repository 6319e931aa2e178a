(** * Formal expansions of exponential Runge-Kutta steps in powers of the step

    Spec file: the errors of the stages of a method as finite sums of elementary terms
    [q h^d W(t)], where [W] is a word in the operator [L], the derivative [J] of the nonlinear term
    along the solution and the time derivative [J'] of [J], applied to a derivative of [N(u(t))].
    The sums have rational coefficients and are computed; [OrderLocal] shows what they mean. *)

From Coq Require Import ZArith List Bool Arith Lia QArith.
Import ListNotations.

(** ** Words *)
Inductive letter := AL | AJ | AD.
(** Operators, then the order of the derivative of [N(u(t))]. *)
Definition word := (list letter * nat)%type.
Definition ldeg (a : letter) : nat := match a with AL => 1 | AJ => 1 | AD => 2 end.
Definition wdeg (w : word) : nat := fold_right (fun a d => ldeg a + d)%nat (S (snd w)) (fst w).
Definition leqb (a b : letter) : bool := match a, b with AL, AL | AJ, AJ | AD, AD => true | _, _ => false end.
Fixpoint lseqb (a b : list letter) : bool :=
  match a, b with
  | [], [] => true
  | x :: a, y :: b => leqb x y && lseqb a b
  | _, _ => false
  end.
Definition weqb (a b : word) : bool := lseqb (fst a) (fst b) && Nat.eqb (snd a) (snd b).
Lemma lseqb_eq a : forall b, lseqb a b = true -> a = b.
Proof.
  induction a as [|x a IH]; intros [|y b]; cbn; try discriminate; [reflexivity|].
  intros H. apply andb_prop in H. destruct H as [H1 H2]. f_equal; [|apply IH; exact H2]. destruct x, y; (reflexivity || discriminate H1).
Qed.
Lemma weqb_eq a b : weqb a b = true -> a = b.
Proof.
  destruct a as [a k], b as [b l]. unfold weqb. cbn. intros H. apply andb_prop in H. destruct H as [H1 H2].
  apply lseqb_eq in H1. apply Nat.eqb_eq in H2. subst. reflexivity.
Qed.
Lemma wdeg_pos w : (1 <= wdeg w)%nat.
Proof. destruct w as [a k]. unfold wdeg. cbn [fst snd]. induction a as [|x a IH]; cbn [fold_right]; lia. Qed.

(** ** Sums of words *)
Definition fsum := list (Q * word).
Definition ftrunc (d : nat) (s : fsum) : fsum := filter (fun x => Nat.leb (wdeg (snd x)) d) s.
Definition fscale (c : Q) (s : fsum) : fsum := map (fun x => (c * fst x, snd x)%Q) s.
Definition flift (a : letter) (s : fsum) : fsum := map (fun x => (fst x, (a :: fst (snd x), snd (snd x)))) s.
Definition fliftn (m : nat) (s : fsum) : fsum := Nat.iter m (flift AL) s.
(** Like terms together. *)
Fixpoint finsert (q : Q) (w : word) (s : fsum) : fsum :=
  match s with
  | [] => if Qeq_bool q 0 then [] else [(q, w)]
  | (q', w') :: s =>
      if weqb w w' then let q1 := Qred (q + q') in if Qeq_bool q1 0 then s else (q1, w') :: s
      else (q', w') :: finsert q w s
  end.
Definition fnorm (s : fsum) : fsum := fold_right (fun x => finsert (fst x) (snd x)) [] s.
Definition fmin (s : fsum) (top : nat) : nat := fold_right (fun x => Nat.min (wdeg (snd x))) top s.

(** ** Coefficients [sum q phi_k(theta h L)]; [phi_0] is the exponential. *)
Definition pterm := (Q * nat * Q)%type.
Definition qfact (k : nat) : Q := 1 # Pos.of_nat (fact k).
Fixpoint qpow (q : Q) (m : nat) : Q := match m with O => 1 | S m => q * qpow q m end.
(** The power series of a coefficient applied to a sum, up to degree [D]. *)
Definition fphi (D k : nat) (th : Q) (s : fsum) : fsum :=
  flat_map (fun m => fscale (qpow th m * qfact (m + k)) (fliftn m s)) (seq 0 (S D)).
Definition fcoef (D : nat) (ts : list pterm) (s : fsum) : fsum :=
  flat_map (fun x => ftrunc D (fscale (fst (fst x)) (fphi D (snd (fst x)) (snd x) s))) ts.
(** [h N(u(t + c h))] and [u(t + c h) - exp(c h L) u(t)]. *)
Definition ftaylor (D : nat) (c : Q) : fsum := map (fun k => (qpow c k * qfact k, ([], k))) (seq 0 D).
Definition fvoc (D : nat) (c : Q) : fsum :=
  flat_map (fun k => fphi D (S k) c [(qpow c (S k), ([], k))]) (seq 0 D).

(** ** Methods *)
Record row := mk_row { r_c : Q; r_a : list (list pterm) }.
Record method := mk_method { mt_stages : list row; mt_last : row }.
(** A sum and the degree up to which it is known. *)
Definition known := (fsum * nat)%type.
Fixpoint fcomb (D : nat) (a : list (list pterm)) (gs : list known) : fsum :=
  match a, gs with
  | ts :: a, g :: gs => fcoef D ts (fst g) ++ fcomb D a gs
  | _, _ => []
  end.
Fixpoint fdeg (D : nat) (a : list (list pterm)) (gs : list known) : nat :=
  match a, gs with
  | [] :: a, _ :: gs => fdeg D a gs
  | _ :: a, g :: gs => Nat.min (snd g) (fdeg D a gs)
  | _, _ => D
  end.
(** Error of a stage. *)
Definition ferr (D : nat) (r : row) (gs : list known) : known :=
  let e := fdeg D (r_a r) gs in
  (fnorm (ftrunc e (fcomb D (r_a r) gs ++ fscale (-1) (fvoc D (r_c r)))), e).
(** [h N] at the stage, from the error of the stage. *)
Definition fnext (D : nat) (c : Q) (s : known) : known :=
  let r := fmin (fst s) (S (snd s)) in
  let d := Nat.min D (Nat.min (S (snd s)) (Nat.min (r + 2) (r + r))) in
  (fnorm (ftrunc d (ftaylor D c ++ flift AJ (fst s) ++ fscale c (flift AD (fst s)))), d).
Fixpoint fstages (D : nat) (rows : list row) (gs : list known) : list known :=
  match rows with
  | [] => gs
  | r :: rows => fstages D rows (gs ++ [fnext D (r_c r) (ferr D r gs)])
  end.
(** Error of one step. *)
Definition flocal (D : nat) (m : method) : known := ferr D (mt_last m) (fstages D (mt_stages m) []).

(** Arguments of the functions in [[0, 1]]. *)
Definition unitb (q : Q) : bool := Qle_bool 0 q && Qle_bool q 1.
Definition row_ok (r : row) : bool := unitb (r_c r) && forallb (forallb (fun x => unitb (snd x))) (r_a r).
Definition method_ok (m : method) : bool := forallb row_ok (mt_stages m) && row_ok (mt_last m) && Qeq_bool (r_c (mt_last m)) 1.

(** ** The methods of the package *)
Definition tp (q : Q) (k : nat) (th : Q) : pterm := (q, k, th).
(** The fifth-order scheme of [etd5.py] and [etd35.py]. *)
Definition ETD5_table : method :=
  let q := (1#4)%Q in let h := (1#2)%Q in let t := (3#4)%Q in
  mk_method
    [mk_row 0 []; mk_row q [[tp (1#4) 1 q]]; mk_row q [[tp (1#4) 1 q; tp (-1#4) 2 q]; [tp (1#4) 2 q]];
     mk_row h [[tp (1#2) 1 h; tp (-1) 2 h]; []; [tp 1 2 h]];
     mk_row t [[tp (3#4) 1 t; tp (-9#8) 2 t]; [tp (-3#8) 1 t]; [tp (3#8) 1 t]; [tp (9#8) 2 t]];
     mk_row 1 [[tp (-11#6) 1 1; tp (59#21) 2 1]; [tp (8#7) 1 1]; [tp (111#28) 1 1; tp (-87#14) 2 1]; [tp (-12#7) 1 1];
               [tp (-47#84) 1 1; tp (143#42) 2 1]]]
    (mk_row 1 [[tp (1799#2700) 1 1; tp (-3479#1350) 2 1; tp (21#5) 3 1]; [];
               [tp (1097#1350) 1 1; tp (-467#675) 2 1; tp (-2#3) 3 1]; [tp (-98#225) 1 1; tp (796#225) 2 1; tp (-36#5) 3 1];
               [tp (-313#1350) 1 1; tp (883#675) 2 1; tp (-2#5) 3 1]; [tp (509#2700) 1 1; tp (-2129#1350) 2 1; tp (61#15) 3 1]]).
(** The integrating-factor method of a tableau with nodes [cs]. *)
Definition law_terms (c : Q) (qs cs : list Q) : list (list pterm) :=
  map (fun x => if Qeq_bool (fst x) 0 then [] else [tp (fst x) 0 (Qred (c - snd x))]) (combine qs cs).
