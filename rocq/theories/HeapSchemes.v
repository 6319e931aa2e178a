(** * The solver classes as programs on heap objects

    Every assignment to an attribute, every in-place write and every call of the nonlinear function
    of the sixteen strategies, in the language of [Heap.v]. Names are those of the Python attributes
    and local variables. Simplifications: [zb = z[~idx]] and [zs = z[idx]] are not extracted (the
    right-hand sides are whole arrays of which the masked write uses the masked entries, as in the
    scheme files); [_a64], allocated but never used in the ETD5 family, is left out; [t1], [t2] and
    [ret] name temporaries without a name in the source. [lin_op] refers to the array
    passed by the user ([astype(..., copy=False)] makes no copy of a complex128 array). *)

From Coq Require Import ZArith List Bool String.
From Verif Require Import Scalars Control Arrays SchemeBase SchemeIF SchemeETD4 SchemeETD5 Solvers Heap.
Import ListNotations.
Local Open Scope arr_scope.
Local Open Scope string_scope.
Local Open Scope Z_scope.

Set Implicit Arguments.

(** What a solver class does with arrays: constructor, [update_coeffs], [n1_init]/[stage_init],
    [update_stages] (arguments: was the first stage initialised before this call, [_accept], [h]);
    names of the candidate and of the error vector; variables written in place ([sc_mut]) and those
    among them that are attributes, i.e. live from one call to the next ([sc_att]). *)
Record scheme (F : tops) (A : aops F) := mk_scheme {
  sc_new : list (instr A);
  sc_coef : T F -> list (instr A);
  sc_init : list (instr A);
  sc_stage : bool -> bool -> T F -> list (instr A);
  sc_ret : string;
  sc_err : string;
  sc_mut : list string;
  sc_att : list string }.

Section Schemes.
  Variable F : tops.
  Variable A : aops F.
  Variable cfg : etdcfg F.
  Variable n : nat.
  Variables expm inv : mat A -> exn + mat A.
  (** Results of [np.linalg.eig] and [np.linalg.inv] in the constructors of the diagonalized strategies. *)
  Variables (Smat Sinv : mat A) (lam : vec A).
  Notation "s ! x" := (asv (s x%string)) (at level 9, x at level 8, format "s ! x").
  Notation "s !! x" := (asm' (s x%string)) (at level 9, x at level 8, format "s !! x").
  Notation "m @ v" := (emdot A n m v) (at level 35, right associativity).
  Notation q a b := (tdiv F (tofZ F a) (tofZ F b)).
  Notation "'vpsi' f v" := (fun i => f A (v%arr i)) (at level 10, f at level 9, v at level 9).

  (** [x = np.zeros(n)], [x = np.zeros((n, n))] for a list of attributes: one new array each. *)
  Definition zeros_v (xs : list string) : list (instr A) := map (fun x => Set_ x (fun _ => Vc (fun _ => lit A 0))) xs.
  Definition zeros_m (xs : list string) : list (instr A) := map (fun x => Set_ x (fun _ => Mc (mzero A))) xs.
  (** [x = expm(...)], [x = np.linalg.inv(...)]. *)
  Definition lib (f : mat A -> exn + mat A) (x : string) (e : store A -> mat A) : instr A :=
    Try_ x (fun s => match f (e s) with inl ex => inl ex | inr m => inr (Mc m) end).

  (** ** IF4, IF34 *)

  (** rkstiff/if4.py:72-83, if34.py:81-93 ([lin] is [lin_op]), 168-172 ([lin] is [_eig_vals]) *)
  Definition hif_coef_v (lin : string) (h : T F) : list (instr A) :=
    [Set_ "z" (fun s => Vc (h *s s ! lin));
     Set_ "_EL" (fun s => Vc (vexp (s ! "z")));
     Set_ "_EL2" (fun s => Vc (vexp (s ! "z" /z 2)))].

  (** rkstiff/if4.py:152-164, if34.py:225-229 *)
  Definition hif_coef_m (h : T F) : list (instr A) :=
    [Set_ "z" (fun s => Mc (h *sm s !! "lin_op"));
     lib expm "_EL" (fun s => s !! "z");
     lib expm "_EL2" (fun s => s !! "z" /zm 2)].

  (** rkstiff/if4.py:85-94, 166-168; if34.py:95-97, 231-233; if45dp.py:135; etd4.py:141-150, 273-282; etd34.py:151-160, 394-403; etd5.py:205-217, 422-433; etd35.py:290-299, 660-669 *)
  Definition hinit_v : list (instr A) :=
    [Call A "_NL1" "u"].

  (** rkstiff/if34.py:174-177, etd34.py:260-270, etd35.py:436-446 *)
  Definition hinit_z : list (instr A) :=
    [Call A "t2" "u";
     Set_ "_NL1" (fun s => Vc (s !! "_Sinv" @ s ! "t2"));
     Set_ "_v" (fun s => Vc (s !! "_Sinv" @ s ! "u"))].

  (** rkstiff/if4.py:96-122 *)
  Definition hif4d_stage (h : T F) : list (instr A) :=
    [Set_ "_k" (fun s => Vc (s ! "_EL2" *v s ! "u" +v h *s s ! "_EL2" *v s ! "_NL1" /z 2));
     Call A "_NL2" "_k";
     Set_ "_k" (fun s => Vc (s ! "_EL2" *v s ! "u" +v h *s s ! "_NL2" /z 2));
     Call A "_NL3" "_k";
     Set_ "_k" (fun s => Vc (s ! "_EL" *v s ! "u" +v h *s s ! "_EL2" *v s ! "_NL3"));
     Call A "_NL4" "_k";
     Set_ "_k" (fun s => Vc (s ! "_EL" *v s ! "u" +v h *s (s ! "_EL" *v s ! "_NL1" /z 6 +v s ! "_EL2" *v s ! "_NL2" /z 3 +v s ! "_EL2" *v s ! "_NL3" /z 3 +v s ! "_NL4" /z 6)));
     Call A "_NL1" "_k"].

  (** rkstiff/if4.py:170-199 *)
  Definition hif4n_stage (h : T F) : list (instr A) :=
    [Set_ "_k" (fun s => Vc (s !! "_EL2" @ s ! "u" +v h *s (s !! "_EL2" @ (s ! "_NL1" /z 2))));
     Call A "_NL2" "_k";
     Set_ "_k" (fun s => Vc (s !! "_EL2" @ s ! "u" +v h *s s ! "_NL2" /z 2));
     Call A "_NL3" "_k";
     Set_ "_k" (fun s => Vc (s !! "_EL" @ s ! "u" +v h *s (s !! "_EL2" @ s ! "_NL3")));
     Call A "_NL4" "_k";
     Set_ "_k" (fun s => Vc (s !! "_EL" @ s ! "u" +v h *s (s !! "_EL" @ (s ! "_NL1" /z 6) +v s !! "_EL2" @ (s ! "_NL2" /z 3) +v s !! "_EL2" @ (s ! "_NL3" /z 3) +v s ! "_NL4" /z 6)));
     Call A "_NL1" "_k"].

  (** rkstiff/if34.py:99-131 *)
  Definition hif34d_stage (accept : bool) (h : T F) : list (instr A) :=
    (if accept then [Set_ "_NL1" (fun s => Vc (s ! "_NL5"))] else []) ++
    [Set_ "_k" (fun s => Vc (s ! "_EL2" *v s ! "u" +v h *s s ! "_EL2" *v s ! "_NL1" /z 2));
     Call A "_NL2" "_k";
     Set_ "_k" (fun s => Vc (s ! "_EL2" *v s ! "u" +v h *s s ! "_NL2" /z 2));
     Call A "_NL3" "_k";
     Set_ "_k" (fun s => Vc (s ! "_EL" *v s ! "u" +v h *s s ! "_EL2" *v s ! "_NL3"));
     Call A "_NL4" "_k";
     Set_ "_k" (fun s => Vc (s ! "_EL" *v s ! "u" +v h *s (s ! "_EL" *v s ! "_NL1" /z 6 +v s ! "_EL2" *v s ! "_NL2" /z 3 +v s ! "_EL2" *v s ! "_NL3" /z 3 +v s ! "_NL4" /z 6)));
     Call A "_NL5" "_k";
     Set_ "_err" (fun s => Vc (h *s (s ! "_NL4" -v s ! "_NL5") /z 6))].

  (** rkstiff/if34.py:179-196 *)
  Definition hif34z_stage (accept : bool) (h : T F) : list (instr A) :=
    (if accept then [Set_ "_NL1" (fun s => Vc (s ! "_NL5"));
      Set_ "_v" (fun s => Vc (s !! "_Sinv" @ s ! "u"))] else []) ++
    [Set_ "_k" (fun s => Vc (s ! "_EL2" *v s ! "_v" +v h *s s ! "_EL2" *v s ! "_NL1" /z 2));
     Set_ "t1" (fun s => Vc (s !! "_S" @ s ! "_k"));
     Call A "t2" "t1";
     Set_ "_NL2" (fun s => Vc (s !! "_Sinv" @ s ! "t2"));
     Set_ "_k" (fun s => Vc (s ! "_EL2" *v s ! "_v" +v h *s s ! "_NL2" /z 2));
     Set_ "t1" (fun s => Vc (s !! "_S" @ s ! "_k"));
     Call A "t2" "t1";
     Set_ "_NL3" (fun s => Vc (s !! "_Sinv" @ s ! "t2"));
     Set_ "_k" (fun s => Vc (s ! "_EL" *v s ! "_v" +v h *s s ! "_EL2" *v s ! "_NL3"));
     Set_ "t1" (fun s => Vc (s !! "_S" @ s ! "_k"));
     Call A "t2" "t1";
     Set_ "_NL4" (fun s => Vc (s !! "_Sinv" @ s ! "t2"));
     Set_ "_k" (fun s => Vc (s ! "_EL" *v s ! "_v" +v h *s (s ! "_EL" *v s ! "_NL1" /z 6 +v s ! "_EL2" *v s ! "_NL2" /z 3 +v s ! "_EL2" *v s ! "_NL3" /z 3 +v s ! "_NL4" /z 6)));
     Set_ "t1" (fun s => Vc (s !! "_S" @ s ! "_k"));
     Call A "t2" "t1";
     Set_ "_NL5" (fun s => Vc (s !! "_Sinv" @ s ! "t2"));
     Set_ "_err" (fun s => Vc (h *s (s ! "_NL4" -v s ! "_NL5") /z 6));
     Set_ "ret" (fun s => Vc (s !! "_S" @ s ! "_k"))].

  (** rkstiff/if34.py:235-254 *)
  Definition hif34n_stage (accept : bool) (h : T F) : list (instr A) :=
    (if accept then [Set_ "_NL1" (fun s => Vc (s ! "_NL5"))] else []) ++
    [Set_ "_k" (fun s => Vc (s !! "_EL2" @ s ! "u" +v h *s (s !! "_EL2" @ (s ! "_NL1" /z 2))));
     Call A "_NL2" "_k";
     Set_ "_k" (fun s => Vc (s !! "_EL2" @ s ! "u" +v h *s s ! "_NL2" /z 2));
     Call A "_NL3" "_k";
     Set_ "_k" (fun s => Vc (s !! "_EL" @ s ! "u" +v h *s (s !! "_EL2" @ s ! "_NL3")));
     Call A "_NL4" "_k";
     Set_ "_k" (fun s => Vc (s !! "_EL" @ s ! "u" +v h *s (s !! "_EL" @ (s ! "_NL1" /z 6) +v s !! "_EL2" @ (s ! "_NL2" /z 3) +v s !! "_EL2" @ (s ! "_NL3" /z 3) +v s ! "_NL4" /z 6)));
     Call A "_NL5" "_k";
     Set_ "_err" (fun s => Vc (h *s (s ! "_NL4" -v s ! "_NL5") /z 6))].

  (** ** IF45DP *)

  (** rkstiff/if45dp.py:206-238 *)
  Definition hdp_coef (h : T F) : list (instr A) :=
    let zh (q : Z) := tmul F (tofZ F q) h in
    [Set_ "z" (fun s => Vc (h *s s ! "lin_op"));
     Set_ "_EL15" (fun s => Vc (vexp (s ! "z" /z 5)));
     Set_ "_EL310" (fun s => Vc (vexp (3 *z s ! "z" /z 10)));
     Set_ "_EL45" (fun s => Vc (vexp (4 *z s ! "z" /z 5)));
     Set_ "_EL89" (fun s => Vc (vexp (8 *z s ! "z" /z 9)));
     Set_ "_EL" (fun s => Vc (vexp (s ! "z")));
     Set_ "EL710" (fun s => Vc (vexp (7 *z s ! "z" /z 10)));
     Set_ "EL19" (fun s => Vc (vexp (s ! "z" /z 9)));
     Set_ "_a21" (fun s => Vc (h *s s ! "_EL15" /z 5));
     Set_ "_a31" (fun s => Vc (zh 3 *s s ! "_EL310" /z 40));
     Set_ "_a32" (fun s => Vc (zh 9 *s vexp (s ! "z" /z 10) /z 40));
     Set_ "_a41" (fun s => Vc (zh 44 *s s ! "_EL45" /z 45));
     Set_ "_a42" (fun s => Vc (zh (-56) *s vexp (3 *z s ! "z" /z 5) /z 15));
     Set_ "_a43" (fun s => Vc (zh 32 *s vexp (s ! "z" /z 2) /z 9));
     Set_ "_a51" (fun s => Vc (zh 19372 *s s ! "_EL89" /z 6561));
     Set_ "_a52" (fun s => Vc (zh (-25360) *s vexp (31 *z s ! "z" /z 45) /z 2187));
     Set_ "_a53" (fun s => Vc (zh 64448 *s vexp (53 *z s ! "z" /z 90) /z 6561));
     Set_ "_a54" (fun s => Vc (zh (-212) *s vexp (4 *z s ! "z" /z 45) /z 729));
     Set_ "_a61" (fun s => Vc (zh 9017 *s s ! "_EL" /z 3168));
     Set_ "_a62" (fun s => Vc (zh (-355) *s s ! "_EL45" /z 33));
     Set_ "_a63" (fun s => Vc (zh 46732 *s s ! "EL710" /z 5247));
     Set_ "_a64" (fun s => Vc (zh 49 *s s ! "_EL15" /z 176));
     Set_ "_a65" (fun s => Vc (zh (-5103) *s s ! "EL19" /z 18656));
     Set_ "_a71" (fun s => Vc (zh 35 *s s ! "_EL" /z 384));
     Set_ "_a73" (fun s => Vc (zh 500 *s s ! "EL710" /z 1113));
     Set_ "_a74" (fun s => Vc (zh 125 *s s ! "_EL15" /z 192));
     Set_ "_a75" (fun s => Vc (zh (-2187) *s s ! "EL19" /z 6784));
     Set_ "_a76" (fun s => Sc A (tdiv F (zh 11) (tofZ F 84)));
     Set_ "_r1" (fun s => Vc (tmul F h (tofZ F 71) *s s ! "_EL" /z 57600));
     Set_ "_r3" (fun s => Vc (zh (-71) *s s ! "EL710" /z 16695));
     Set_ "_r4" (fun s => Vc (zh 17 *s s ! "_EL15" /z 1920));
     Set_ "_r5" (fun s => Vc (zh (-17253) *s s ! "EL19" /z 339200));
     Set_ "_r6" (fun s => Sc A (tdiv F (zh 22) (tofZ F 525)));
     Set_ "_r7" (fun s => Sc A (tdiv F (zh (-1)) (tofZ F 40)))].

  (** rkstiff/if45dp.py:133-181; [before]: the first stage was initialised before this call. *)
  Definition hdp_stage (before accept : bool) : list (instr A) :=
    (if before && accept then [Set_ "_NL1" (fun s => Vc (s ! "_NL7"))] else []) ++
    [Set_ "_k" (fun s => Vc (s ! "_EL15" *v s ! "u" +v s ! "_a21" *v s ! "_NL1"));
     Call A "_NL2" "_k";
     Set_ "_k" (fun s => Vc (s ! "_EL310" *v s ! "u" +v s ! "_a31" *v s ! "_NL1" +v s ! "_a32" *v s ! "_NL2"));
     Call A "_NL3" "_k";
     Set_ "_k" (fun s => Vc (s ! "_EL45" *v s ! "u" +v s ! "_a41" *v s ! "_NL1" +v s ! "_a42" *v s ! "_NL2" +v s ! "_a43" *v s ! "_NL3"));
     Call A "_NL4" "_k";
     Set_ "_k" (fun s => Vc (s ! "_EL89" *v s ! "u" +v s ! "_a51" *v s ! "_NL1" +v s ! "_a52" *v s ! "_NL2" +v s ! "_a53" *v s ! "_NL3" +v s ! "_a54" *v s ! "_NL4"));
     Call A "_NL5" "_k";
     Set_ "_k" (fun s => Vc (s ! "_EL" *v s ! "u" +v s ! "_a61" *v s ! "_NL1" +v s ! "_a62" *v s ! "_NL2" +v s ! "_a63" *v s ! "_NL3" +v s ! "_a64" *v s ! "_NL4" +v s ! "_a65" *v s ! "_NL5"));
     Call A "_NL6" "_k";
     Set_ "_k" (fun s => Vc (s ! "_EL" *v s ! "u" +v s ! "_a71" *v s ! "_NL1" +v s ! "_a73" *v s ! "_NL3" +v s ! "_a74" *v s ! "_NL4" +v s ! "_a75" *v s ! "_NL5" +v ass (s "_a76") *s s ! "_NL6"));
     Call A "_NL7" "_k";
     Set_ "_err" (fun s => Vc (s ! "_r1" *v s ! "_NL1" +v s ! "_r3" *v s ! "_NL3" +v s ! "_r4" *v s ! "_NL4" +v s ! "_r5" *v s ! "_NL5" +v ass (s "_r6") *s s ! "_NL6" +v ass (s "_r7") *s s ! "_NL7"))].

  (** ** ETD4, ETD34 *)

  (** rkstiff/etd4.py:87-139 *)
  Definition hetd4d_coef (h : T F) : list (instr A) :=
    let small (s : store A) := small_idx (s ! "z") (modecutoff cfg) in
    let big (s : store A) := not_idx (small s) in
    let half_of (x : E A) := ediv A x (lit A 2) in
    let id_of (x : E A) := x in
    [Set_ "z" (fun s => Vc (h *s s ! "lin_op"));
     Set_ "_EL" (fun s => Vc (vexp (s ! "z")));
     Set_ "_EL2" (fun s => Vc (vexp (s ! "z" /z 2)));
     Set_ "psi1_12" (fun s => Vc (h *s vpsi psi1 (s ! "z" /z 2)));
     Set_ "psi2_12" (fun s => Vc (h *s vpsi psi2 (s ! "z" /z 2)));
     Set_ "psi1_1" (fun s => Vc (h *s vpsi psi1 s ! "z"));
     Set_ "psi2_1" (fun s => Vc (h *s vpsi psi2 s ! "z"));
     Set_ "psi3_1" (fun s => Vc (h *s vpsi psi3 s ! "z"));
     Write "_a21" (fun s => Vc (mask_set (big s) (q 1 2 *s s ! "psi1_12") (s ! "_a21")));
     Write "_a31" (fun s => Vc (mask_set (big s) (q 1 2 *s (s ! "psi1_12" -v s ! "psi2_12")) (s ! "_a31")));
     Write "_a32" (fun s => Vc (mask_set (big s) (q 1 2 *s s ! "psi2_12") (s ! "_a32")));
     Write "_a41" (fun s => Vc (mask_set (big s) (s ! "psi1_1" -v s ! "psi2_1") (s ! "_a41")));
     Write "_a43" (fun s => Vc (mask_set (big s) (s ! "psi2_1") (s ! "_a43")));
     Write "_b1" (fun s => Vc (mask_set (big s) (s ! "psi1_1" -v q 3 2 *s s ! "psi2_1" +v q 2 3 *s s ! "psi3_1") (s ! "_b1")));
     Write "_b2" (fun s => Vc (mask_set (big s) (s ! "psi2_1" -v q 2 3 *s s ! "psi3_1") (s ! "_b2")));
     Write "_b4" (fun s => Vc (mask_set (big s) (q (-1) 2 *s s ! "psi2_1" +v q 2 3 *s s ! "psi3_1") (s ! "_b4")));
     Set_ "psi1_12" (fun s => Vc (fun i => contour_avg A cfg h (psi1 A) half_of (s ! "z" i)));
     Set_ "psi2_12" (fun s => Vc (fun i => contour_avg A cfg h (psi2 A) half_of (s ! "z" i)));
     Set_ "psi1_1" (fun s => Vc (fun i => contour_avg A cfg h (psi1 A) id_of (s ! "z" i)));
     Set_ "psi2_1" (fun s => Vc (fun i => contour_avg A cfg h (psi2 A) id_of (s ! "z" i)));
     Set_ "psi3_1" (fun s => Vc (fun i => contour_avg A cfg h (psi3 A) id_of (s ! "z" i)));
     Write "_a21" (fun s => Vc (mask_set (small s) (q 1 2 *s s ! "psi1_12") (s ! "_a21")));
     Write "_a31" (fun s => Vc (mask_set (small s) (q 1 2 *s (s ! "psi1_12" -v s ! "psi2_12")) (s ! "_a31")));
     Write "_a32" (fun s => Vc (mask_set (small s) (q 1 2 *s s ! "psi2_12") (s ! "_a32")));
     Write "_a41" (fun s => Vc (mask_set (small s) (s ! "psi1_1" -v s ! "psi2_1") (s ! "_a41")));
     Write "_a43" (fun s => Vc (mask_set (small s) (s ! "psi2_1") (s ! "_a43")));
     Write "_b1" (fun s => Vc (mask_set (small s) (s ! "psi1_1" -v q 3 2 *s s ! "psi2_1" +v q 2 3 *s s ! "psi3_1") (s ! "_b1")));
     Write "_b2" (fun s => Vc (mask_set (small s) (s ! "psi2_1" -v q 2 3 *s s ! "psi3_1") (s ! "_b2")));
     Write "_b4" (fun s => Vc (mask_set (small s) (q (-1) 2 *s s ! "psi2_1" +v q 2 3 *s s ! "psi3_1") (s ! "_b4")))].

  (** rkstiff/etd34.py:84-149 ([lin] is [lin_op]), 248-258 ([lin] is [_eig_vals]) *)
  Definition hetd34d_coef (lin : string) (h : T F) : list (instr A) :=
    let small (s : store A) := small_idx (s ! "z") (modecutoff cfg) in
    let big (s : store A) := not_idx (small s) in
    let half_of (x : E A) := ediv A x (lit A 2) in
    let id_of (x : E A) := x in
    [Set_ "z" (fun s => Vc (h *s s ! lin));
     Set_ "_EL" (fun s => Vc (vexp (s ! "z")));
     Set_ "_EL2" (fun s => Vc (vexp (s ! "z" /z 2)));
     Set_ "psi1_12" (fun s => Vc (h *s vpsi psi1 (s ! "z" /z 2)));
     Set_ "psi2_12" (fun s => Vc (h *s vpsi psi2 (s ! "z" /z 2)));
     Set_ "psi1_1" (fun s => Vc (h *s vpsi psi1 s ! "z"));
     Set_ "psi2_1" (fun s => Vc (h *s vpsi psi2 s ! "z"));
     Set_ "psi3_1" (fun s => Vc (h *s vpsi psi3 s ! "z"));
     Write "_a21" (fun s => Vc (mask_set (big s) (q 1 2 *s s ! "psi1_12") (s ! "_a21")));
     Write "_a31" (fun s => Vc (mask_set (big s) (q 1 2 *s (s ! "psi1_12" -v s ! "psi2_12")) (s ! "_a31")));
     Write "_a32" (fun s => Vc (mask_set (big s) (q 1 2 *s s ! "psi2_12") (s ! "_a32")));
     Write "_a41" (fun s => Vc (mask_set (big s) (s ! "psi1_1" -v s ! "psi2_1") (s ! "_a41")));
     Write "_a43" (fun s => Vc (mask_set (big s) (s ! "psi2_1") (s ! "_a43")));
     Write "_a51" (fun s => Vc (mask_set (big s) (s ! "psi1_1" -v q 3 2 *s s ! "psi2_1" +v q 2 3 *s s ! "psi3_1") (s ! "_a51")));
     Write "_a52" (fun s => Vc (mask_set (big s) (s ! "psi2_1" -v q 2 3 *s s ! "psi3_1") (s ! "_a52")));
     Write "_a54" (fun s => Vc (mask_set (big s) (q (-1) 2 *s s ! "psi2_1" +v q 2 3 *s s ! "psi3_1") (s ! "_a54")));
     Set_ "psi1_12" (fun s => Vc (fun i => contour_avg A cfg h (psi1 A) half_of (s ! "z" i)));
     Set_ "psi2_12" (fun s => Vc (fun i => contour_avg A cfg h (psi2 A) half_of (s ! "z" i)));
     Set_ "psi1_1" (fun s => Vc (fun i => contour_avg A cfg h (psi1 A) id_of (s ! "z" i)));
     Set_ "psi2_1" (fun s => Vc (fun i => contour_avg A cfg h (psi2 A) id_of (s ! "z" i)));
     Set_ "psi3_1" (fun s => Vc (fun i => contour_avg A cfg h (psi3 A) id_of (s ! "z" i)));
     Write "_a21" (fun s => Vc (mask_set (small s) (q 1 2 *s s ! "psi1_12") (s ! "_a21")));
     Write "_a31" (fun s => Vc (mask_set (small s) (q 1 2 *s (s ! "psi1_12" -v s ! "psi2_12")) (s ! "_a31")));
     Write "_a32" (fun s => Vc (mask_set (small s) (q 1 2 *s s ! "psi2_12") (s ! "_a32")));
     Write "_a41" (fun s => Vc (mask_set (small s) (s ! "psi1_1" -v s ! "psi2_1") (s ! "_a41")));
     Write "_a43" (fun s => Vc (mask_set (small s) (s ! "psi2_1") (s ! "_a43")));
     Write "_a51" (fun s => Vc (mask_set (small s) (s ! "psi1_1" -v q 3 2 *s s ! "psi2_1" +v q 2 3 *s s ! "psi3_1") (s ! "_a51")));
     Write "_a52" (fun s => Vc (mask_set (small s) (s ! "psi2_1" -v q 2 3 *s s ! "psi3_1") (s ! "_a52")));
     Write "_a54" (fun s => Vc (mask_set (small s) (q (-1) 2 *s s ! "psi2_1" +v q 2 3 *s s ! "psi3_1") (s ! "_a54")))].

  (** rkstiff/etd4.py:255-262, etd34.py:376-383: body of the loop over the contour points *)
  Definition hetd4_point (pt : E A) : list (instr A) :=
    [lib inv "Q" (fun s => mscale pt (eye A) -m s !! "z");
     lib inv "Q2" (fun s => mscale pt (eye A) -m s !! "z" /zm 2);
     Write "psi1_12" (fun s => Mc (s !! "psi1_12" +m mscale (emul A pt (psi1 A pt)) (s !! "Q2") /sm npts cfg));
     Write "psi2_12" (fun s => Mc (s !! "psi2_12" +m mscale (emul A pt (psi2 A pt)) (s !! "Q2") /sm npts cfg));
     Write "psi1_1" (fun s => Mc (s !! "psi1_1" +m mscale (emul A pt (psi1 A pt)) (s !! "Q") /sm npts cfg));
     Write "psi2_1" (fun s => Mc (s !! "psi2_1" +m mscale (emul A pt (psi2 A pt)) (s !! "Q") /sm npts cfg));
     Write "psi3_1" (fun s => Mc (s !! "psi3_1" +m mscale (emul A pt (psi3 A pt)) (s !! "Q") /sm npts cfg))].

  (** rkstiff/etd4.py:235-271 *)
  Definition hetd4n_coef (h : T F) : list (instr A) :=
    [Set_ "z" (fun s => Mc (h *sm s !! "lin_op"));
     lib expm "_EL" (fun s => s !! "z");
     lib expm "_EL2" (fun s => s !! "z" /zm 2)] ++
    zeros_m ["psi1_12"; "psi2_12"; "psi1_1"; "psi2_1"; "psi3_1"] ++
    flat_map hetd4_point (nodes A cfg) ++
    [Set_ "_a21" (fun s => Mc (tmul F (q 1 2) h *sm s !! "psi1_12"));
     Set_ "_a31" (fun s => Mc (tmul F (q 1 2) h *sm (s !! "psi1_12" -m s !! "psi2_12")));
     Set_ "_a32" (fun s => Mc (tmul F (q 1 2) h *sm s !! "psi2_12"));
     Set_ "_a41" (fun s => Mc (h *sm (s !! "psi1_1" -m s !! "psi2_1")));
     Set_ "_a43" (fun s => Mc (h *sm s !! "psi2_1"));
     Set_ "_b1" (fun s => Mc (h *sm (s !! "psi1_1" -m q 3 2 *sm s !! "psi2_1" +m q 2 3 *sm s !! "psi3_1")));
     Set_ "_b2" (fun s => Mc (h *sm (s !! "psi2_1" -m q 2 3 *sm s !! "psi3_1")));
     Set_ "_b4" (fun s => Mc (h *sm (q (-1) 2 *sm s !! "psi2_1" +m q 2 3 *sm s !! "psi3_1")))].

  (** rkstiff/etd34.py:356-392 *)
  Definition hetd34n_coef (h : T F) : list (instr A) :=
    [Set_ "z" (fun s => Mc (h *sm s !! "lin_op"));
     lib expm "_EL" (fun s => s !! "z");
     lib expm "_EL2" (fun s => s !! "z" /zm 2)] ++
    zeros_m ["psi1_12"; "psi2_12"; "psi1_1"; "psi2_1"; "psi3_1"] ++
    flat_map hetd4_point (nodes A cfg) ++
    [Set_ "_a21" (fun s => Mc (tmul F (q 1 2) h *sm s !! "psi1_12"));
     Set_ "_a31" (fun s => Mc (tmul F (q 1 2) h *sm (s !! "psi1_12" -m s !! "psi2_12")));
     Set_ "_a32" (fun s => Mc (tmul F (q 1 2) h *sm s !! "psi2_12"));
     Set_ "_a41" (fun s => Mc (h *sm (s !! "psi1_1" -m s !! "psi2_1")));
     Set_ "_a43" (fun s => Mc (h *sm s !! "psi2_1"));
     Set_ "_a51" (fun s => Mc (h *sm (s !! "psi1_1" -m q 3 2 *sm s !! "psi2_1" +m q 2 3 *sm s !! "psi3_1")));
     Set_ "_a52" (fun s => Mc (h *sm (s !! "psi2_1" -m q 2 3 *sm s !! "psi3_1")));
     Set_ "_a54" (fun s => Mc (h *sm (q (-1) 2 *sm s !! "psi2_1" +m q 2 3 *sm s !! "psi3_1")))].

  (** rkstiff/etd4.py:152-175 *)
  Definition hetd4d_stage : list (instr A) :=
    [Set_ "_k" (fun s => Vc (s ! "_EL2" *v s ! "u" +v s ! "_a21" *v s ! "_NL1"));
     Call A "_NL2" "_k";
     Set_ "_k" (fun s => Vc (s ! "_EL2" *v s ! "u" +v s ! "_a31" *v s ! "_NL1" +v s ! "_a32" *v s ! "_NL2"));
     Call A "_NL3" "_k";
     Set_ "_k" (fun s => Vc (s ! "_EL" *v s ! "u" +v s ! "_a41" *v s ! "_NL1" +v s ! "_a43" *v s ! "_NL3"));
     Call A "_NL4" "_k";
     Set_ "_k" (fun s => Vc (s ! "_EL" *v s ! "u" +v s ! "_b1" *v s ! "_NL1" +v s ! "_b2" *v (s ! "_NL2" +v s ! "_NL3") +v s ! "_b4" *v s ! "_NL4"));
     Call A "_NL1" "_k"].

  (** rkstiff/etd4.py:284-308 *)
  Definition hetd4n_stage : list (instr A) :=
    [Set_ "_k" (fun s => Vc (s !! "_EL2" @ s ! "u" +v s !! "_a21" @ s ! "_NL1"));
     Call A "_NL2" "_k";
     Set_ "_k" (fun s => Vc (s !! "_EL2" @ s ! "u" +v s !! "_a31" @ s ! "_NL1" +v s !! "_a32" @ s ! "_NL2"));
     Call A "_NL3" "_k";
     Set_ "_k" (fun s => Vc (s !! "_EL" @ s ! "u" +v s !! "_a41" @ s ! "_NL1" +v s !! "_a43" @ s ! "_NL3"));
     Call A "_NL4" "_k";
     Set_ "_k" (fun s => Vc (s !! "_EL" @ s ! "u" +v s !! "_b1" @ s ! "_NL1" +v s !! "_b2" @ (s ! "_NL2" +v s ! "_NL3") +v s !! "_b4" @ s ! "_NL4"));
     Call A "_NL1" "_k"].

  (** rkstiff/etd34.py:162-191 *)
  Definition hetd34d_stage (accept : bool) : list (instr A) :=
    (if accept then [Set_ "_NL1" (fun s => Vc (s ! "_NL5"))] else []) ++
    [Set_ "_k" (fun s => Vc (s ! "_EL2" *v s ! "u" +v s ! "_a21" *v s ! "_NL1"));
     Call A "_NL2" "_k";
     Set_ "_k" (fun s => Vc (s ! "_EL2" *v s ! "u" +v s ! "_a31" *v s ! "_NL1" +v s ! "_a32" *v s ! "_NL2"));
     Call A "_NL3" "_k";
     Set_ "_k" (fun s => Vc (s ! "_EL" *v s ! "u" +v s ! "_a41" *v s ! "_NL1" +v s ! "_a43" *v s ! "_NL3"));
     Call A "_NL4" "_k";
     Set_ "_k" (fun s => Vc (s ! "_EL" *v s ! "u" +v s ! "_a51" *v s ! "_NL1" +v s ! "_a52" *v (s ! "_NL2" +v s ! "_NL3") +v s ! "_a54" *v s ! "_NL4"));
     Call A "_NL5" "_k";
     Set_ "_err" (fun s => Vc (s ! "_a54" *v (s ! "_NL4" -v s ! "_NL5")))].

  (** rkstiff/etd34.py:272-304 *)
  Definition hetd34z_stage (accept : bool) : list (instr A) :=
    (if accept then [Set_ "_NL1" (fun s => Vc (s ! "_NL5"));
      Set_ "_v" (fun s => Vc (s !! "_Sinv" @ s ! "u"))] else []) ++
    [Set_ "_k" (fun s => Vc (s ! "_EL2" *v s ! "_v" +v s ! "_a21" *v s ! "_NL1"));
     Set_ "t1" (fun s => Vc (s !! "_S" @ s ! "_k"));
     Call A "t2" "t1";
     Set_ "_NL2" (fun s => Vc (s !! "_Sinv" @ s ! "t2"));
     Set_ "_k" (fun s => Vc (s ! "_EL2" *v s ! "_v" +v s ! "_a31" *v s ! "_NL1" +v s ! "_a32" *v s ! "_NL2"));
     Set_ "t1" (fun s => Vc (s !! "_S" @ s ! "_k"));
     Call A "t2" "t1";
     Set_ "_NL3" (fun s => Vc (s !! "_Sinv" @ s ! "t2"));
     Set_ "_k" (fun s => Vc (s ! "_EL" *v s ! "_v" +v s ! "_a41" *v s ! "_NL1" +v s ! "_a43" *v s ! "_NL3"));
     Set_ "t1" (fun s => Vc (s !! "_S" @ s ! "_k"));
     Call A "t2" "t1";
     Set_ "_NL4" (fun s => Vc (s !! "_Sinv" @ s ! "t2"));
     Set_ "_k" (fun s => Vc (s ! "_EL" *v s ! "_v" +v s ! "_a51" *v s ! "_NL1" +v s ! "_a52" *v (s ! "_NL2" +v s ! "_NL3") +v s ! "_a54" *v s ! "_NL4"));
     Set_ "t1" (fun s => Vc (s !! "_S" @ s ! "_k"));
     Call A "t2" "t1";
     Set_ "_NL5" (fun s => Vc (s !! "_Sinv" @ s ! "t2"));
     Set_ "_err" (fun s => Vc (s ! "_a54" *v (s ! "_NL4" -v s ! "_NL5")));
     Set_ "ret" (fun s => Vc (s !! "_S" @ s ! "_k"))].

  (** rkstiff/etd34.py:405-436 *)
  Definition hetd34n_stage (accept : bool) : list (instr A) :=
    (if accept then [Set_ "_NL1" (fun s => Vc (s ! "_NL5"))] else []) ++
    [Set_ "_k" (fun s => Vc (s !! "_EL2" @ s ! "u" +v s !! "_a21" @ s ! "_NL1"));
     Call A "_NL2" "_k";
     Set_ "_k" (fun s => Vc (s !! "_EL2" @ s ! "u" +v s !! "_a31" @ s ! "_NL1" +v s !! "_a32" @ s ! "_NL2"));
     Call A "_NL3" "_k";
     Set_ "_k" (fun s => Vc (s !! "_EL" @ s ! "u" +v s !! "_a41" @ s ! "_NL1" +v s !! "_a43" @ s ! "_NL3"));
     Call A "_NL4" "_k";
     Set_ "_k" (fun s => Vc (s !! "_EL" @ s ! "u" +v s !! "_a51" @ s ! "_NL1" +v s !! "_a52" @ (s ! "_NL2" +v s ! "_NL3") +v s !! "_a54" @ s ! "_NL4"));
     Call A "_NL5" "_k";
     Set_ "_err" (fun s => Vc (s !! "_a54" @ (s ! "_NL4" -v s ! "_NL5")))].

  (** ** ETD5, ETD35 *)

  (** rkstiff/etd5.py:115-203 *)
  Definition hetd5d_coef (h : T F) : list (instr A) :=
    let small (s : store A) := small_idx (s ! "z") (modecutoff cfg) in
    let big (s : store A) := not_idx (small s) in
    let q4 (x : E A) := ediv A x (lit A 4) in
    let q2 (x : E A) := ediv A x (lit A 2) in
    let q34 (x : E A) := ediv A (emul A (lit A 3) x) (lit A 4) in
    let q1 (x : E A) := x in
    [Set_ "z" (fun s => Vc (h *s s ! "lin_op"));
     Set_ "_EL14" (fun s => Vc (vexp (s ! "z" /z 4)));
     Set_ "_EL12" (fun s => Vc (vexp (s ! "z" /z 2)));
     Set_ "_EL34" (fun s => Vc (vexp (3 *z s ! "z" /z 4)));
     Set_ "_EL" (fun s => Vc (vexp (s ! "z")));
     Set_ "psi1_14" (fun s => Vc (h *s vpsi psi1 (s ! "z" /z 4)));
     Set_ "psi2_14" (fun s => Vc (h *s vpsi psi2 (s ! "z" /z 4)));
     Set_ "psi1_12" (fun s => Vc (h *s vpsi psi1 (s ! "z" /z 2)));
     Set_ "psi2_12" (fun s => Vc (h *s vpsi psi2 (s ! "z" /z 2)));
     Set_ "psi1_34" (fun s => Vc (h *s vpsi psi1 (3 *z s ! "z" /z 4)));
     Set_ "psi2_34" (fun s => Vc (h *s vpsi psi2 (3 *z s ! "z" /z 4)));
     Set_ "psi1_1" (fun s => Vc (h *s vpsi psi1 s ! "z"));
     Set_ "psi2_1" (fun s => Vc (h *s vpsi psi2 s ! "z"));
     Set_ "psi3_1" (fun s => Vc (h *s vpsi psi3 s ! "z"));
     Write "_a21" (fun s => Vc (mask_set (big s) (s ! "psi1_14" /z 4) (s ! "_a21")));
     Write "_a31" (fun s => Vc (mask_set (big s) ((s ! "psi1_14" -v s ! "psi2_14" /z 2) /z 4) (s ! "_a31")));
     Write "_a32" (fun s => Vc (mask_set (big s) (s ! "psi2_14" /z 8) (s ! "_a32")));
     Write "_a41" (fun s => Vc (mask_set (big s) ((s ! "psi1_12" -v s ! "psi2_12") /z 2) (s ! "_a41")));
     Write "_a43" (fun s => Vc (mask_set (big s) (s ! "psi2_12" /z 2) (s ! "_a43")));
     Write "_a51" (fun s => Vc (mask_set (big s) (3 *z (s ! "psi1_34" -v 3 *z s ! "psi2_34" /z 4) /z 4) (s ! "_a51")));
     Write "_a52" (fun s => Vc (mask_set (big s) ((-3) *z s ! "psi1_34" /z 8) (s ! "_a52")));
     Write "_a54" (fun s => Vc (mask_set (big s) (9 *z s ! "psi2_34" /z 16) (s ! "_a54")));
     Write "_a61" (fun s => Vc (mask_set (big s) (((-77) *z s ! "psi1_1" +v 59 *z s ! "psi2_1") /z 42) (s ! "_a61")));
     Write "_a62" (fun s => Vc (mask_set (big s) (8 *z s ! "psi1_1" /z 7) (s ! "_a62")));
     Write "_a63" (fun s => Vc (mask_set (big s) ((111 *z s ! "psi1_1" -v 87 *z s ! "psi2_1") /z 28) (s ! "_a63")));
     Write "_a65" (fun s => Vc (mask_set (big s) (((-47) *z s ! "psi1_1" +v 143 *z s ! "psi2_1") /z 84) (s ! "_a65")));
     Write "_b1" (fun s => Vc (mask_set (big s) (7 *z (257 *z s ! "psi1_1" -v 497 *z s ! "psi2_1" +v 270 *z s ! "psi3_1") /z 2700) (s ! "_b1")));
     Write "_b3" (fun s => Vc (mask_set (big s) ((1097 *z s ! "psi1_1" -v 467 *z s ! "psi2_1" -v 150 *z s ! "psi3_1") /z 1350) (s ! "_b3")));
     Write "_b4" (fun s => Vc (mask_set (big s) (2 *z ((-49) *z s ! "psi1_1" +v 199 *z s ! "psi2_1" -v 135 *z s ! "psi3_1") /z 225) (s ! "_b4")));
     Write "_b5" (fun s => Vc (mask_set (big s) (((-313) *z s ! "psi1_1" +v 883 *z s ! "psi2_1" -v 90 *z s ! "psi3_1") /z 1350) (s ! "_b5")));
     Write "_b6" (fun s => Vc (mask_set (big s) ((509 *z s ! "psi1_1" -v 2129 *z s ! "psi2_1" +v 1830 *z s ! "psi3_1") /z 2700) (s ! "_b6")));
     Set_ "psi1_14" (fun s => Vc (fun i => contour_avg A cfg h (psi1 A) q4 (s ! "z" i)));
     Set_ "psi2_14" (fun s => Vc (fun i => contour_avg A cfg h (psi2 A) q4 (s ! "z" i)));
     Set_ "psi1_12" (fun s => Vc (fun i => contour_avg A cfg h (psi1 A) q2 (s ! "z" i)));
     Set_ "psi2_12" (fun s => Vc (fun i => contour_avg A cfg h (psi2 A) q2 (s ! "z" i)));
     Set_ "psi1_34" (fun s => Vc (fun i => contour_avg A cfg h (psi1 A) q34 (s ! "z" i)));
     Set_ "psi2_34" (fun s => Vc (fun i => contour_avg A cfg h (psi2 A) q34 (s ! "z" i)));
     Set_ "psi1_1" (fun s => Vc (fun i => contour_avg A cfg h (psi1 A) q1 (s ! "z" i)));
     Set_ "psi2_1" (fun s => Vc (fun i => contour_avg A cfg h (psi2 A) q1 (s ! "z" i)));
     Set_ "psi3_1" (fun s => Vc (fun i => contour_avg A cfg h (psi3 A) q1 (s ! "z" i)));
     Write "_a21" (fun s => Vc (mask_set (small s) (s ! "psi1_14" /z 4) (s ! "_a21")));
     Write "_a31" (fun s => Vc (mask_set (small s) ((s ! "psi1_14" -v s ! "psi2_14" /z 2) /z 4) (s ! "_a31")));
     Write "_a32" (fun s => Vc (mask_set (small s) (s ! "psi2_14" /z 8) (s ! "_a32")));
     Write "_a41" (fun s => Vc (mask_set (small s) ((s ! "psi1_12" -v s ! "psi2_12") /z 2) (s ! "_a41")));
     Write "_a43" (fun s => Vc (mask_set (small s) (s ! "psi2_12" /z 2) (s ! "_a43")));
     Write "_a51" (fun s => Vc (mask_set (small s) (3 *z (s ! "psi1_34" -v 3 *z s ! "psi2_34" /z 4) /z 4) (s ! "_a51")));
     Write "_a52" (fun s => Vc (mask_set (small s) ((-3) *z s ! "psi1_34" /z 8) (s ! "_a52")));
     Write "_a54" (fun s => Vc (mask_set (small s) (9 *z s ! "psi2_34" /z 16) (s ! "_a54")));
     Write "_a61" (fun s => Vc (mask_set (small s) (((-77) *z s ! "psi1_1" +v 59 *z s ! "psi2_1") /z 42) (s ! "_a61")));
     Write "_a62" (fun s => Vc (mask_set (small s) (8 *z s ! "psi1_1" /z 7) (s ! "_a62")));
     Write "_a63" (fun s => Vc (mask_set (small s) ((111 *z s ! "psi1_1" -v 87 *z s ! "psi2_1") /z 28) (s ! "_a63")));
     Write "_a65" (fun s => Vc (mask_set (small s) (((-47) *z s ! "psi1_1" +v 143 *z s ! "psi2_1") /z 84) (s ! "_a65")));
     Write "_b1" (fun s => Vc (mask_set (small s) (7 *z (257 *z s ! "psi1_1" -v 497 *z s ! "psi2_1" +v 270 *z s ! "psi3_1") /z 2700) (s ! "_b1")));
     Write "_b3" (fun s => Vc (mask_set (small s) ((1097 *z s ! "psi1_1" -v 467 *z s ! "psi2_1" -v 150 *z s ! "psi3_1") /z 1350) (s ! "_b3")));
     Write "_b4" (fun s => Vc (mask_set (small s) (2 *z ((-49) *z s ! "psi1_1" +v 199 *z s ! "psi2_1" -v 135 *z s ! "psi3_1") /z 225) (s ! "_b4")));
     Write "_b5" (fun s => Vc (mask_set (small s) (((-313) *z s ! "psi1_1" +v 883 *z s ! "psi2_1" -v 90 *z s ! "psi3_1") /z 1350) (s ! "_b5")));
     Write "_b6" (fun s => Vc (mask_set (small s) ((509 *z s ! "psi1_1" -v 2129 *z s ! "psi2_1" +v 1830 *z s ! "psi3_1") /z 2700) (s ! "_b6")))].

  (** rkstiff/etd35.py:157-288 ([lin] is [lin_op]), 423-433 ([lin] is [_eig_vals]). The early returns for empty masks change
      nothing and are not modelled. *)
  Definition hetd35d_coef (lin : string) (h : T F) : list (instr A) :=
    let small (s : store A) := small_idx (s ! "z") (modecutoff cfg) in
    let big (s : store A) := not_idx (small s) in
    let factor (f : T F) (x : E A) := emul A (eofT A f) x in
    let q4 := factor (q 1 4) in
    let q2 := factor (q 1 2) in
    let q34 := factor (q 3 4) in
    let q1 := factor (tofZ F 1) in
    [Set_ "z" (fun s => Vc (h *s s ! lin));
     Set_ "_EL14" (fun s => Vc (vexp (s ! "z" /z 4)));
     Set_ "_EL12" (fun s => Vc (vexp (s ! "z" /z 2)));
     Set_ "_EL34" (fun s => Vc (vexp (3 *z s ! "z" /z 4)));
     Set_ "_EL" (fun s => Vc (vexp (s ! "z")));
     Set_ "psi1_14" (fun s => Vc (h *s vpsi psi1 (s ! "z" /z 4)));
     Set_ "psi2_14" (fun s => Vc (h *s vpsi psi2 (s ! "z" /z 4)));
     Set_ "psi1_12" (fun s => Vc (h *s vpsi psi1 (s ! "z" /z 2)));
     Set_ "psi2_12" (fun s => Vc (h *s vpsi psi2 (s ! "z" /z 2)));
     Set_ "psi1_34" (fun s => Vc (h *s vpsi psi1 (3 *z s ! "z" /z 4)));
     Set_ "psi2_34" (fun s => Vc (h *s vpsi psi2 (3 *z s ! "z" /z 4)));
     Set_ "psi1_1" (fun s => Vc (h *s vpsi psi1 s ! "z"));
     Set_ "psi2_1" (fun s => Vc (h *s vpsi psi2 s ! "z"));
     Set_ "psi3_1" (fun s => Vc (h *s vpsi psi3 s ! "z"));
     Write "_a21" (fun s => Vc (mask_set (big s) (s ! "psi1_14" /z 4) (s ! "_a21")));
     Write "_a31" (fun s => Vc (mask_set (big s) ((s ! "psi1_14" -v s ! "psi2_14" /z 2) /z 4) (s ! "_a31")));
     Write "_a32" (fun s => Vc (mask_set (big s) (s ! "psi2_14" /z 8) (s ! "_a32")));
     Write "_a41" (fun s => Vc (mask_set (big s) ((s ! "psi1_12" -v s ! "psi2_12") /z 2) (s ! "_a41")));
     Write "_a43" (fun s => Vc (mask_set (big s) (s ! "psi2_12" /z 2) (s ! "_a43")));
     Write "_a51" (fun s => Vc (mask_set (big s) (3 *z (s ! "psi1_34" -v 3 *z s ! "psi2_34" /z 4) /z 4) (s ! "_a51")));
     Write "_a52" (fun s => Vc (mask_set (big s) ((-3) *z s ! "psi1_34" /z 8) (s ! "_a52")));
     Write "_a54" (fun s => Vc (mask_set (big s) (9 *z s ! "psi2_34" /z 16) (s ! "_a54")));
     Write "_a61" (fun s => Vc (mask_set (big s) (((-77) *z s ! "psi1_1" +v 59 *z s ! "psi2_1") /z 42) (s ! "_a61")));
     Write "_a62" (fun s => Vc (mask_set (big s) (8 *z s ! "psi1_1" /z 7) (s ! "_a62")));
     Write "_a63" (fun s => Vc (mask_set (big s) ((111 *z s ! "psi1_1" -v 87 *z s ! "psi2_1") /z 28) (s ! "_a63")));
     Write "_a65" (fun s => Vc (mask_set (big s) (((-47) *z s ! "psi1_1" +v 143 *z s ! "psi2_1") /z 84) (s ! "_a65")));
     Write "_a71" (fun s => Vc (mask_set (big s) (7 *z (257 *z s ! "psi1_1" -v 497 *z s ! "psi2_1" +v 270 *z s ! "psi3_1") /z 2700) (s ! "_a71")));
     Write "_a73" (fun s => Vc (mask_set (big s) ((1097 *z s ! "psi1_1" -v 467 *z s ! "psi2_1" -v 150 *z s ! "psi3_1") /z 1350) (s ! "_a73")));
     Write "_a74" (fun s => Vc (mask_set (big s) (2 *z ((-49) *z s ! "psi1_1" +v 199 *z s ! "psi2_1" -v 135 *z s ! "psi3_1") /z 225) (s ! "_a74")));
     Write "_a75" (fun s => Vc (mask_set (big s) (((-313) *z s ! "psi1_1" +v 883 *z s ! "psi2_1" -v 90 *z s ! "psi3_1") /z 1350) (s ! "_a75")));
     Write "_a76" (fun s => Vc (mask_set (big s) ((509 *z s ! "psi1_1" -v 2129 *z s ! "psi2_1" +v 1830 *z s ! "psi3_1") /z 2700) (s ! "_a76")));
     Set_ "psi1_14" (fun s => Vc (fun i => contour_avg A cfg h (psi1 A) q4 (s ! "z" i)));
     Set_ "psi2_14" (fun s => Vc (fun i => contour_avg A cfg h (psi2 A) q4 (s ! "z" i)));
     Set_ "psi1_12" (fun s => Vc (fun i => contour_avg A cfg h (psi1 A) q2 (s ! "z" i)));
     Set_ "psi2_12" (fun s => Vc (fun i => contour_avg A cfg h (psi2 A) q2 (s ! "z" i)));
     Set_ "psi1_34" (fun s => Vc (fun i => contour_avg A cfg h (psi1 A) q34 (s ! "z" i)));
     Set_ "psi2_34" (fun s => Vc (fun i => contour_avg A cfg h (psi2 A) q34 (s ! "z" i)));
     Set_ "psi1_1" (fun s => Vc (fun i => contour_avg A cfg h (psi1 A) q1 (s ! "z" i)));
     Set_ "psi2_1" (fun s => Vc (fun i => contour_avg A cfg h (psi2 A) q1 (s ! "z" i)));
     Set_ "psi3_1" (fun s => Vc (fun i => contour_avg A cfg h (psi3 A) q1 (s ! "z" i)));
     Write "_a21" (fun s => Vc (mask_set (small s) (s ! "psi1_14" /z 4) (s ! "_a21")));
     Write "_a31" (fun s => Vc (mask_set (small s) ((s ! "psi1_14" -v s ! "psi2_14" /z 2) /z 4) (s ! "_a31")));
     Write "_a32" (fun s => Vc (mask_set (small s) (s ! "psi2_14" /z 8) (s ! "_a32")));
     Write "_a41" (fun s => Vc (mask_set (small s) ((s ! "psi1_12" -v s ! "psi2_12") /z 2) (s ! "_a41")));
     Write "_a43" (fun s => Vc (mask_set (small s) (s ! "psi2_12" /z 2) (s ! "_a43")));
     Write "_a51" (fun s => Vc (mask_set (small s) (3 *z (s ! "psi1_34" -v 3 *z s ! "psi2_34" /z 4) /z 4) (s ! "_a51")));
     Write "_a52" (fun s => Vc (mask_set (small s) ((-3) *z s ! "psi1_34" /z 8) (s ! "_a52")));
     Write "_a54" (fun s => Vc (mask_set (small s) (9 *z s ! "psi2_34" /z 16) (s ! "_a54")));
     Write "_a61" (fun s => Vc (mask_set (small s) (((-77) *z s ! "psi1_1" +v 59 *z s ! "psi2_1") /z 42) (s ! "_a61")));
     Write "_a62" (fun s => Vc (mask_set (small s) (8 *z s ! "psi1_1" /z 7) (s ! "_a62")));
     Write "_a63" (fun s => Vc (mask_set (small s) ((111 *z s ! "psi1_1" -v 87 *z s ! "psi2_1") /z 28) (s ! "_a63")));
     Write "_a65" (fun s => Vc (mask_set (small s) (((-47) *z s ! "psi1_1" +v 143 *z s ! "psi2_1") /z 84) (s ! "_a65")));
     Write "_a71" (fun s => Vc (mask_set (small s) (7 *z (257 *z s ! "psi1_1" -v 497 *z s ! "psi2_1" +v 270 *z s ! "psi3_1") /z 2700) (s ! "_a71")));
     Write "_a73" (fun s => Vc (mask_set (small s) ((1097 *z s ! "psi1_1" -v 467 *z s ! "psi2_1" -v 150 *z s ! "psi3_1") /z 1350) (s ! "_a73")));
     Write "_a74" (fun s => Vc (mask_set (small s) (2 *z ((-49) *z s ! "psi1_1" +v 199 *z s ! "psi2_1" -v 135 *z s ! "psi3_1") /z 225) (s ! "_a74")));
     Write "_a75" (fun s => Vc (mask_set (small s) (((-313) *z s ! "psi1_1" +v 883 *z s ! "psi2_1" -v 90 *z s ! "psi3_1") /z 1350) (s ! "_a75")));
     Write "_a76" (fun s => Vc (mask_set (small s) ((509 *z s ! "psi1_1" -v 2129 *z s ! "psi2_1" +v 1830 *z s ! "psi3_1") /z 2700) (s ! "_a76")))].

  (** rkstiff/etd5.py:389-402, etd35.py:627-640: body of the loop over the contour points *)
  Definition hetd5_point (pt : E A) : list (instr A) :=
    [lib inv "Q14" (fun s => mscale pt (eye A) -m s !! "z" /zm 4);
     lib inv "Q12" (fun s => mscale pt (eye A) -m s !! "z" /zm 2);
     lib inv "Q34" (fun s => mscale pt (eye A) -m 3 *zm s !! "z" /zm 4);
     lib inv "Q" (fun s => mscale pt (eye A) -m s !! "z");
     Write "psi1_14" (fun s => Mc (s !! "psi1_14" +m mscale (emul A pt (psi1 A pt)) (s !! "Q14") /sm npts cfg));
     Write "psi2_14" (fun s => Mc (s !! "psi2_14" +m mscale (emul A pt (psi2 A pt)) (s !! "Q14") /sm npts cfg));
     Write "psi1_12" (fun s => Mc (s !! "psi1_12" +m mscale (emul A pt (psi1 A pt)) (s !! "Q12") /sm npts cfg));
     Write "psi2_12" (fun s => Mc (s !! "psi2_12" +m mscale (emul A pt (psi2 A pt)) (s !! "Q12") /sm npts cfg));
     Write "psi1_34" (fun s => Mc (s !! "psi1_34" +m mscale (emul A pt (psi1 A pt)) (s !! "Q34") /sm npts cfg));
     Write "psi2_34" (fun s => Mc (s !! "psi2_34" +m mscale (emul A pt (psi2 A pt)) (s !! "Q34") /sm npts cfg));
     Write "psi1_1" (fun s => Mc (s !! "psi1_1" +m mscale (emul A pt (psi1 A pt)) (s !! "Q") /sm npts cfg));
     Write "psi2_1" (fun s => Mc (s !! "psi2_1" +m mscale (emul A pt (psi2 A pt)) (s !! "Q") /sm npts cfg));
     Write "psi3_1" (fun s => Mc (s !! "psi3_1" +m mscale (emul A pt (psi3 A pt)) (s !! "Q") /sm npts cfg))].

  (** rkstiff/etd5.py:360-420 *)
  Definition hetd5n_coef (h : T F) : list (instr A) :=
    [Set_ "z" (fun s => Mc (h *sm s !! "lin_op"));
     lib expm "_EL14" (fun s => s !! "z" /zm 4);
     lib expm "_EL12" (fun s => s !! "z" /zm 2);
     lib expm "_EL34" (fun s => 3 *zm s !! "z" /zm 4);
     lib expm "_EL" (fun s => s !! "z")] ++
    zeros_m ["psi1_14"; "psi2_14"; "psi1_12"; "psi2_12"; "psi1_34"; "psi2_34"; "psi1_1"; "psi2_1"; "psi3_1"] ++
    flat_map hetd5_point (nodes A cfg) ++
    [Set_ "_a21" (fun s => Mc (h *sm s !! "psi1_14" /zm 4));
     Set_ "_a31" (fun s => Mc (h *sm (s !! "psi1_14" -m s !! "psi2_14" /zm 2) /zm 4));
     Set_ "_a32" (fun s => Mc (h *sm s !! "psi2_14" /zm 8));
     Set_ "_a41" (fun s => Mc (h *sm (s !! "psi1_12" -m s !! "psi2_12") /zm 2));
     Set_ "_a43" (fun s => Mc (h *sm s !! "psi2_12" /zm 2));
     Set_ "_a51" (fun s => Mc (tmul F h (tofZ F 3) *sm (s !! "psi1_34" -m 3 *zm s !! "psi2_34" /zm 4) /zm 4));
     Set_ "_a52" (fun s => Mc (tmul F (tofZ F (-3)) h *sm s !! "psi1_34" /zm 8));
     Set_ "_a54" (fun s => Mc (tmul F h (tofZ F 9) *sm s !! "psi2_34" /zm 16));
     Set_ "_a61" (fun s => Mc (h *sm ((-77) *zm s !! "psi1_1" +m 59 *zm s !! "psi2_1") /zm 42));
     Set_ "_a62" (fun s => Mc (tmul F h (tofZ F 8) *sm s !! "psi1_1" /zm 7));
     Set_ "_a63" (fun s => Mc (h *sm (111 *zm s !! "psi1_1" -m 87 *zm s !! "psi2_1") /zm 28));
     Set_ "_a65" (fun s => Mc (h *sm ((-47) *zm s !! "psi1_1" +m 143 *zm s !! "psi2_1") /zm 84));
     Set_ "_b1" (fun s => Mc (tmul F h (tofZ F 7) *sm (257 *zm s !! "psi1_1" -m 497 *zm s !! "psi2_1" +m 270 *zm s !! "psi3_1") /zm 2700));
     Set_ "_b3" (fun s => Mc (h *sm (1097 *zm s !! "psi1_1" -m 467 *zm s !! "psi2_1" -m 150 *zm s !! "psi3_1") /zm 1350));
     Set_ "_b4" (fun s => Mc (tmul F h (tofZ F 2) *sm ((-49) *zm s !! "psi1_1" +m 199 *zm s !! "psi2_1" -m 135 *zm s !! "psi3_1") /zm 225));
     Set_ "_b5" (fun s => Mc (h *sm ((-313) *zm s !! "psi1_1" +m 883 *zm s !! "psi2_1" -m 90 *zm s !! "psi3_1") /zm 1350));
     Set_ "_b6" (fun s => Mc (h *sm (509 *zm s !! "psi1_1" -m 2129 *zm s !! "psi2_1" +m 1830 *zm s !! "psi3_1") /zm 2700))].

  (** rkstiff/etd35.py:602-658 *)
  Definition hetd35n_coef (h : T F) : list (instr A) :=
    [Set_ "z" (fun s => Mc (h *sm s !! "lin_op"));
     lib expm "_EL14" (fun s => s !! "z" /zm 4);
     lib expm "_EL12" (fun s => s !! "z" /zm 2);
     lib expm "_EL34" (fun s => 3 *zm s !! "z" /zm 4);
     lib expm "_EL" (fun s => s !! "z")] ++
    zeros_m ["psi1_14"; "psi2_14"; "psi1_12"; "psi2_12"; "psi1_34"; "psi2_34"; "psi1_1"; "psi2_1"; "psi3_1"] ++
    flat_map hetd5_point (nodes A cfg) ++
    [Set_ "_a21" (fun s => Mc (h *sm s !! "psi1_14" /zm 4));
     Set_ "_a31" (fun s => Mc (h *sm (s !! "psi1_14" -m s !! "psi2_14" /zm 2) /zm 4));
     Set_ "_a32" (fun s => Mc (h *sm s !! "psi2_14" /zm 8));
     Set_ "_a41" (fun s => Mc (h *sm (s !! "psi1_12" -m s !! "psi2_12") /zm 2));
     Set_ "_a43" (fun s => Mc (h *sm s !! "psi2_12" /zm 2));
     Set_ "_a51" (fun s => Mc (tmul F h (tofZ F 3) *sm (s !! "psi1_34" -m 3 *zm s !! "psi2_34" /zm 4) /zm 4));
     Set_ "_a52" (fun s => Mc (tmul F (tofZ F (-3)) h *sm s !! "psi1_34" /zm 8));
     Set_ "_a54" (fun s => Mc (tmul F h (tofZ F 9) *sm s !! "psi2_34" /zm 16));
     Set_ "_a61" (fun s => Mc (h *sm ((-77) *zm s !! "psi1_1" +m 59 *zm s !! "psi2_1") /zm 42));
     Set_ "_a62" (fun s => Mc (tmul F h (tofZ F 8) *sm s !! "psi1_1" /zm 7));
     Set_ "_a63" (fun s => Mc (h *sm (111 *zm s !! "psi1_1" -m 87 *zm s !! "psi2_1") /zm 28));
     Set_ "_a65" (fun s => Mc (h *sm ((-47) *zm s !! "psi1_1" +m 143 *zm s !! "psi2_1") /zm 84));
     Set_ "_a71" (fun s => Mc (tmul F h (tofZ F 7) *sm (257 *zm s !! "psi1_1" -m 497 *zm s !! "psi2_1" +m 270 *zm s !! "psi3_1") /zm 2700));
     Set_ "_a73" (fun s => Mc (h *sm (1097 *zm s !! "psi1_1" -m 467 *zm s !! "psi2_1" -m 150 *zm s !! "psi3_1") /zm 1350));
     Set_ "_a74" (fun s => Mc (tmul F h (tofZ F 2) *sm ((-49) *zm s !! "psi1_1" +m 199 *zm s !! "psi2_1" -m 135 *zm s !! "psi3_1") /zm 225));
     Set_ "_a75" (fun s => Mc (h *sm ((-313) *zm s !! "psi1_1" +m 883 *zm s !! "psi2_1" -m 90 *zm s !! "psi3_1") /zm 1350));
     Set_ "_a76" (fun s => Mc (h *sm (509 *zm s !! "psi1_1" -m 2129 *zm s !! "psi2_1" +m 1830 *zm s !! "psi3_1") /zm 2700))].

  (** rkstiff/etd5.py:219-261 *)
  Definition hetd5d_stage : list (instr A) :=
    [Set_ "_k" (fun s => Vc (s ! "_EL14" *v s ! "u" +v s ! "_a21" *v s ! "_NL1"));
     Call A "_NL2" "_k";
     Set_ "_k" (fun s => Vc (s ! "_EL14" *v s ! "u" +v s ! "_a31" *v s ! "_NL1" +v s ! "_a32" *v s ! "_NL2"));
     Call A "_NL3" "_k";
     Set_ "_k" (fun s => Vc (s ! "_EL12" *v s ! "u" +v s ! "_a41" *v s ! "_NL1" +v s ! "_a43" *v s ! "_NL3"));
     Call A "_NL4" "_k";
     Set_ "_k" (fun s => Vc (s ! "_EL34" *v s ! "u" +v s ! "_a51" *v s ! "_NL1" +v s ! "_a52" *v (s ! "_NL2" -v s ! "_NL3") +v s ! "_a54" *v s ! "_NL4"));
     Call A "_NL5" "_k";
     Set_ "_k" (fun s => Vc (s ! "_EL" *v s ! "u" +v s ! "_a61" *v s ! "_NL1" +v s ! "_a62" *v (s ! "_NL2" -v 3 *z s ! "_NL4" /z 2) +v s ! "_a63" *v s ! "_NL3" +v s ! "_a65" *v s ! "_NL5"));
     Call A "_NL6" "_k";
     Set_ "_k" (fun s => Vc (s ! "_EL" *v s ! "u" +v s ! "_b1" *v s ! "_NL1" +v s ! "_b3" *v s ! "_NL3" +v s ! "_b4" *v s ! "_NL4" +v s ! "_b5" *v s ! "_NL5" +v s ! "_b6" *v s ! "_NL6"));
     Call A "_NL1" "_k"].

  (** rkstiff/etd5.py:435-482 *)
  Definition hetd5n_stage : list (instr A) :=
    [Set_ "_k" (fun s => Vc (s !! "_EL14" @ s ! "u" +v s !! "_a21" @ s ! "_NL1"));
     Call A "_NL2" "_k";
     Set_ "_k" (fun s => Vc (s !! "_EL14" @ s ! "u" +v s !! "_a31" @ s ! "_NL1" +v s !! "_a32" @ s ! "_NL2"));
     Call A "_NL3" "_k";
     Set_ "_k" (fun s => Vc (s !! "_EL12" @ s ! "u" +v s !! "_a41" @ s ! "_NL1" +v s !! "_a43" @ s ! "_NL3"));
     Call A "_NL4" "_k";
     Set_ "_k" (fun s => Vc (s !! "_EL34" @ s ! "u" +v s !! "_a51" @ s ! "_NL1" +v s !! "_a52" @ (s ! "_NL2" -v s ! "_NL3") +v s !! "_a54" @ s ! "_NL4"));
     Call A "_NL5" "_k";
     Set_ "_k" (fun s => Vc (s !! "_EL" @ s ! "u" +v s !! "_a61" @ s ! "_NL1" +v s !! "_a62" @ (s ! "_NL2" -v 3 *z s ! "_NL4" /z 2) +v s !! "_a63" @ s ! "_NL3" +v s !! "_a65" @ s ! "_NL5"));
     Call A "_NL6" "_k";
     Set_ "_k" (fun s => Vc (s !! "_EL" @ s ! "u" +v s !! "_b1" @ s ! "_NL1" +v s !! "_b3" @ s ! "_NL3" +v s !! "_b4" @ s ! "_NL4" +v s !! "_b5" @ s ! "_NL5" +v s !! "_b6" @ s ! "_NL6"));
     Call A "_NL1" "_k"].

  (** rkstiff/etd35.py:301-345 *)
  Definition hetd35d_stage (accept : bool) : list (instr A) :=
    (if accept then [Call A "_NL1" "u"] else []) ++
    [Set_ "_k" (fun s => Vc (s ! "_EL14" *v s ! "u" +v s ! "_a21" *v s ! "_NL1"));
     Call A "_NL2" "_k";
     Set_ "_k" (fun s => Vc (s ! "_EL14" *v s ! "u" +v s ! "_a31" *v s ! "_NL1" +v s ! "_a32" *v s ! "_NL2"));
     Call A "_NL3" "_k";
     Set_ "_k" (fun s => Vc (s ! "_EL12" *v s ! "u" +v s ! "_a41" *v s ! "_NL1" +v s ! "_a43" *v s ! "_NL3"));
     Call A "_NL4" "_k";
     Set_ "_k" (fun s => Vc (s ! "_EL34" *v s ! "u" +v s ! "_a51" *v s ! "_NL1" +v s ! "_a52" *v (s ! "_NL2" -v s ! "_NL3") +v s ! "_a54" *v s ! "_NL4"));
     Call A "_NL5" "_k";
     Set_ "_k" (fun s => Vc (s ! "_EL" *v s ! "u" +v s ! "_a61" *v s ! "_NL1" +v s ! "_a62" *v (s ! "_NL2" -v 3 *z s ! "_NL4" /z 2) +v s ! "_a63" *v s ! "_NL3" +v s ! "_a65" *v s ! "_NL5"));
     Call A "_NL6" "_k";
     Set_ "_k" (fun s => Vc (s ! "_EL" *v s ! "u" +v s ! "_a71" *v s ! "_NL1" +v s ! "_a73" *v s ! "_NL3" +v s ! "_a74" *v s ! "_NL4" +v s ! "_a75" *v s ! "_NL5" +v s ! "_a76" *v s ! "_NL6"));
     Set_ "_err" (fun s => Vc (s ! "_a75" *v (vneg (s ! "_NL1") +v 4 *z s ! "_NL3" -v 6 *z s ! "_NL4" +v 4 *z s ! "_NL5" -v s ! "_NL6")))].

  (** rkstiff/etd35.py:448-495 *)
  Definition hetd35z_stage (accept : bool) : list (instr A) :=
    (if accept then [Call A "t2" "u";
      Set_ "_NL1" (fun s => Vc (s !! "_Sinv" @ s ! "t2"));
      Set_ "_v" (fun s => Vc (s !! "_Sinv" @ s ! "u"))] else []) ++
    [Set_ "_k" (fun s => Vc (s ! "_EL14" *v s ! "_v" +v s ! "_a21" *v s ! "_NL1"));
     Set_ "t1" (fun s => Vc (s !! "_S" @ s ! "_k"));
     Call A "t2" "t1";
     Set_ "_NL2" (fun s => Vc (s !! "_Sinv" @ s ! "t2"));
     Set_ "_k" (fun s => Vc (s ! "_EL14" *v s ! "_v" +v s ! "_a31" *v s ! "_NL1" +v s ! "_a32" *v s ! "_NL2"));
     Set_ "t1" (fun s => Vc (s !! "_S" @ s ! "_k"));
     Call A "t2" "t1";
     Set_ "_NL3" (fun s => Vc (s !! "_Sinv" @ s ! "t2"));
     Set_ "_k" (fun s => Vc (s ! "_EL12" *v s ! "_v" +v s ! "_a41" *v s ! "_NL1" +v s ! "_a43" *v s ! "_NL3"));
     Set_ "t1" (fun s => Vc (s !! "_S" @ s ! "_k"));
     Call A "t2" "t1";
     Set_ "_NL4" (fun s => Vc (s !! "_Sinv" @ s ! "t2"));
     Set_ "_k" (fun s => Vc (s ! "_EL34" *v s ! "_v" +v s ! "_a51" *v s ! "_NL1" +v s ! "_a52" *v (s ! "_NL2" -v s ! "_NL3") +v s ! "_a54" *v s ! "_NL4"));
     Set_ "t1" (fun s => Vc (s !! "_S" @ s ! "_k"));
     Call A "t2" "t1";
     Set_ "_NL5" (fun s => Vc (s !! "_Sinv" @ s ! "t2"));
     Set_ "_k" (fun s => Vc (s ! "_EL" *v s ! "_v" +v s ! "_a61" *v s ! "_NL1" +v s ! "_a62" *v (s ! "_NL2" -v 3 *z s ! "_NL4" /z 2) +v s ! "_a63" *v s ! "_NL3" +v s ! "_a65" *v s ! "_NL5"));
     Set_ "t1" (fun s => Vc (s !! "_S" @ s ! "_k"));
     Call A "t2" "t1";
     Set_ "_NL6" (fun s => Vc (s !! "_Sinv" @ s ! "t2"));
     Set_ "_k" (fun s => Vc (s ! "_EL" *v s ! "_v" +v s ! "_a71" *v s ! "_NL1" +v s ! "_a73" *v s ! "_NL3" +v s ! "_a74" *v s ! "_NL4" +v s ! "_a75" *v s ! "_NL5" +v s ! "_a76" *v s ! "_NL6"));
     Set_ "_err" (fun s => Vc (s ! "_a75" *v (vneg (s ! "_NL1") +v 4 *z s ! "_NL3" -v 6 *z s ! "_NL4" +v 4 *z s ! "_NL5" -v s ! "_NL6")));
     Set_ "ret" (fun s => Vc (s !! "_S" @ s ! "_k"))].

  (** rkstiff/etd35.py:671-720 *)
  Definition hetd35n_stage (accept : bool) : list (instr A) :=
    (if accept then [Call A "_NL1" "u"] else []) ++
    [Set_ "_k" (fun s => Vc (s !! "_EL14" @ s ! "u" +v s !! "_a21" @ s ! "_NL1"));
     Call A "_NL2" "_k";
     Set_ "_k" (fun s => Vc (s !! "_EL14" @ s ! "u" +v s !! "_a31" @ s ! "_NL1" +v s !! "_a32" @ s ! "_NL2"));
     Call A "_NL3" "_k";
     Set_ "_k" (fun s => Vc (s !! "_EL12" @ s ! "u" +v s !! "_a41" @ s ! "_NL1" +v s !! "_a43" @ s ! "_NL3"));
     Call A "_NL4" "_k";
     Set_ "_k" (fun s => Vc (s !! "_EL34" @ s ! "u" +v s !! "_a51" @ s ! "_NL1" +v s !! "_a52" @ (s ! "_NL2" -v s ! "_NL3") +v s !! "_a54" @ s ! "_NL4"));
     Call A "_NL5" "_k";
     Set_ "_k" (fun s => Vc (s !! "_EL" @ s ! "u" +v s !! "_a61" @ s ! "_NL1" +v s !! "_a62" @ (s ! "_NL2" -v 3 *z s ! "_NL4" /z 2) +v s !! "_a63" @ s ! "_NL3" +v s !! "_a65" @ s ! "_NL5"));
     Call A "_NL6" "_k";
     Set_ "_k" (fun s => Vc (s !! "_EL" @ s ! "u" +v s !! "_a71" @ s ! "_NL1" +v s !! "_a73" @ s ! "_NL3" +v s !! "_a74" @ s ! "_NL4" +v s !! "_a75" @ s ! "_NL5" +v s !! "_a76" @ s ! "_NL6"));
     Set_ "_err" (fun s => Vc (s !! "_a75" @ (vneg (s ! "_NL1") +v 4 *z s ! "_NL3" -v 6 *z s ! "_NL4" +v 4 *z s ! "_NL5" -v s ! "_NL6")))].

  (** ** The sixteen strategies; the constructors are cited at [cs_new] and [as_new] in [Solvers.v] *)

  Definition cs_scheme (k : cs_kind) : scheme A :=
    match k with
    | IF4d =>
        mk_scheme (zeros_v ["_EL"; "_EL2"; "_NL1"; "_NL2"; "_NL3"; "_NL4"; "_k"])
          (hif_coef_v "lin_op") hinit_v (fun _ _ h => hif4d_stage h) "_k" "_err"
          [] []
    | IF4n =>
        mk_scheme (zeros_m ["_EL"; "_EL2"] ++ zeros_v ["_NL1"; "_NL2"; "_NL3"; "_NL4"; "_k"])
          hif_coef_m hinit_v (fun _ _ h => hif4n_stage h) "_k" "_err"
          [] []
    | ETD4d =>
        mk_scheme (zeros_v ["_EL"; "_EL2"; "_a21"; "_a31"; "_a32"; "_a41"; "_a43"; "_b1"; "_b2"; "_b4"; "_NL1"; "_NL2"; "_NL3"; "_NL4"; "_k"])
          hetd4d_coef hinit_v (fun _ _ _ => hetd4d_stage) "_k" "_err"
          ["_a21"; "_a31"; "_a32"; "_a41"; "_a43"; "_b1"; "_b2"; "_b4"] ["_a21"; "_a31"; "_a32"; "_a41"; "_a43"; "_b1"; "_b2"; "_b4"]
    | ETD4n =>
        mk_scheme (zeros_m ["_EL"; "_EL2"; "_a21"; "_a31"; "_a32"; "_a41"; "_a43"; "_b1"; "_b2"; "_b4"] ++ zeros_v ["_NL1"; "_NL2"; "_NL3"; "_NL4"; "_k"])
          hetd4n_coef hinit_v (fun _ _ _ => hetd4n_stage) "_k" "_err"
          ["psi1_12"; "psi2_12"; "psi1_1"; "psi2_1"; "psi3_1"] []
    | ETD5d =>
        mk_scheme (zeros_v ["_EL14"; "_EL12"; "_EL34"; "_EL"; "_a21"; "_a31"; "_a32"; "_a41"; "_a43"; "_a51"; "_a52"; "_a54"; "_a61"; "_a62"; "_a63"; "_a65"; "_b1"; "_b3"; "_b4"; "_b5"; "_b6"; "_NL1"; "_NL2"; "_NL3"; "_NL4"; "_NL5"; "_NL6"; "_k"])
          hetd5d_coef hinit_v (fun _ _ _ => hetd5d_stage) "_k" "_err"
          ["_a21"; "_a31"; "_a32"; "_a41"; "_a43"; "_a51"; "_a52"; "_a54"; "_a61"; "_a62"; "_a63"; "_a65"; "_b1"; "_b3"; "_b4"; "_b5"; "_b6"] ["_a21"; "_a31"; "_a32"; "_a41"; "_a43"; "_a51"; "_a52"; "_a54"; "_a61"; "_a62"; "_a63"; "_a65"; "_b1"; "_b3"; "_b4"; "_b5"; "_b6"]
    | ETD5n =>
        mk_scheme (zeros_m ["_EL14"; "_EL12"; "_EL34"; "_EL"; "_a21"; "_a31"; "_a32"; "_a41"; "_a43"; "_a51"; "_a52"; "_a54"; "_a61"; "_a62"; "_a63"; "_a65"; "_b1"; "_b3"; "_b4"; "_b5"; "_b6"] ++ zeros_v ["_NL1"; "_NL2"; "_NL3"; "_NL4"; "_NL5"; "_NL6"; "_k"])
          hetd5n_coef hinit_v (fun _ _ _ => hetd5n_stage) "_k" "_err"
          ["psi1_14"; "psi2_14"; "psi1_12"; "psi2_12"; "psi1_34"; "psi2_34"; "psi1_1"; "psi2_1"; "psi3_1"] []
    end.

  Definition as_scheme (k : as_kind) : scheme A :=
    match k with
    | IF34d =>
        mk_scheme (zeros_v ["_EL"; "_EL2"; "_NL1"; "_NL2"; "_NL3"; "_NL4"; "_NL5"; "_k"; "_err"])
          (hif_coef_v "lin_op") hinit_v (fun _ a h => hif34d_stage a h) "_k" "_err"
          [] []
    | IF34n =>
        mk_scheme (zeros_m ["_EL"; "_EL2"] ++ zeros_v ["_NL1"; "_NL2"; "_NL3"; "_NL4"; "_NL5"; "_k"; "_err"])
          hif_coef_m hinit_v (fun _ a h => hif34n_stage a h) "_k" "_err"
          [] []
    | IF34z =>
        mk_scheme (zeros_v ["_EL"; "_EL2"; "_NL1"; "_NL2"; "_NL3"; "_NL4"; "_NL5"; "_k"; "_err"] ++ [Set_ "_eig_vals" (fun _ => Vc lam); Set_ "_S" (fun _ => Mc Smat); Set_ "_Sinv" (fun _ => Mc Sinv)] ++ zeros_v ["_v"])
          (hif_coef_v "_eig_vals") hinit_z (fun _ a h => hif34z_stage a h) "ret" "_err"
          [] []
    | IF45DPd =>
        mk_scheme (zeros_v ["_EL15"; "_EL310"; "_EL45"; "_EL89"; "_EL"; "_NL1"; "_NL2"; "_NL3"; "_NL4"; "_NL5"; "_NL6"; "_NL7"; "_a21"; "_a31"; "_a32"; "_a41"; "_a42"; "_a43"; "_a51"; "_a52"; "_a53"; "_a54"; "_a61"; "_a62"; "_a63"; "_a64"; "_a65"; "_a71"; "_a73"; "_a74"; "_a75"; "_r1"; "_r3"; "_r4"; "_r5"; "_k"; "_err"] ++
          map (fun x => Set_ x (fun _ => Sc A (tofZ F 0))) ["_a76"; "_r6"; "_r7"])
          hdp_coef hinit_v (fun b a _ => hdp_stage b a) "_k" "_err"
          [] []
    | ETD34d =>
        mk_scheme (zeros_v ["_EL"; "_EL2"; "_a21"; "_a31"; "_a32"; "_a41"; "_a43"; "_a51"; "_a52"; "_a54"; "_NL1"; "_NL2"; "_NL3"; "_NL4"; "_NL5"; "_k"; "_err"])
          (hetd34d_coef "lin_op") hinit_v (fun _ a _ => hetd34d_stage a) "_k" "_err"
          ["_a21"; "_a31"; "_a32"; "_a41"; "_a43"; "_a51"; "_a52"; "_a54"] ["_a21"; "_a31"; "_a32"; "_a41"; "_a43"; "_a51"; "_a52"; "_a54"]
    | ETD34n =>
        mk_scheme (zeros_m ["_EL"; "_EL2"; "_a21"; "_a31"; "_a32"; "_a41"; "_a43"; "_a51"; "_a52"; "_a54"] ++ zeros_v ["_NL1"; "_NL2"; "_NL3"; "_NL4"; "_NL5"; "_k"; "_err"])
          hetd34n_coef hinit_v (fun _ a _ => hetd34n_stage a) "_k" "_err"
          ["psi1_12"; "psi2_12"; "psi1_1"; "psi2_1"; "psi3_1"] []
    | ETD34z =>
        mk_scheme (zeros_v ["_EL"; "_EL2"; "_a21"; "_a31"; "_a32"; "_a41"; "_a43"; "_a51"; "_a52"; "_a54"; "_NL1"; "_NL2"; "_NL3"; "_NL4"; "_NL5"; "_k"; "_err"] ++ [Set_ "_eig_vals" (fun _ => Vc lam); Set_ "_S" (fun _ => Mc Smat); Set_ "_Sinv" (fun _ => Mc Sinv)] ++ zeros_v ["_v"])
          (hetd34d_coef "_eig_vals") hinit_z (fun _ a _ => hetd34z_stage a) "ret" "_err"
          ["_a21"; "_a31"; "_a32"; "_a41"; "_a43"; "_a51"; "_a52"; "_a54"] ["_a21"; "_a31"; "_a32"; "_a41"; "_a43"; "_a51"; "_a52"; "_a54"]
    | ETD35d =>
        mk_scheme (zeros_v ["_EL14"; "_EL12"; "_EL34"; "_EL"; "_a21"; "_a31"; "_a32"; "_a41"; "_a43"; "_a51"; "_a52"; "_a54"; "_a61"; "_a62"; "_a63"; "_a65"; "_a71"; "_a73"; "_a74"; "_a75"; "_a76"; "_NL1"; "_NL2"; "_NL3"; "_NL4"; "_NL5"; "_NL6"; "_k"; "_err"])
          (hetd35d_coef "lin_op") hinit_v (fun _ a _ => hetd35d_stage a) "_k" "_err"
          ["_a21"; "_a31"; "_a32"; "_a41"; "_a43"; "_a51"; "_a52"; "_a54"; "_a61"; "_a62"; "_a63"; "_a65"; "_a71"; "_a73"; "_a74"; "_a75"; "_a76"] ["_a21"; "_a31"; "_a32"; "_a41"; "_a43"; "_a51"; "_a52"; "_a54"; "_a61"; "_a62"; "_a63"; "_a65"; "_a71"; "_a73"; "_a74"; "_a75"; "_a76"]
    | ETD35n =>
        mk_scheme (zeros_m ["_EL14"; "_EL12"; "_EL34"; "_EL"; "_a21"; "_a31"; "_a32"; "_a41"; "_a43"; "_a51"; "_a52"; "_a54"; "_a61"; "_a62"; "_a63"; "_a65"; "_a71"; "_a73"; "_a74"; "_a75"; "_a76"] ++ zeros_v ["_NL1"; "_NL2"; "_NL3"; "_NL4"; "_NL5"; "_NL6"; "_k"; "_err"])
          hetd35n_coef hinit_v (fun _ a _ => hetd35n_stage a) "_k" "_err"
          ["psi1_14"; "psi2_14"; "psi1_12"; "psi2_12"; "psi1_34"; "psi2_34"; "psi1_1"; "psi2_1"; "psi3_1"] []
    | ETD35z =>
        mk_scheme (zeros_v ["_EL14"; "_EL12"; "_EL34"; "_EL"; "_a21"; "_a31"; "_a32"; "_a41"; "_a43"; "_a51"; "_a52"; "_a54"; "_a61"; "_a62"; "_a63"; "_a65"; "_a71"; "_a73"; "_a74"; "_a75"; "_a76"; "_NL1"; "_NL2"; "_NL3"; "_NL4"; "_NL5"; "_NL6"; "_k"; "_err"] ++ [Set_ "_eig_vals" (fun _ => Vc lam); Set_ "_S" (fun _ => Mc Smat); Set_ "_Sinv" (fun _ => Mc Sinv)] ++ zeros_v ["_v"])
          (hetd35d_coef "_eig_vals") hinit_z (fun _ a _ => hetd35z_stage a) "ret" "_err"
          ["_a21"; "_a31"; "_a32"; "_a41"; "_a43"; "_a51"; "_a52"; "_a54"; "_a61"; "_a62"; "_a63"; "_a65"; "_a71"; "_a73"; "_a74"; "_a75"; "_a76"] ["_a21"; "_a31"; "_a32"; "_a41"; "_a43"; "_a51"; "_a52"; "_a54"; "_a61"; "_a62"; "_a63"; "_a65"; "_a71"; "_a73"; "_a74"; "_a75"; "_a76"]
    end.
End Schemes.
