(** * One step of every strategy in closed form, over any arithmetic

    The monadic models with their caches reduce, for a pure nonlinear function and a newly
    constructed solver, to the stage formulas below. [act c v] is [c * v] for 1-D coefficient
    arrays and [c.dot(v)] for matrices; [NL1] is the value of the first stage. *)

From Coq Require Import ZArith List Bool.
From Verif Require Import Scalars Control ControlSound Arrays SchemeBase
     SchemeIF SchemeETD4 SchemeETD5 Solvers SchemeFacts SchemeSound SchemeFamily.
Import ListNotations.
Local Open Scope arr_scope.
Local Open Scope Z_scope.

Set Implicit Arguments.

Section Form.
  Variable F : tops.
  Variable A : aops F.
  Notation vec := (vec A).

  Section Act.
    Variable X : Type.
    Variable act : X -> vec -> vec.
    Variable N : vec -> vec.

    (** Candidate and error vector of ETD4/ETD34. *)
    Definition etd4_form (c : etd4_coefs X) (u NL1 : vec) : vec * vec :=
      let NL2 := N (act (e4_EL2 c) u +v act (e4_a21 c) NL1) in
      let NL3 := N (act (e4_EL2 c) u +v act (e4_a31 c) NL1 +v act (e4_a32 c) NL2) in
      let NL4 := N (act (e4_EL c) u +v act (e4_a41 c) NL1 +v act (e4_a43 c) NL3) in
      let k := act (e4_EL c) u +v act (e4_b1 c) NL1 +v act (e4_b2 c) (NL2 +v NL3) +v act (e4_b4 c) NL4 in
      (k, act (e4_b4 c) (NL4 -v N k)).

    (** Candidate and error vector of ETD5/ETD35. *)
    Definition etd5_form (c : etd5_coefs X) (u NL1 : vec) : vec * vec :=
      let NL2 := N (act (e5_EL14 c) u +v act (e5_a21 c) NL1) in
      let NL3 := N (act (e5_EL14 c) u +v act (e5_a31 c) NL1 +v act (e5_a32 c) NL2) in
      let NL4 := N (act (e5_EL12 c) u +v act (e5_a41 c) NL1 +v act (e5_a43 c) NL3) in
      let NL5 := N (act (e5_EL34 c) u +v act (e5_a51 c) NL1 +v act (e5_a52 c) (NL2 -v NL3)
                      +v act (e5_a54 c) NL4) in
      let NL6 := N (act (e5_EL c) u +v act (e5_a61 c) NL1 +v act (e5_a62 c) (NL2 -v 3 *z NL4 /z 2)
                      +v act (e5_a63 c) NL3 +v act (e5_a65 c) NL5) in
      let k := act (e5_EL c) u +v act (e5_b1 c) NL1 +v act (e5_b3 c) NL3 +v act (e5_b4 c) NL4
               +v act (e5_b5 c) NL5 +v act (e5_b6 c) NL6 in
      (k, act (e5_b5 c) (vneg NL1 +v 4 *z NL3 -v 6 *z NL4 +v 4 *z NL5 -v NL6)).
  End Act.

  Section IFForm.
    Variable N : vec -> vec.
    Variable h : T F.
    (** IF4/IF34 with 1-D exponentials. *)
    Definition if_form_d (c : if_coefs vec) (u NL1 : vec) : vec * vec :=
      let EL := if_EL c in let EL2 := if_EL2 c in
      let NL2 := N (EL2 *v u +v h *s EL2 *v NL1 /z 2) in
      let NL3 := N (EL2 *v u +v h *s NL2 /z 2) in
      let NL4 := N (EL *v u +v h *s EL2 *v NL3) in
      let k := EL *v u +v h *s (EL *v NL1 /z 6 +v EL2 *v NL2 /z 3 +v EL2 *v NL3 /z 3 +v NL4 /z 6) in
      (k, h *s (NL4 -v N k) /z 6).
    (** IF4/IF34 with matrix exponentials. *)
    Definition if_form_n (n : nat) (c : if_coefs (mat A)) (u NL1 : vec) : vec * vec :=
      let EL := if_EL c in let EL2 := if_EL2 c in
      let dot := emdot A n in
      let NL2 := N (dot EL2 u +v h *s (dot EL2 (NL1 /z 2))) in
      let NL3 := N (dot EL2 u +v h *s NL2 /z 2) in
      let NL4 := N (dot EL u +v h *s (dot EL2 NL3)) in
      let k := dot EL u +v h *s (dot EL (NL1 /z 6) +v dot EL2 (NL2 /z 3) +v dot EL2 (NL3 /z 3) +v NL4 /z 6) in
      (k, h *s (NL4 -v N k) /z 6).
    Definition dp_form (c : dp_coefs vec (T F)) (u NL1 : vec) : vec * vec :=
      let NL2 := N (dp_EL15 c *v u +v dp_a21 c *v NL1) in
      let NL3 := N (dp_EL310 c *v u +v dp_a31 c *v NL1 +v dp_a32 c *v NL2) in
      let NL4 := N (dp_EL45 c *v u +v dp_a41 c *v NL1 +v dp_a42 c *v NL2 +v dp_a43 c *v NL3) in
      let NL5 := N (dp_EL89 c *v u +v dp_a51 c *v NL1 +v dp_a52 c *v NL2 +v dp_a53 c *v NL3
                      +v dp_a54 c *v NL4) in
      let NL6 := N (dp_EL c *v u +v dp_a61 c *v NL1 +v dp_a62 c *v NL2 +v dp_a63 c *v NL3
                      +v dp_a64 c *v NL4 +v dp_a65 c *v NL5) in
      let k := dp_EL c *v u +v dp_a71 c *v NL1 +v dp_a73 c *v NL3 +v dp_a74 c *v NL4
               +v dp_a75 c *v NL5 +v dp_a76 c *s NL6 in
      (k, dp_r1 c *v NL1 +v dp_r3 c *v NL3 +v dp_r4 c *v NL4 +v dp_r5 c *v NL5
          +v dp_r6 c *s NL6 +v dp_r7 c *s N k).
  End IFForm.

  Variable W : Type.
  Variable p : problem A W.
  Variable N : vec -> vec.
  Notation dot := (emdot A (p_size p)).
  (** The nonlinear function in the eigenbasis. *)
  Definition eig_N (v : vec) : vec := dot (p_Sinv p) (N (dot (p_S p) v)).
  Definition eig_back (x : vec * vec) : vec * vec := (dot (p_S p) (fst x), snd x).

  Definition cs_form (k : cs_kind) (h : T F) : cs_K A k -> vec -> vec :=
    match k with
    | IF4d => fun c u => fst (if_form_d N h c u (N u))
    | IF4n => fun c u => fst (if_form_n N h (p_size p) c u (N u))
    | ETD4d => fun c u => fst (etd4_form (@vmul F A) N c u (N u))
    | ETD4n => fun c u => fst (etd4_form dot N c u (N u))
    | ETD5d => fun c u => fst (etd5_form (@vmul F A) N c u (N u))
    | ETD5n => fun c u => fst (etd5_form dot N c u (N u))
    end.
  Definition as_form (k : as_kind) (h : T F) : as_K A k -> vec -> vec * vec :=
    match k with
    | IF34d => fun c u => if_form_d N h c u (N u)
    | IF34n => fun c u => if_form_n N h (p_size p) c u (N u)
    | IF34z => fun c u => eig_back (if_form_d eig_N h c (dot (p_Sinv p) u) (dot (p_Sinv p) (N u)))
    | IF45DPd => fun c u => dp_form N c u (N u)
    | ETD34d => fun c u => etd4_form (@vmul F A) N c u (N u)
    | ETD34n => fun c u => etd4_form dot N c u (N u)
    | ETD34z => fun c u => eig_back (etd4_form (@vmul F A) eig_N c (dot (p_Sinv p) u) (dot (p_Sinv p) (N u)))
    | ETD35d => fun c u => etd5_form (@vmul F A) N c u (N u)
    | ETD35n => fun c u => etd5_form dot N c u (N u)
    | ETD35z => fun c u => eig_back (etd5_form (@vmul F A) eig_N c (dot (p_Sinv p) u) (dot (p_Sinv p) (N u)))
    end.

  Theorem cs_Phi_form k h c u : cs_uc p k h (cs_k0 A k) = (inr tt, c) ->
    cs_Phi p N k h u = cs_form k h c u.
  Proof.
    intros H. unfold cs_Phi, cs_phi.
    destruct k; cbn [cs_model cs_new cs_uc cs_K cs_k0 cs_form] in *;
      unfold if4_diag, if4_nondiag, etd4_diag, etd4_nondiag, etd5_diag, etd5_nondiag, cs_solver;
      cbn [cs_upd with_nl p_nl p_size p_vec p_mat p_cfg p_expm p_inv];
      unfold cs_update_stages, s_update_coeffs, bind; cbn [same_h h_coeff set_h coefs n1_init mem];
      rewrite H; reflexivity.
  Qed.

  Theorem as_Phi_form k h c u : as_uc p k h (as_k0 A k) = (inr tt, c) ->
    as_Phi p N k h u = as_form k h c u.
  Proof.
    intros H. unfold as_Phi, as_phi.
    destruct k; cbn [as_model as_new as_uc as_K as_k0 as_form] in *;
      unfold if34_diag, if34_nondiag, if34_diagonalized, if45dp, etd34_diag, etd34_nondiag, etd34_diagonalized,
        etd35_diag, etd35_nondiag, etd35_diagonalized, as_solver;
      cbn [as_upd with_nl p_nl p_size p_vec p_mat p_cfg p_expm p_inv p_S p_Sinv p_eigs];
      unfold as_update_stages, dp_update_stages, s_update_coeffs, bind;
      cbn [same_h h_coeff set_h coefs n1_init mem];
      rewrite H; reflexivity.
  Qed.
End Form.
