(** * The error measure on arrays of any shape

    [BaseSolverAS._compute_s] (rkstiff/solveras.py:412-455) for candidate and error arrays that
    carry shapes, in the arithmetic of [Tolerance.v]. *)

From Coq Require Import ZArith List Bool Reals Lia.
From Coquelicot Require Import Complex.
From Verif Require Import Scalars Control Arrays CInst Shapes Tolerance.
Import ListNotations.

(** All indices of an array, in C order (last axis fastest). *)
Fixpoint idxs (s : shape) : list (list nat) :=
  match s with
  | [] => [[]]
  | d :: s' => flat_map (fun b => map (fun i => i :: b) (seq 0 d)) (idxs s')
  end.
Definition flat (x : nd Cops) : list ecplx := map (fun idx => finc (el x idx)) (idxs (sh x)).

(** Boolean indexing of an array of shape [t] by a mask of shape [s]: the mask has to match the
    leading axes (the end of the list); each of its entries then selects that many entries. *)
Definition block (s t : shape) : option nat :=
  let k := (length t - length s)%nat in
  if list_eq_dec Nat.eq_dec (skipn k t) s then Some (fold_right Nat.mul 1%nat (firstn k t)) else None.

(** rkstiff/solveras.py:450-455 [_compute_s]. The norm of an array of any shape is the norm of its
    entries in one row. *)
Definition compute_s_nd (cfg : config R) (q : nat) (u err : nd Cops) : exn + sval R :=
  match map eabs (flat u) with
  | [] => inl ValueError
  | m0 :: rest =>
      let magu := m0 :: rest in
      let top := fold_left emax rest m0 in
      let idx := map (fun x => egtb (ediv x top) (adapt_cutoff cfg)) magu in
      match block (sh u) (sh err) with
      | None => inl IndexError
      | Some r =>
          let tol := emul (SFin (epsilon cfg)) (enorm (mask idx (flat u))) in
          inr (emul (SFin (safety_f cfg))
                 (epow (ediv tol (enorm (mask (flat_map (fun b => repeat b r) idx) (flat err)))) (1 / INR q)))
      end
  end.

Lemma idxs1 n : idxs [n] = map (fun i => [i]) (seq 0 n).
Proof. cbn [idxs flat_map]. rewrite app_nil_r. reflexivity. Qed.
Lemma repeat1 {B} (l : list B) : flat_map (fun b => repeat b 1) l = l.
Proof. induction l as [|b l IH]; [reflexivity|]. transitivity (b :: flat_map (fun b => repeat b 1) l); [reflexivity|]. rewrite IH. reflexivity. Qed.
Lemma block1 n : block [n] [n] = Some 1%nat.
Proof. unfold block. cbn [length Nat.sub skipn firstn fold_right]. destruct (list_eq_dec Nat.eq_dec [n] [n]) as [|H]; [reflexivity|elim H; reflexivity]. Qed.

(** On 1-D arrays of one length it is the measure of [Tolerance.v]. *)
Lemma compute_s_1d cfg q n (u err : nd Cops) : sh u = [n] -> sh err = [n] ->
  compute_s_nd cfg q u err = compute_s_vec cfg q n (fun i => el u [i]) (fun i => el err [i]).
Proof.
  intros Hu He. assert (FL : forall x : nd Cops, sh x = [n] -> flat x = entries n (fun i => el x [i])).
  { intros x Hx. unfold flat, entries. rewrite Hx, idxs1, map_map. reflexivity. }
  unfold compute_s_nd, compute_s_vec, compute_s. rewrite (FL u Hu), (FL err He), Hu, He, block1.
  destruct (map eabs (entries n (fun i => el u [i]))) eqn:E; [reflexivity|]. cbv zeta. rewrite repeat1.
  replace (length (entries n (fun i => el err [i]))) with (length (entries n (fun i => el u [i]))) by (unfold entries; rewrite !map_length; reflexivity).
  rewrite Nat.eqb_refl. reflexivity.
Qed.
