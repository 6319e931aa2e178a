(** * C28, C29, C30, C31, C66: loggers, log levels, constructor validation, solver types *)

From Coq Require Import ZArith List Bool String Ascii Lia.
From Verif Require Import Scalars Control Arrays Solvers Config Logging.
Import ListNotations.
Local Open Scope string_scope.

(** ** C30: log level parsing *)

(** The level names of the standard module, with their values. *)
Definition std_levels : list (string * Z) :=
  [("CRITICAL", 50%Z); ("FATAL", 50%Z); ("ERROR", 40%Z); ("WARNING", 30%Z); ("WARN", 30%Z); ("INFO", 20%Z); ("DEBUG", 10%Z); ("NOTSET", 0%Z)].

Theorem C30_string_accepted_iff_level_name :
  forall upper s,
  (forall v, parse_loglevel upper (LStr s) = inr v <-> exists z, v = LInt z /\ In (upper s, z) std_levels) /\
  (parse_loglevel upper (LStr s) = inl ValueError <-> ~ exists z, In (upper s, z) std_levels) /\
  (forall e, parse_loglevel upper (LStr s) = inl e -> e = ValueError).
Proof.
  intros upper s. cbn [parse_loglevel]. generalize (upper s). intros n.
  assert (K : match logging_attr n with Some (AInt z) => forall z', In (n, z') std_levels <-> z' = z | _ => forall z', ~ In (n, z') std_levels end).
  { unfold logging_attr, std_levels.
    repeat match goal with |- context [if n =? ?x then _ else _] =>
      let E := fresh "E" in destruct (n =? x) eqn:E;
      [apply String.eqb_eq in E; subst n;
       intros z'; cbn [In]; (split; [intros H; repeat destruct H as [H|H]; try discriminate; try contradiction; injection H; congruence|intros ->; tauto])
       || (intros H; repeat destruct H as [H|H]; try discriminate; contradiction)
      |apply String.eqb_neq in E] end.
    intros z' H. cbn [In] in H. repeat destruct H as [H|H]; try contradiction; injection H as H _; congruence. }
  destruct (logging_attr n) as [[z|]|]; (split; [|split]).
  - intros v. split; [intros E; injection E as <-; exists z; split; [reflexivity|apply K; reflexivity]|].
    intros (z' & -> & H). apply K in H. subst. reflexivity.
  - split; [discriminate|]. intros H. exfalso. apply H. exists z. apply K. reflexivity.
  - discriminate.
  - intros v. split; [discriminate|]. intros (z' & _ & H). exfalso. exact (K _ H).
  - split; [|reflexivity]. intros _ (z' & H). exact (K _ H).
  - intros e E. congruence.
  - intros v. split; [discriminate|]. intros (z' & _ & H). exfalso. exact (K _ H).
  - split; [|reflexivity]. intros _ (z' & H). exact (K _ H).
  - intros e E. congruence.
Qed.
Theorem C30_other_values_pass_through :
  forall upper l, (forall s, l <> LStr s) -> parse_loglevel upper l = inr l.
Proof. intros upper [s| |] H; [exfalso; apply (H s)|..]; reflexivity. Qed.

(** [get_level_name] inverts parsing on the five documented names, and no other level number has
    one of these names. *)
Theorem C30_level_name_roundtrip :
  forall (upper : string -> string) show,
  (forall s, In s ["DEBUG"; "INFO"; "WARNING"; "ERROR"; "CRITICAL"] ->
     upper s = s -> exists z, parse_loglevel upper (LStr s) = inr (LInt z) /\ get_level_name show z = s) /\
  (forall z s, In s ["DEBUG"; "INFO"; "WARNING"; "ERROR"; "CRITICAL"] -> get_level_name show z = s -> In (s, z) std_levels).
Proof.
  intros upper show. split.
  - intros s Hs U. cbn [parse_loglevel]. rewrite U. cbn [In] in Hs.
    repeat destruct Hs as [<-|Hs]; try contradiction; eexists; (split; [reflexivity|reflexivity]).
  - intros z s Hs. unfold get_level_name.
    destruct (z =? 10)%Z eqn:E1; [apply Z.eqb_eq in E1; subst; intros <-; cbn; tauto|].
    destruct (z =? 20)%Z eqn:E2; [apply Z.eqb_eq in E2; subst; intros <-; cbn; tauto|].
    destruct (z =? 30)%Z eqn:E3; [apply Z.eqb_eq in E3; subst; intros <-; cbn; tauto|].
    destruct (z =? 40)%Z eqn:E4; [apply Z.eqb_eq in E4; subst; intros <-; cbn; tauto|].
    destruct (z =? 50)%Z eqn:E5; [apply Z.eqb_eq in E5; subst; intros <-; cbn; tauto|].
    intros H. cbn [In] in Hs. repeat destruct Hs as [<-|Hs]; try contradiction; discriminate.
Qed.
(** The aliases are lost: the name of the level denoted by "WARN" is "WARNING". *)
Theorem C30_aliases_not_inverted :
  forall (upper : string -> string) show, upper "WARN" = "WARN" ->
  exists z, parse_loglevel upper (LStr "WARN") = inr (LInt z) /\ get_level_name show z = "WARNING".
Proof. intros upper show U. cbn [parse_loglevel]. rewrite U. exists 30%Z. split; reflexivity. Qed.

(** [str.upper] on ASCII strings, for the examples. *)
Fixpoint ascii_upper (s : string) : string :=
  match s with
  | EmptyString => EmptyString
  | String a s' => let n := nat_of_ascii a in
                   String (if (97 <=? n)%nat && (n <=? 122)%nat then ascii_of_nat (n - 32) else a) (ascii_upper s')
  end.
Example C30_not_vacuous :
  parse_loglevel ascii_upper (LStr "iNfo") = inr (LInt 20) /\ parse_loglevel ascii_upper (LStr "verbose") = inl ValueError /\
  parse_loglevel ascii_upper (LStr "basic_format") = inl ValueError /\ ascii_upper "WARN" = "WARN".
Proof. repeat split. Qed.

(** ** C31: constructor validation *)

Definition ok_shape (c : solver_class) (dims : list nat) : Prop :=
  (exists n, dims = [n]) \/ (c <> IF45DP /\ exists n, dims = [n; n]).
(** The external routines succeed and the operator is not near-singular. *)
Definition linalg_ok (x : linalg) : Prop := r_cond x = inr false /\ r_eig x = None /\ r_inv x = None.
(** A level that [logging] accepts. *)
Definition level_value (upper : string -> string) (l : loglevel) : option Z :=
  match l with
  | LStr s => match find (fun p => fst p =? upper s) std_levels with Some (_, z) => Some z | None => None end
  | LInt z => Some z
  | LOther => None
  end.

Lemma parse_level upper l :
  match level_value upper l with
  | Some z => parse_loglevel upper l = inr (LInt z)
  | None => l = LOther /\ parse_loglevel upper l = inr LOther \/ (exists s, l = LStr s) /\ parse_loglevel upper l = inl ValueError
  end.
Proof.
  destruct l as [s|z|]; cbn [level_value]; [|reflexivity|left; auto].
  cbn [parse_loglevel]. unfold std_levels, logging_attr. cbn [find fst].
  rewrite (String.eqb_sym "CRITICAL"), (String.eqb_sym "FATAL"), (String.eqb_sym "ERROR"), (String.eqb_sym "WARNING"),
    (String.eqb_sym "WARN"), (String.eqb_sym "INFO"), (String.eqb_sym "DEBUG"), (String.eqb_sym "NOTSET").
  repeat match goal with |- context [if upper s =? ?x then _ else _] => destruct (upper s =? x); cbn iota; [first [reflexivity|right; split; [eauto|reflexivity]]|] end.
  right. split; [eauto|reflexivity].
Qed.

Lemma get_logger_some name r : exists g, get_logger name r name = Some g /\
  (r name = Some g \/ r name = None /\ g = mk_logger 0 []).
Proof.
  unfold get_logger. destruct (r name) as [g|] eqn:E; [eauto|].
  unfold reg_set. rewrite String.eqb_refl. eauto.
Qed.
Lemma get_logger_other name r n : n <> name -> get_logger name r n = r n.
Proof.
  intros H. unfold get_logger. destruct (r name); [reflexivity|]. unfold reg_set.
  destruct (n =? name) eqn:E; [apply String.eqb_eq in E; contradiction|reflexivity].
Qed.
Lemma reg_set_same r name g : reg_set r name g name = Some g.
Proof. unfold reg_set. rewrite String.eqb_refl. reflexivity. Qed.
Lemma reg_set_other r name g n : n <> name -> reg_set r name g n = r n.
Proof. intros H. unfold reg_set. destruct (n =? name) eqn:E; [apply String.eqb_eq in E; contradiction|reflexivity]. Qed.

(** Full description of [setup_logger]. *)
Lemma setup_spec upper name l r :
  let '(e, r') := setup_logger upper name l r in
  (forall n, n <> name -> r' n = r n) /\
  let old := match r name with Some g => g | None => mk_logger 0 [] end in
  match level_value upper l with
  | Some z => e = None /\ r' name = Some (mk_logger z (match l_handlers old with [] => [true] | hs => hs end))
  | None => (e = Some TypeError \/ e = Some ValueError) /\ r' name = Some old
  end.
Proof.
  destruct (setup_logger upper name l r) as [e r'] eqn:S. unfold setup_logger in S.
  destruct (get_logger_some name r) as (g & G & Gold).
  assert (Go : match r name with Some g => g | None => mk_logger 0 [] end = g).
  { destruct Gold as [->|[-> ->]]; reflexivity. }
  cbn zeta. rewrite Go.
  assert (P := parse_level upper l). destruct (level_value upper l) as [z|].
  - rewrite P in S. cbn [set_level] in S. rewrite G in S. rewrite reg_set_same in S. cbn [l_handlers l_level] in S.
    destruct (l_handlers g) as [|b hs] eqn:H; injection S as <- <-; (split; [|split; [reflexivity|]]).
    + intros n Hn. rewrite !reg_set_other by exact Hn. apply get_logger_other. exact Hn.
    + apply reg_set_same.
    + intros n Hn. rewrite !reg_set_other by exact Hn. apply get_logger_other. exact Hn.
    + apply reg_set_same.
  - destruct P as [[-> P]|[[s ->] P]]; rewrite P in S.
    + cbn [set_level] in S. injection S as <- <-. split; [intros n Hn; apply get_logger_other; exact Hn|]. auto.
    + injection S as <- <-. split; [intros n Hn; apply get_logger_other; exact Hn|]. auto.
Qed.

Lemma check_shape_spec dims :
  match check_shape dims with
  | inr true => exists n, dims = [n]
  | inr false => exists n, dims = [n; n]
  | inl e => e = ValueError /\ ~ (exists n, dims = [n]) /\ ~ (exists n, dims = [n; n])
  end.
Proof.
  destruct dims as [|a [|b [|c dims]]]; cbn; try (split; [reflexivity|]; split; intros [n H]; discriminate).
  - eauto.
  - destruct (Nat.eqb_spec a b) as [->|H]; [eauto|]. split; [reflexivity|]. split; intros [n E]; [discriminate|]. congruence.
Qed.

(** Construction succeeds exactly for admissible shapes (every class, every flag, every number of
    dimensions); otherwise [ValueError]. *)
Theorem C31_construction_succeeds_iff_shape_ok :
  forall upper c diagonalize dims x l r, level_value upper l <> None -> linalg_ok x ->
  ((exists k, fst (construct upper c diagonalize dims x l r) = inr k) <-> ok_shape c dims) /\
  (~ ok_shape c dims -> fst (construct upper c diagonalize dims x l r) = inl ValueError).
Proof.
  intros upper c dg dims x l r Hl (X1 & X2 & X3). unfold construct.
  assert (S := setup_spec upper (logger_name c) l r). destruct (setup_logger upper (logger_name c) l r) as [e r'].
  destruct S as [_ S]. destruct (level_value upper l) as [z|]; [|congruence]. destruct S as [-> _].
  assert (P := check_shape_spec dims). unfold ok_shape.
  destruct (check_shape dims) as [e|[]].
  - destruct P as (-> & P1 & P2). cbn [fst]. split; [|reflexivity]. split; [intros [k E]; discriminate|]. tauto.
  - split; [|intros H; exfalso; tauto]. split; [tauto|]. intros _. destruct c; cbn; eauto.
  - destruct P as [n ->]. cbn [fst].
    assert (D : forall k, diagonalized_new x k = inr (inr k)) by (intros k; unfold diagonalized_new; rewrite X1, X2, X3; reflexivity).
    assert (N1 : ~ exists m, [n; n] = [m]) by (intros [m E]; discriminate).
    destruct c; cbn [select]; try (split; [split; [right; split; [discriminate|eauto]|eauto]|intros H; exfalso; apply H; right; split; [discriminate|eauto]]; fail).
    + destruct dg; rewrite ?D; (split; [split; [right; split; [discriminate|eauto]|eauto]|intros H; exfalso; apply H; right; split; [discriminate|eauto]]).
    + split; [|reflexivity]. split; [intros [k E]; discriminate|]. intros [H|[H _]]; [contradiction|congruence].
    + destruct dg; rewrite ?D; (split; [split; [right; split; [discriminate|eauto]|eauto]|intros H; exfalso; apply H; right; split; [discriminate|eauto]]).
    + destruct dg; rewrite ?D; (split; [split; [right; split; [discriminate|eauto]|eauto]|intros H; exfalso; apply H; right; split; [discriminate|eauto]]).
Qed.
(** Which strategy is chosen: by the number of dimensions, and for square matrices by the flag. *)
Definition expected_kind (c : solver_class) (one_dim diagonalize : bool) : option (cs_kind + as_kind) :=
  match c, one_dim, diagonalize with
  | IF4, true, _ => Some (inl IF4d) | IF4, false, _ => Some (inl IF4n)
  | ETD4, true, _ => Some (inl ETD4d) | ETD4, false, _ => Some (inl ETD4n)
  | ETD5, true, _ => Some (inl ETD5d) | ETD5, false, _ => Some (inl ETD5n)
  | IF34, true, _ => Some (inr IF34d) | IF34, false, false => Some (inr IF34n) | IF34, false, true => Some (inr IF34z)
  | ETD34, true, _ => Some (inr ETD34d) | ETD34, false, false => Some (inr ETD34n) | ETD34, false, true => Some (inr ETD34z)
  | ETD35, true, _ => Some (inr ETD35d) | ETD35, false, false => Some (inr ETD35n) | ETD35, false, true => Some (inr ETD35z)
  | IF45DP, true, _ => Some (inr IF45DPd) | IF45DP, false, _ => None
  end.
Theorem C31_strategy_selection :
  forall upper c diagonalize dims x l r k,
  fst (construct upper c diagonalize dims x l r) = inr k ->
  expected_kind c (Nat.eqb (List.length dims) 1) diagonalize = Some k.
Proof.
  intros upper c dg dims x l r k H. unfold construct in H.
  destruct (setup_logger upper (logger_name c) l r) as [[e|] r']; [discriminate|].
  assert (P := check_shape_spec dims). destruct (check_shape dims) as [e|[]]; [discriminate|..]; destruct P as [n ->]; cbn [List.length Nat.eqb];
  cbn [fst] in H; destruct c; cbn [select] in H; try (injection H as <-; reflexivity); try discriminate;
  (destruct dg; [|injection H as <-; reflexivity]);
  unfold diagonalized_new in H; destruct (r_cond x) as [|[]]; try discriminate; destruct (r_eig x); try discriminate;
  destruct (r_inv x); try discriminate; injection H as <-; reflexivity.
Qed.
(** With [diagonalize=True] a square operator whose condition number exceeds 1e16 (in particular
    a singular one) is rejected with [ValueError]; the flag is ignored for 1-D operators. *)
Theorem C31_near_singular_not_diagonalized :
  forall upper c dims x l r, level_value upper l <> None -> r_cond x = inr true ->
  In c [IF34; ETD34; ETD35] -> (exists n, dims = [n; n]) ->
  fst (construct upper c true dims x l r) = inl ValueError.
Proof.
  intros upper c dims x l r Hl X Hc [n ->]. unfold construct.
  assert (S := setup_spec upper (logger_name c) l r). destruct (setup_logger upper (logger_name c) l r) as [e r'].
  destruct S as [_ S]. destruct (level_value upper l) as [z|]; [|congruence]. destruct S as [-> _].
  cbn [check_shape]. rewrite Nat.eqb_refl. cbn [fst].
  cbn [In] in Hc. repeat destruct Hc as [<-|Hc]; try contradiction; cbn [select]; unfold diagonalized_new; rewrite X; reflexivity.
Qed.
Example C31_not_vacuous :
  level_value ascii_upper (LStr "warning") = Some 30%Z /\ linalg_ok (mk_linalg (inr false) None None) /\
  ok_shape ETD34 [3; 3]%nat /\ ~ ok_shape IF45DP [3; 3]%nat /\ ~ ok_shape ETD4 [2; 3]%nat /\ ~ ok_shape ETD4 [].
Proof.
  split; [reflexivity|]. split; [repeat split|]. unfold ok_shape.
  split; [right; split; [discriminate|eauto]|]. split; [|split].
  - intros [[n H]|[H _]]; [discriminate|congruence].
  - intros [[n H]|[_ [n H]]]; [discriminate|congruence].
  - intros [[n H]|[_ [n H]]]; discriminate.
Qed.

(** ** C28: one handler, the last level requested *)

(** Requests with a level the logging module accepts, in order, each with its class; computed from
    the events alone. A construction requests its level even when it then fails. *)
Definition constructs (upper : string -> string) (e : event) : option solver_class :=
  match e with
  | Construct c d dims x l => match fst (construct upper c d dims x l (fun _ => None)) with inr _ => Some c | inl _ => None end
  | _ => None
  end.
Fixpoint solvers_made (upper : string -> string) (l : list event) : list solver_class :=
  match l with
  | [] => []
  | e :: l' => match constructs upper e with Some c => c :: solvers_made upper l' | None => solvers_made upper l' end
  end.
(** [before]: the solvers that exist before the events. *)
Fixpoint requests (upper : string -> string) (before : list solver_class) (l : list event) : list (solver_class * Z) :=
  match l with
  | [] => []
  | e :: l' =>
      let rest := requests upper (before ++ match constructs upper e with Some c => [c] | None => [] end)%list l' in
      match e with
      | Construct c _ _ _ lv => match level_value upper lv with Some z => (c, z) :: rest | None => rest end
      | SetLevel i lv => match nth_error before i, level_value upper lv with
                         | Some c, Some z => (c, z) :: rest
                         | _, _ => rest
                         end
      | AddHandler _ => rest
      end
  end.
Definition class_eqb (a b : solver_class) : bool := if class_name a =? class_name b then true else false.
Definition last_request (c : solver_class) (q : list (solver_class * Z)) : option Z :=
  fold_left (fun acc p => if class_eqb (fst p) c then Some (snd p) else acc) q None.

Lemma logger_name_inj c d : logger_name c = logger_name d -> c = d.
Proof. destruct c, d; intros H; try reflexivity; discriminate. Qed.
Lemma class_eqb_spec a b : class_eqb a b = true <-> a = b.
Proof. destruct a, b; cbn; split; congruence. Qed.

(** The outcome of a construction does not depend on the registry. *)
Lemma construct_outcome upper c d dims x l r r' : fst (construct upper c d dims x l r) = fst (construct upper c d dims x l r') .
Proof.
  unfold construct.
  unfold setup_logger.
  destruct (parse_loglevel upper l) as [e|v] eqn:P; [reflexivity|].
  destruct v as [s|z|]; cbn [set_level] in *.
  - reflexivity.
  - destruct (get_logger_some (logger_name c) r) as (g & G & _). destruct (get_logger_some (logger_name c) r') as (g' & G' & _).
    rewrite G, G'. rewrite !reg_set_same. cbn [l_handlers l_level]. destruct (l_handlers g), (l_handlers g'); destruct (check_shape dims); reflexivity.
  - reflexivity.
Qed.

Lemma happens_solvers upper e p : snd (happens upper e p) = (snd p ++ match constructs upper e with Some c => [c] | None => [] end)%list.
Proof.
  destruct e as [c d dims x l|i l|n]; cbn [happens constructs].
  - rewrite (construct_outcome upper c d dims x l (fun _ => None) (fst p)).
    destruct (construct upper c d dims x l (fst p)) as [[e|k] r]; cbn; [rewrite app_nil_r|]; reflexivity.
  - destruct (nth_error (snd p) i); cbn; rewrite app_nil_r; reflexivity.
  - rewrite app_nil_r. destruct (get_logger n (fst p) n); reflexivity.
Qed.

(** Number of handlers the package added to a logger. *)
Definition pkg_handlers (g : logger) : nat := count_occ Bool.bool_dec (l_handlers g) true.

(** Effect of one event on the logger of class [c]. *)
Definition req_of (upper : string -> string) (before : list solver_class) (e : event) : option (solver_class * Z) :=
  match e with
  | Construct c _ _ _ lv => match level_value upper lv with Some z => Some (c, z) | None => None end
  | SetLevel i lv => match nth_error before i, level_value upper lv with Some c, Some z => Some (c, z) | _, _ => None end
  | AddHandler _ => None
  end.

(** Invariant of reachable processes: every existing solver has a logger with a handler, and a
    logger has at most one handler of the package, in first position (or none when user code
    added its own handler first). *)
Definition inv (p : process) : Prop :=
  (forall c, In c (snd p) -> exists g, fst p (logger_name c) = Some g /\ l_handlers g <> []) /\
  (forall n g, fst p n = Some g -> pkg_handlers g <= 1).

Lemma set_log_level_spec upper name l r g : r name = Some g ->
  let '(e, r') := set_log_level upper name l r in
  (forall n, n <> name -> r' n = r n) /\
  match level_value upper l with
  | Some z => e = None /\ r' name = Some (mk_logger z (l_handlers g))
  | None => e <> None /\ r' name = Some g
  end.
Proof.
  intros G. unfold set_log_level. assert (P := parse_level upper l). destruct (level_value upper l) as [z|].
  - rewrite P. cbn [set_level]. rewrite G. split; [intros n Hn; apply reg_set_other; exact Hn|]. split; [reflexivity|apply reg_set_same].
  - destruct P as [[-> P]|[[s ->] P]]; rewrite P; cbn [set_level]; (split; [reflexivity|]; split; [discriminate|exact G]).
Qed.

Lemma happens_inv upper e p : inv p -> inv (happens upper e p).
Proof.
  intros [I1 I2]. destruct e as [c d dims x l|i l|n].
  - cbn [happens]. unfold construct.
    assert (S := setup_spec upper (logger_name c) l (fst p)). destruct (setup_logger upper (logger_name c) l (fst p)) as [e r'].
    destruct S as [S1 S2]. cbn zeta in S2.
    assert (J2 : forall n g, r' n = Some g -> pkg_handlers g <= 1).
    { intros n g Hg. destruct (String.string_dec n (logger_name c)) as [->|Hn]; [|rewrite S1 in Hg by exact Hn; eapply I2; exact Hg].
      destruct (fst p (logger_name c)) as [g0|] eqn:E0.
      - destruct (level_value upper l); destruct S2 as [_ S2]; rewrite S2 in Hg; injection Hg as <-; [|eapply I2; exact E0].
        specialize (I2 _ _ E0). unfold pkg_handlers in *. cbn [l_handlers]. destruct (l_handlers g0); [cbn; lia|exact I2].
      - destruct (level_value upper l); destruct S2 as [_ S2]; rewrite S2 in Hg; injection Hg as <-; cbn; lia. }
    assert (J1 : forall c', In c' (snd p) -> exists g, r' (logger_name c') = Some g /\ l_handlers g <> []).
    { intros c' Hc'. destruct (I1 c' Hc') as (g & G & Gh).
      destruct (String.string_dec (logger_name c') (logger_name c)) as [E|Hn]; [|rewrite S1 by exact Hn; eauto].
      rewrite E in *. rewrite G in S2. destruct (level_value upper l); destruct S2 as [_ S2]; rewrite S2; eexists; (split; [reflexivity|]); [|exact Gh].
      cbn [l_handlers]. destruct (l_handlers g); discriminate || exact Gh. }
    destruct e as [e|]; cbn [fst]; [split; assumption|].
    assert (K : exists g, r' (logger_name c) = Some g /\ l_handlers g <> []).
    { destruct (level_value upper l); [|destruct S2 as [[?|?] _]; discriminate]. destruct S2 as [_ S2]. rewrite S2. eexists. split; [reflexivity|].
      cbn [l_handlers]. destruct (l_handlers _); discriminate. }
    destruct (check_shape dims) as [e|diag]; [split; assumption|].
    destruct (select c d diag x); [split; assumption|]. split; [|exact J2].
    cbn [fst snd]. intros c' Hc'. apply in_app_or in Hc'. destruct Hc' as [Hc'|[<-|[]]]; auto.
  - cbn [happens]. destruct (nth_error (snd p) i) as [c|] eqn:E; [|split; assumption].
    destruct (I1 c (nth_error_In _ _ E)) as (g & G & Gh).
    assert (S := set_log_level_spec upper (logger_name c) l (fst p) g G). destruct (set_log_level upper (logger_name c) l (fst p)) as [e r'].
    destruct S as [S1 S2]. cbn [fst snd].
    assert (K : exists z, r' (logger_name c) = Some (mk_logger z (l_handlers g))).
    { destruct (level_value upper l); destruct S2 as [_ ->]; [eauto|]. exists (l_level g). destruct g; reflexivity. }
    destruct K as [z K]. split; cbn [fst snd].
    + intros c' Hc'. destruct (String.string_dec (logger_name c') (logger_name c)) as [E'|Hn].
      * rewrite E'. rewrite K. eexists. split; [reflexivity|exact Gh].
      * rewrite S1 by exact Hn. apply I1. exact Hc'.
    + intros n g' Hg. destruct (String.string_dec n (logger_name c)) as [->|Hn].
      * rewrite K in Hg. injection Hg as <-. exact (I2 _ _ G).
      * rewrite S1 in Hg by exact Hn. exact (I2 _ _ Hg).
  - cbn [happens]. destruct (get_logger_some n (fst p)) as (g & G & Gold). rewrite G. split; cbn [fst snd].
    + intros c' Hc'. destruct (I1 c' Hc') as (g' & G' & Gh).
      destruct (String.string_dec (logger_name c') n) as [<-|Hn].
      * rewrite reg_set_same. eexists. split; [reflexivity|]. cbn. intros H. apply app_eq_nil in H. destruct H; discriminate.
      * rewrite reg_set_other by exact Hn. rewrite get_logger_other by exact Hn. eauto.
    + intros m g' Hg. destruct (String.string_dec m n) as [->|Hn].
      * rewrite reg_set_same in Hg. injection Hg as <-. unfold pkg_handlers. cbn [l_handlers]. rewrite count_occ_app. cbn.
        assert (pkg_handlers g <= 1) by (destruct Gold as [Gold|[_ ->]]; [exact (I2 _ _ Gold)|cbn; lia]). unfold pkg_handlers in *. lia.
      * rewrite reg_set_other in Hg by exact Hn. rewrite get_logger_other in Hg by exact Hn. exact (I2 _ _ Hg).
Qed.

Lemma happens_construct upper c d dims x l p :
  fst (happens upper (Construct c d dims x l) p) = snd (setup_logger upper (logger_name c) l (fst p)).
Proof.
  cbn [happens]. unfold construct. destruct (setup_logger upper (logger_name c) l (fst p)) as [[e|] r]; [reflexivity|].
  destruct (check_shape dims) as [|b]; [reflexivity|]. destruct (select c d b x); reflexivity.
Qed.
Lemma happens_level upper e p c : inv p ->
  option_map l_level (fst (happens upper e p) (logger_name c)) =
    match req_of upper (snd p) e with
    | Some (c', z) => if class_eqb c' c then Some z else option_map l_level (fst p (logger_name c))
    | None => match option_map l_level (fst p (logger_name c)) with
              | Some z => Some z
              | None => option_map l_level (fst (happens upper e p) (logger_name c))
              end
    end /\
  (fst p (logger_name c) = None -> req_of upper (snd p) e = None ->
   option_map l_level (fst (happens upper e p) (logger_name c)) = None \/
   option_map l_level (fst (happens upper e p) (logger_name c)) = Some 0%Z).
Proof.
  intros [I1 I2]. destruct e as [c0 d dims x l|i l|n]; cbn [req_of].
  - rewrite happens_construct.
    assert (S := setup_spec upper (logger_name c0) l (fst p)). destruct (setup_logger upper (logger_name c0) l (fst p)) as [e r'].
    destruct S as [S1 S2]. cbn zeta in S2. cbn [snd].
    destruct (level_value upper l) as [z|].
    + destruct S2 as [_ S2]. split; [|discriminate]. destruct (class_eqb c0 c) eqn:E.
      * apply class_eqb_spec in E. subst c0. rewrite S2. reflexivity.
      * rewrite S1; [reflexivity|]. intros H. apply logger_name_inj in H. subst. assert (class_eqb c0 c0 = true) by (apply class_eqb_spec; reflexivity). congruence.
    + destruct S2 as [_ S2]. destruct (String.string_dec (logger_name c) (logger_name c0)) as [E|E].
      * rewrite E, S2. destruct (fst p (logger_name c0)) as [g|] eqn:G; cbn; (split; [reflexivity|intros; try discriminate; auto]).
      * rewrite S1 by exact E. destruct (fst p (logger_name c)); cbn; (split; [reflexivity|intros; try discriminate; auto]).
  - cbn [happens]. destruct (nth_error (snd p) i) as [c0|] eqn:E; [|destruct (fst p (logger_name c)); cbn; (split; [reflexivity|intros; try discriminate; auto])].
    destruct (I1 c0 (nth_error_In _ _ E)) as (g & G & Gh).
    assert (S := set_log_level_spec upper (logger_name c0) l (fst p) g G). destruct (set_log_level upper (logger_name c0) l (fst p)) as [e r'].
    destruct S as [S1 S2]. cbn [fst snd]. destruct (level_value upper l) as [z|].
    + destruct S2 as [_ S2]. split; [|discriminate]. destruct (class_eqb c0 c) eqn:Ec.
      * apply class_eqb_spec in Ec. subst c0. rewrite S2. reflexivity.
      * rewrite S1; [reflexivity|]. intros H. apply logger_name_inj in H. subst. assert (class_eqb c0 c0 = true) by (apply class_eqb_spec; reflexivity). congruence.
    + destruct S2 as [_ S2]. destruct (String.string_dec (logger_name c) (logger_name c0)) as [E'|E'].
      * rewrite E', S2, G. cbn. split; [reflexivity|discriminate].
      * rewrite S1 by exact E'. destruct (fst p (logger_name c)); cbn; (split; [reflexivity|intros; try discriminate; auto]).
  - cbn [happens]. destruct (get_logger_some n (fst p)) as (g & G & Gold). rewrite G. cbn [fst].
    destruct (String.string_dec (logger_name c) n) as [<-|Hn].
    + rewrite reg_set_same. cbn [option_map l_level]. destruct Gold as [Gold|[Gold ->]]; rewrite Gold; cbn; (split; [reflexivity|intros; try discriminate; auto]).
    + rewrite reg_set_other by exact Hn. rewrite get_logger_other by exact Hn. destruct (fst p (logger_name c)); cbn; (split; [reflexivity|intros; try discriminate; auto]).
Qed.

(** The level of a class's logger, [0] (NOTSET) standing for "never set". *)
Definition level_of (p : process) (c : solver_class) : Z := match fst p (logger_name c) with Some g => l_level g | None => 0%Z end.

Lemma happens_level_of upper e p c : inv p ->
  level_of (happens upper e p) c = match req_of upper (snd p) e with
                                   | Some (c', z) => if class_eqb c' c then z else level_of p c
                                   | None => level_of p c
                                   end.
Proof.
  intros I. destruct (happens_level upper e p c I) as [H1 H2]. unfold level_of.
  revert H1 H2. generalize (fst (happens upper e p) (logger_name c)). generalize (fst p (logger_name c)).
  intros a b H1 H2. destruct (req_of upper (snd p) e) as [[c' z]|].
  - destruct (class_eqb c' c), a, b; cbn in *; congruence.
  - destruct a as [g|]; cbn in *.
    + destruct b; cbn in *; congruence.
    + destruct (H2 eq_refl eq_refl) as [H|H]; destruct b; cbn in *; congruence.
Qed.

Lemma history_level upper c l : forall p acc, inv p -> level_of p c = match acc with Some z => z | None => 0%Z end ->
  inv (history upper l p) /\
  level_of (history upper l p) c =
    match fold_left (fun acc q => if class_eqb (fst q) c then Some (snd q) else acc) (requests upper (snd p) l) acc with Some z => z | None => 0%Z end.
Proof.
  induction l as [|e l IH]; intros p acc I H; [split; [exact I|exact H]|].
  cbn [history fold_left]. fold (history upper l (happens upper e p)).
  assert (L := happens_level_of upper e p c I).
  assert (R : requests upper (snd p) (e :: l) =
    match req_of upper (snd p) e with Some q => q :: requests upper (snd (happens upper e p)) l | None => requests upper (snd (happens upper e p)) l end).
  { rewrite happens_solvers. destruct e; cbn [requests req_of]; [destruct (level_value upper l0); reflexivity| |reflexivity].
    destruct (nth_error (snd p) solver); [|reflexivity]. destruct (level_value upper l0); reflexivity. }
  rewrite R. destruct (req_of upper (snd p) e) as [[c' z]|]; cbn [fold_left fst snd].
  - apply IH; [apply happens_inv; exact I|]. rewrite L. destruct (class_eqb c' c); [reflexivity|exact H].
  - apply IH; [apply happens_inv; exact I|]. rewrite L. exact H.
Qed.

(** After any sequence of constructions (successful or not), level changes and handlers added by
    user code: every logger carries at most one handler of the package, the logger of every
    existing solver carries a handler, and its level is the last one requested for the class. *)
Theorem C28_one_handler_and_last_level :
  forall upper (l : list event),
  let p := history upper l process0 in
  snd p = solvers_made upper l /\
  (forall name g, fst p name = Some g -> pkg_handlers g <= 1) /\
  (forall c, In c (snd p) -> exists g z, fst p (logger_name c) = Some g /\ l_handlers g <> [] /\
       last_request c (requests upper [] l) = Some z /\ l_level g = z).
Proof.
  intros upper l p.
  assert (I0 : inv process0) by (split; [intros c []|intros n g H; discriminate]).
  assert (G := fun c => history_level upper c l process0 None I0 eq_refl).
  assert (I : inv p) by (apply (G IF4)).
  assert (Hs : forall l q, snd (history upper l q) = (snd q ++ solvers_made upper l)%list).
  { clear. induction l as [|e l IH]; intros q; cbn [history fold_left solvers_made]; [symmetry; apply app_nil_r|].
    fold (history upper l (happens upper e q)). rewrite IH, happens_solvers, <- app_assoc. destruct (constructs upper e); reflexivity. }
  split; [unfold p; rewrite Hs; reflexivity|]. split; [apply I|].
  intros c Hc. destruct (proj1 I c Hc) as (g & Hg & Hh). exists g.
  destruct (G c) as [_ L]. unfold level_of in L. change (history upper l process0) with p in L. rewrite Hg in L.
  change (snd process0) with (@nil solver_class) in L. fold (last_request c (requests upper [] l)) in L.
  (* a request exists because the solver was constructed *)
  assert (R : forall l before acc, (In c (solvers_made upper l) \/ acc <> None) ->
     fold_left (fun acc q => if class_eqb (fst q) c then Some (snd q) else acc) (requests upper before l) acc <> None).
  { clear. induction l as [|e l IH]; intros before acc H; cbn [requests solvers_made] in *.
    - destruct H as [[]|H]; exact H.
    - destruct e as [c0 d dims x lv|i lv|n].
      + destruct (constructs upper (Construct c0 d dims x lv)) as [c1|] eqn:E.
        * assert (c1 = c0) by (cbn [constructs] in E; destruct (fst (construct upper c0 d dims x lv (fun _ => None))); congruence). subst c1.
          assert (V : level_value upper lv <> None).
          { intros N. cbn [constructs] in E. unfold construct in E. assert (S := setup_spec upper (logger_name c0) lv (fun _ => None)).
            destruct (setup_logger upper (logger_name c0) lv (fun _ => None)) as [e r]. destruct S as [_ S]. rewrite N in S. destruct S as [[->| ->] _]; discriminate. }
          destruct (level_value upper lv) as [z|]; [|congruence]. cbn [fold_left fst snd]. apply IH.
          destruct H as [[<-|H]|H]; auto.
          -- right. replace (class_eqb c0 c0) with true by (symmetry; apply class_eqb_spec; reflexivity). discriminate.
          -- right. destruct (class_eqb c0 c); [discriminate|exact H].
        * destruct (level_value upper lv) as [z|]; [|apply IH; exact H]. cbn [fold_left fst snd]. apply IH.
          destruct H as [H|H]; auto. right. destruct (class_eqb c0 c); [discriminate|exact H].
      + cbn [constructs] in *. destruct (nth_error before i) as [c1|]; [|apply IH; exact H]. destruct (level_value upper lv) as [z|]; [|apply IH; exact H].
        cbn [fold_left fst snd]. apply IH. destruct H as [H|H]; auto. right. destruct (class_eqb c1 c); [discriminate|exact H].
      + apply IH. exact H. }
  assert (N : last_request c (requests upper [] l) <> None).
  { apply R. left. unfold p in Hc. rewrite Hs in Hc. exact Hc. }
  destruct (last_request c (requests upper [] l)) as [z|]; [|congruence]. exists z. auto.
Qed.

(** Without user handlers the logger of an existing solver carries exactly one handler. *)
Theorem C28_exactly_one_handler :
  forall upper (l : list event), (forall n, ~ In (AddHandler n) l) ->
  let p := history upper l process0 in
  forall c, In c (snd p) -> exists g, fst p (logger_name c) = Some g /\ l_handlers g = [true].
Proof.
  intros upper l Hl p c Hc.
  assert (Q : forall l q, (forall n, ~ In (AddHandler n) l) -> inv q ->
     (forall n g, fst q n = Some g -> l_handlers g = [] \/ l_handlers g = [true]) ->
     forall n g, fst (history upper l q) n = Some g -> l_handlers g = [] \/ l_handlers g = [true]).
  { clear. induction l as [|e l IH]; intros q Hl I H; [exact H|]. cbn [history fold_left]. fold (history upper l (happens upper e q)).
    apply IH; [intros n Hn; apply (Hl n); right; exact Hn|apply happens_inv; exact I|].
    intros n g. destruct e as [c0 d dims x lv|i lv|m].
    - cbn [happens]. unfold construct.
      assert (S := setup_spec upper (logger_name c0) lv (fst q)). destruct (setup_logger upper (logger_name c0) lv (fst q)) as [e r'].
      destruct S as [S1 S2]. cbn zeta in S2.
      assert (K : r' n = Some g -> l_handlers g = [] \/ l_handlers g = [true]).
      { intros Hg. destruct (String.string_dec n (logger_name c0)) as [->|Hn]; [|rewrite S1 in Hg by exact Hn; eapply H; exact Hg].
        destruct (fst q (logger_name c0)) as [g0|] eqn:E0.
        - destruct (level_value upper lv); destruct S2 as [_ S2]; rewrite S2 in Hg; injection Hg as <-; [|eapply H; exact E0].
          cbn [l_handlers]. destruct (H _ _ E0) as [-> | ->]; auto.
        - destruct (level_value upper lv); destruct S2 as [_ S2]; rewrite S2 in Hg; injection Hg as <-; cbn; auto. }
      destruct e; [exact K|]. destruct (check_shape dims) as [|b]; [exact K|]. destruct (select c0 d b x); exact K.
    - cbn [happens]. destruct (nth_error (snd q) i) as [c0|] eqn:E; [|apply H].
      destruct (proj1 I c0 (nth_error_In _ _ E)) as (g0 & G & Gh).
      assert (S := set_log_level_spec upper (logger_name c0) lv (fst q) g0 G). destruct (set_log_level upper (logger_name c0) lv (fst q)) as [e r'].
      destruct S as [S1 S2]. cbn [fst snd]. intros Hg. destruct (String.string_dec n (logger_name c0)) as [->|Hn].
      + destruct (level_value upper lv); destruct S2 as [_ S2]; rewrite S2 in Hg; injection Hg as <-; cbn [l_handlers]; eapply H; exact G.
      + rewrite S1 in Hg by exact Hn. eapply H; exact Hg.
    - exfalso. apply (Hl m). left. reflexivity. }
  destruct (C28_one_handler_and_last_level upper l) as (_ & _ & K). destruct (K c Hc) as (g & z & G & Gh & _).
  exists g. split; [exact G|].
  destruct (Q l process0 Hl) with (n := logger_name c) (g := g) as [X|X]; auto; try contradiction.
  - split; [intros ? []|intros ? ? ?; discriminate].
  - intros ? ? ?; discriminate.
Qed.

Definition no_linalg : linalg := mk_linalg (inr false) None None.
Example C28_not_vacuous :
  let l := [Construct IF4 false [8] no_linalg (LStr "info"); Construct IF4 false [8; 9] no_linalg (LStr "debug");
            Construct ETD35 true [3; 3] no_linalg (LInt 5); SetLevel 1 (LStr "oops"); AddHandler "rkstiff.IF4"]%nat in
  let p := history ascii_upper l process0 in
  snd p = [IF4; ETD35] /\
  option_map (fun g => (l_level g, l_handlers g)) (fst p (logger_name IF4)) = Some (10%Z, [true; false]) /\
  option_map (fun g => (l_level g, l_handlers g)) (fst p (logger_name ETD35)) = Some (5%Z, [true]).
Proof. repeat split. Qed.

(** ** C29: the level is not per solver *)

(** Two ways to change the level of an existing solver without touching it: constructing another
    solver of the same class (even when the construction fails), or calling its [set_loglevel]. *)
Theorem C29_level_shared_by_class_refuted :
  forall c x,
  let s0 := Construct c false [8%nat] x (LInt 20) in
  let p0 := history ascii_upper [s0] process0 in
  level_of p0 c = 20%Z /\
  level_of (history ascii_upper [Construct c false [8%nat] x (LStr "WARNING")] p0) c = 30%Z /\
  level_of (history ascii_upper [Construct c false [8; 9]%nat x (LStr "WARNING")] p0) c = 30%Z /\
  snd (history ascii_upper [Construct c false [8; 9]%nat x (LStr "WARNING")] p0) = [c] /\
  level_of (history ascii_upper [Construct c false [8%nat] x (LInt 20); SetLevel 1 (LStr "error")] p0) c = 40%Z.
Proof. intros [] x; repeat split. Qed.

(** Events about other classes, and requests that fail before the level is set, leave it alone. *)
Definition concerns (before : list solver_class) (e : event) (c : solver_class) : Prop :=
  match e with
  | Construct c' _ _ _ _ => c' = c
  | SetLevel i _ => nth_error before i = Some c
  | AddHandler _ => False
  end.
Theorem C29_other_classes_do_not_interfere :
  forall upper l e c, let p := history upper l process0 in
  ~ concerns (snd p) e c -> level_of (happens upper e p) c = level_of p c.
Proof.
  intros upper l e c p H.
  assert (I : inv p).
  { apply (history_level upper c l process0 None); [split; [intros ? []|intros ? ? ?; discriminate]|reflexivity]. }
  rewrite happens_level_of by exact I. destruct e as [c0 d dims x lv|i lv|n]; cbn [req_of concerns] in *.
  - destruct (level_value upper lv); [|reflexivity]. destruct (class_eqb c0 c) eqn:E; [|reflexivity]. apply class_eqb_spec in E. contradiction.
  - destruct (nth_error (snd p) i) as [c0|]; [|reflexivity]. destruct (level_value upper lv); [|reflexivity].
    destruct (class_eqb c0 c) eqn:E; [|reflexivity]. apply class_eqb_spec in E. subst. congruence.
  - reflexivity.
Qed.
Theorem C29_bad_level_changes_nothing :
  forall upper l i lv c, let p := history upper l process0 in
  level_value upper lv = None -> level_of (happens upper (SetLevel i lv) p) c = level_of p c.
Proof.
  intros upper l i lv c p H.
  assert (I : inv p).
  { apply (history_level upper c l process0 None); [split; [intros ? []|intros ? ? ?; discriminate]|reflexivity]. }
  rewrite happens_level_of by exact I. cbn [req_of]. rewrite H. destruct (nth_error (snd p) i); reflexivity.
Qed.
Example C29_not_vacuous :
  let p := history ascii_upper [Construct IF4 false [8%nat] no_linalg (LInt 20); Construct ETD4 false [8%nat] no_linalg (LInt 20)] process0 in
  ~ concerns (snd p) (SetLevel 1 (LInt 30)) IF4 /\ level_value ascii_upper (LStr "loud") = None.
Proof. split; [cbn; discriminate|reflexivity]. Qed.

(** ** C66: solver types *)
Theorem C66_solver_type :
  forall upper c diagonalize dims x l r k,
  fst (construct upper c diagonalize dims x l r) = inr k ->
  from_solver (derives_as c) (derives_cs c) = inr (match k with inl _ => CONSTANT_STEP | inr _ => ADAPTIVE_STEP end).
Proof.
  intros upper c dg dims x l r k H. apply C31_strategy_selection in H.
  destruct c, (Nat.eqb (List.length dims) 1), dg; cbn in H; try discriminate; injection H as <-; reflexivity.
Qed.
Example C66_not_vacuous :
  fst (construct ascii_upper ETD34 true [4; 4]%nat no_linalg (LInt 0) (fun _ => None)) = inr (inr ETD34z).
Proof. reflexivity. Qed.

Print Assumptions C28_one_handler_and_last_level.
Print Assumptions C29_other_classes_do_not_interfere.
Print Assumptions C30_string_accepted_iff_level_name.
Print Assumptions C31_construction_succeeds_iff_shape_ok.
