(** * Every solver strategy is the memoryless method with caches *)

From Coq Require Import ZArith List Bool FunctionalExtensionality Lia.
From Verif Require Import Scalars Control ControlCS ControlCSReal ControlSim ControlSound Arrays SchemeBase
     SchemeIF SchemeETD4 SchemeETD5 Solvers SchemeFacts.
Import ListNotations.

Set Implicit Arguments.

Section Sound.
  Variable F : tops.
  Variable A : aops F.
  Variable W : Type.
  Variable p : problem A W.
  (** The nonlinear function may raise, but when it returns, it returns [N v]. *)
  Variable N : vec A -> vec A.
  Hypothesis HN : forall v w y w', p_nl p v w = (inr y, w') -> y = N v.

  Section Generic.
    Variables K X : Type.
    Variable uc : T F -> K -> (exn + unit) * K.
    Hypothesis HI : coef_indep uc.
    (** The coefficient computation does not raise. *)
    Hypothesis HT : forall h k, fst (uc h k) = inr tt.
    Variable k0 : K.
    (** Coefficients for step size [h]. *)
    Definition kof (h : T F) : K := snd (uc h k0).
    (** Step sizes that compare equal have equal coefficients (only signed zeros could differ). *)
    Hypothesis HE : forall a b, teqb F a b = true -> kof a = kof b.
    Notation st := (sst (T F) K X).

    Definition inv_coefs (s : st) : Prop := forall h, h_coeff s = Some h -> coefs s = kof h.

    Lemma uc_kof h k : uc h k = (inr tt, kof h).
    Proof.
      unfold kof. destruct (HI h k k0) as [E1 E2]. specialize (HT h k).
      specialize (E2 HT). destruct (uc h k) as [r c]. cbn [fst snd] in *. congruence.
    Qed.

    Lemma update_coeffs_ok (s : st) h (w : W) : inv_coefs s -> exists h',
      s_update_coeffs F W K X uc h s w = (inr tt, mk_sst (Some h') (n1_init s) (kof h) (mem s), w) /\
      kof h' = kof h.
    Proof.
      intros H. unfold s_update_coeffs. destruct (same_h F h (h_coeff s)) eqn:E.
      - unfold same_h in E. destruct (h_coeff s) as [h'|] eqn:Eh; [|discriminate].
        exists h'. specialize (H h' Eh). assert (E' := HE _ _ E). destruct s; cbn in *. split; congruence.
      - exists h. rewrite uc_kof. split; reflexivity.
    Qed.
  End Generic.

  (** Invariants: what the surviving arrays hold when the flag [accept] is [acc] and the next step
      starts from [u]. *)
  Definition inv1 K uc k0 (s : sst (T F) K (mem1 (vec A))) (u : vec A) : Prop :=
    inv_coefs uc k0 s /\ (n1_init s = true -> m1_NL1 (mem s) = N u).
  Definition inv2 K uc k0 (acc : bool) (s : sst (T F) K (mem2 (vec A))) (u : vec A) : Prop :=
    inv_coefs uc k0 s /\ (n1_init s = false -> acc = false) /\
    (n1_init s = true -> (if acc then m2_NLn (mem s) else m2_NL1 (mem s)) = N u).
  Definition inv3 K uc k0 (acc : bool) (s : sst (T F) K (mem3 (vec A))) (u : vec A) : Prop :=
    inv_coefs uc k0 s /\ (n1_init s = false -> acc = false) /\
    (n1_init s = true -> (if acc then m3_NLn (mem s) else m3_NL1 (mem s)) = emdot A (p_size p) (p_Sinv p) (N u)) /\
    (n1_init s = true -> acc = false -> m3_v (mem s) = emdot A (p_size p) (p_Sinv p) u).
  Definition inv1a K uc k0 (acc : bool) (s : sst (T F) K (mem1 (vec A))) (u : vec A) : Prop :=
    inv_coefs uc k0 s /\ (n1_init s = false -> acc = false) /\
    (n1_init s = true -> acc = false -> m1_NL1 (mem s) = N u).
  Definition inv4 K uc k0 (acc : bool) (s : sst (T F) K (mem4 (vec A))) (u : vec A) : Prop :=
    inv_coefs uc k0 s /\ (n1_init s = false -> acc = false) /\
    (n1_init s = true -> acc = false -> m4_NL1 (mem s) = emdot A (p_size p) (p_Sinv p) (N u)) /\
    (n1_init s = true -> acc = false -> m4_v (mem s) = emdot A (p_size p) (p_Sinv p) u).

  Ltac unf :=
    unfold cs_solver, as_solver in *;
    cbn [cs_st cs_reset cs_upd as_st as_reset as_upd] in *;
    unfold cs_update_stages, as_update_stages, dp_update_stages,
      if4d_init, if4n_init, if34d_init, if34n_init, if34z_init, etd4d_init, etd4n_init, etd34d_init,
      etd34n_init, etd34z_init, etd5d_init, etd5n_init, etd35d_init, etd35n_init, etd35z_init,
      if4d_stages, if4n_stages, if34d_stages, if34n_stages, if34z_stages, etd4d_stages, etd4n_stages,
      etd34d_stages, etd34n_stages, etd34z_stages, etd5d_stages, etd5n_stages, etd35d_stages,
      etd35n_stages, etd35z_stages, s_reset, bind, get, upd, ret, call, set_init, set_mem, pure_nl in *;
    unfold etd35d_init, etd35n_init, etd35z_init, bind, get, upd, ret, call, set_init, set_mem, pure_nl in *.

  Ltac norm := cbn [fst snd h_coeff n1_init coefs mem same_h m1_NL1 m2_NL1 m2_NLn m3_NL1 m3_NLn m3_v
                    m4_NL1 m4_v] in *.

  Definition cs_result {B U St Wd} (x : (exn + U) * St * Wd) (d : B -> U) (b : B) : U :=
    match fst (fst x) with inr v => v | inl _ => d b end.

  (** Result of the strategy for a pure nonlinear function, started from a state [s0]. *)
  Definition cs_phi (m : csm (T F) (vec A) unit) (s0 : cs_st m) (h : T F) (u : vec A) : vec A :=
    match fst (fst (cs_upd m u h s0 tt)) with inr v => v | inl _ => u end.
  Definition as_phi (m : asm (T F) (vec A) unit) (s0 : as_st m) (h : T F) (u : vec A) : vec A * vec A :=
    match fst (fst (as_upd m false u h s0 tt)) with inr v => v | inl _ => (u, u) end.

  Ltac step_nl :=
    match goal with
    | |- context [p_nl p ?v ?w] =>
        let E := fresh "E" in
        destruct (p_nl p v w) as [[?e|?y] ?w'] eqn:E; norm; [|apply HN in E; subst]
    end.


  Ltac fin := repeat split; norm; intros; try congruence; auto; try congruence.

  Ltac go_nl := norm; repeat (step_nl; [fin|]); norm; try (fin; fail).

  Ltac cs_sound_tac :=
    let HI := fresh "HI" in let HT := fresh "HT" in let HE := fresh "HE" in
    intros HI HT HE; split;
    [ intros s u; split; [discriminate|unf; norm; discriminate]
    | intros s u h w [Hc Hm]; unfold cs_phi; unf;
      unfold s_update_coeffs at 2; norm; match type of HE with context [kof _ ?k] => rewrite (uc_kof HI HT k) end; norm;
      let h' := fresh "h'" in let Eu := fresh "Eu" in let Eh := fresh "Eh" in
      destruct (update_coeffs_ok HI HT HE h w Hc) as (h' & Eu & Eh); rewrite Eu; norm;
      unfold inv1, inv_coefs in *; destruct s as [hc b c0 m]; norm;
      destruct b; norm;
      [ specialize (Hm eq_refl); destruct m; norm; subst; go_nl
      | go_nl ] ].
  Ltac as_sound_tac :=
    let HI := fresh "HI" in let HT := fresh "HT" in let HE := fresh "HE" in
    intros HI HT HE; split;
    [ intros s u; unf; unfold inv1a, inv2, inv3, inv4, inv_coefs; norm; fin
    | intros acc s u h w Hi; unfold as_phi; unf;
      unfold s_update_coeffs at 2; norm; match type of HE with context [kof _ ?k] => rewrite (uc_kof HI HT k) end; norm;
      assert (Hc := proj1 Hi);
      let h' := fresh "h'" in let Eu := fresh "Eu" in let Eh := fresh "Eh" in
      destruct (update_coeffs_ok HI HT HE h w Hc) as (h' & Eu & Eh); rewrite Eu; norm;
      unfold inv1a, inv2, inv3, inv4, inv_coefs in *; destruct s as [hc b c0 m]; norm;
      destruct Hi as [_ Hm]; repeat match goal with H : _ /\ _ |- _ => destruct H end;
      destruct b, acc; norm;
      repeat match goal with
        | H : false = true -> _ |- _ => clear H
        | H : true = false -> _ |- _ => clear H
        | H : true = true -> _ |- _ => specialize (H eq_refl)
        | H : false = false -> _ |- _ => specialize (H eq_refl)
        end; try discriminate; destruct m; norm; subst; go_nl ].


  Lemma if4d_sound uc k0 x0 : coef_indep uc -> (forall h k, fst (uc h k) = inr tt) ->
    (forall a b, teqb F a b = true -> kof uc k0 a = kof uc k0 b) ->
    cs_sound (cs_solver F (vec A) W (if_coefs (vec A)) (mem1 (vec A)) uc
                 (if4d_init F A W (p_nl p)) (if4d_stages F A W (p_nl p)))
             (@cs_phi (cs_solver F (vec A) unit (if_coefs (vec A)) (mem1 (vec A)) uc
                 (if4d_init F A unit (pure_nl N)) (if4d_stages F A unit (pure_nl N))) (mk_sst None false k0 x0)) (inv1 uc k0).
  Proof. cs_sound_tac. Qed.

  Lemma if4n_sound uc k0 x0 : coef_indep uc -> (forall h k, fst (uc h k) = inr tt) ->
    (forall a b, teqb F a b = true -> kof uc k0 a = kof uc k0 b) ->
    cs_sound (cs_solver F (vec A) W (if_coefs (mat A)) (mem1 (vec A)) uc
                 (if4n_init F A W (p_nl p)) (if4n_stages F A W (p_nl p) (p_size p)))
             (@cs_phi (cs_solver F (vec A) unit (if_coefs (mat A)) (mem1 (vec A)) uc
                 (if4n_init F A unit (pure_nl N)) (if4n_stages F A unit (pure_nl N) (p_size p))) (mk_sst None false k0 x0)) (inv1 uc k0).
  Proof. cs_sound_tac. Qed.

  Lemma etd4d_sound uc k0 x0 : coef_indep uc -> (forall h k, fst (uc h k) = inr tt) ->
    (forall a b, teqb F a b = true -> kof uc k0 a = kof uc k0 b) ->
    cs_sound (cs_solver F (vec A) W (etd4_coefs (vec A)) (mem1 (vec A)) uc
                 (etd4d_init F A W (p_nl p)) (etd4d_stages F A W (p_nl p)))
             (@cs_phi (cs_solver F (vec A) unit (etd4_coefs (vec A)) (mem1 (vec A)) uc
                 (etd4d_init F A unit (pure_nl N)) (etd4d_stages F A unit (pure_nl N))) (mk_sst None false k0 x0)) (inv1 uc k0).
  Proof. cs_sound_tac. Qed.

  Lemma etd4n_sound uc k0 x0 : coef_indep uc -> (forall h k, fst (uc h k) = inr tt) ->
    (forall a b, teqb F a b = true -> kof uc k0 a = kof uc k0 b) ->
    cs_sound (cs_solver F (vec A) W (etd4_coefs (mat A)) (mem1 (vec A)) uc
                 (etd4n_init F A W (p_nl p)) (etd4n_stages F A W (p_nl p) (p_size p)))
             (@cs_phi (cs_solver F (vec A) unit (etd4_coefs (mat A)) (mem1 (vec A)) uc
                 (etd4n_init F A unit (pure_nl N)) (etd4n_stages F A unit (pure_nl N) (p_size p))) (mk_sst None false k0 x0)) (inv1 uc k0).
  Proof. cs_sound_tac. Qed.

  Lemma etd5d_sound uc k0 x0 : coef_indep uc -> (forall h k, fst (uc h k) = inr tt) ->
    (forall a b, teqb F a b = true -> kof uc k0 a = kof uc k0 b) ->
    cs_sound (cs_solver F (vec A) W (etd5_coefs (vec A)) (mem1 (vec A)) uc
                 (etd5d_init F A W (p_nl p)) (etd5d_stages F A W (p_nl p)))
             (@cs_phi (cs_solver F (vec A) unit (etd5_coefs (vec A)) (mem1 (vec A)) uc
                 (etd5d_init F A unit (pure_nl N)) (etd5d_stages F A unit (pure_nl N))) (mk_sst None false k0 x0)) (inv1 uc k0).
  Proof. cs_sound_tac. Qed.

  Lemma etd5n_sound uc k0 x0 : coef_indep uc -> (forall h k, fst (uc h k) = inr tt) ->
    (forall a b, teqb F a b = true -> kof uc k0 a = kof uc k0 b) ->
    cs_sound (cs_solver F (vec A) W (etd5_coefs (mat A)) (mem1 (vec A)) uc
                 (etd5n_init F A W (p_nl p)) (etd5n_stages F A W (p_nl p) (p_size p)))
             (@cs_phi (cs_solver F (vec A) unit (etd5_coefs (mat A)) (mem1 (vec A)) uc
                 (etd5n_init F A unit (pure_nl N)) (etd5n_stages F A unit (pure_nl N) (p_size p))) (mk_sst None false k0 x0)) (inv1 uc k0).
  Proof. cs_sound_tac. Qed.

  Lemma if34d_sound uc k0 x0 : coef_indep uc -> (forall h k, fst (uc h k) = inr tt) ->
    (forall a b, teqb F a b = true -> kof uc k0 a = kof uc k0 b) ->
    as_sound (as_solver F (vec A) W (if_coefs (vec A)) (mem2 (vec A)) uc
                 (if34d_init F A W (p_nl p)) (if34d_stages F A W (p_nl p)))
             (@as_phi (as_solver F (vec A) unit (if_coefs (vec A)) (mem2 (vec A)) uc
                 (if34d_init F A unit (pure_nl N)) (if34d_stages F A unit (pure_nl N))) (mk_sst None false k0 x0)) (inv2 uc k0).
  Proof. as_sound_tac. Qed.

  Lemma if34n_sound uc k0 x0 : coef_indep uc -> (forall h k, fst (uc h k) = inr tt) ->
    (forall a b, teqb F a b = true -> kof uc k0 a = kof uc k0 b) ->
    as_sound (as_solver F (vec A) W (if_coefs (mat A)) (mem2 (vec A)) uc
                 (if34n_init F A W (p_nl p)) (if34n_stages F A W (p_nl p) (p_size p)))
             (@as_phi (as_solver F (vec A) unit (if_coefs (mat A)) (mem2 (vec A)) uc
                 (if34n_init F A unit (pure_nl N)) (if34n_stages F A unit (pure_nl N) (p_size p))) (mk_sst None false k0 x0)) (inv2 uc k0).
  Proof. as_sound_tac. Qed.

  Lemma if34z_sound uc k0 x0 : coef_indep uc -> (forall h k, fst (uc h k) = inr tt) ->
    (forall a b, teqb F a b = true -> kof uc k0 a = kof uc k0 b) ->
    as_sound (as_solver F (vec A) W (if_coefs (vec A)) (mem3 (vec A)) uc
                 (if34z_init F A W (p_nl p) (p_size p) (p_Sinv p)) (if34z_stages F A W (p_nl p) (p_size p) (p_S p) (p_Sinv p)))
             (@as_phi (as_solver F (vec A) unit (if_coefs (vec A)) (mem3 (vec A)) uc
                 (if34z_init F A unit (pure_nl N) (p_size p) (p_Sinv p)) (if34z_stages F A unit (pure_nl N) (p_size p) (p_S p) (p_Sinv p))) (mk_sst None false k0 x0)) (inv3 uc k0).
  Proof. as_sound_tac. Qed.

  Lemma etd34d_sound uc k0 x0 : coef_indep uc -> (forall h k, fst (uc h k) = inr tt) ->
    (forall a b, teqb F a b = true -> kof uc k0 a = kof uc k0 b) ->
    as_sound (as_solver F (vec A) W (etd4_coefs (vec A)) (mem2 (vec A)) uc
                 (etd34d_init F A W (p_nl p)) (etd34d_stages F A W (p_nl p)))
             (@as_phi (as_solver F (vec A) unit (etd4_coefs (vec A)) (mem2 (vec A)) uc
                 (etd34d_init F A unit (pure_nl N)) (etd34d_stages F A unit (pure_nl N))) (mk_sst None false k0 x0)) (inv2 uc k0).
  Proof. as_sound_tac. Qed.

  Lemma etd34n_sound uc k0 x0 : coef_indep uc -> (forall h k, fst (uc h k) = inr tt) ->
    (forall a b, teqb F a b = true -> kof uc k0 a = kof uc k0 b) ->
    as_sound (as_solver F (vec A) W (etd4_coefs (mat A)) (mem2 (vec A)) uc
                 (etd34n_init F A W (p_nl p)) (etd34n_stages F A W (p_nl p) (p_size p)))
             (@as_phi (as_solver F (vec A) unit (etd4_coefs (mat A)) (mem2 (vec A)) uc
                 (etd34n_init F A unit (pure_nl N)) (etd34n_stages F A unit (pure_nl N) (p_size p))) (mk_sst None false k0 x0)) (inv2 uc k0).
  Proof. as_sound_tac. Qed.

  Lemma etd34z_sound uc k0 x0 : coef_indep uc -> (forall h k, fst (uc h k) = inr tt) ->
    (forall a b, teqb F a b = true -> kof uc k0 a = kof uc k0 b) ->
    as_sound (as_solver F (vec A) W (etd4_coefs (vec A)) (mem3 (vec A)) uc
                 (etd34z_init F A W (p_nl p) (p_size p) (p_Sinv p)) (etd34z_stages F A W (p_nl p) (p_size p) (p_S p) (p_Sinv p)))
             (@as_phi (as_solver F (vec A) unit (etd4_coefs (vec A)) (mem3 (vec A)) uc
                 (etd34z_init F A unit (pure_nl N) (p_size p) (p_Sinv p)) (etd34z_stages F A unit (pure_nl N) (p_size p) (p_S p) (p_Sinv p))) (mk_sst None false k0 x0)) (inv3 uc k0).
  Proof. as_sound_tac. Qed.

  Lemma etd35d_sound uc k0 x0 : coef_indep uc -> (forall h k, fst (uc h k) = inr tt) ->
    (forall a b, teqb F a b = true -> kof uc k0 a = kof uc k0 b) ->
    as_sound (as_solver F (vec A) W (etd5_coefs (vec A)) (mem1 (vec A)) uc
                 (etd35d_init F A W (p_nl p)) (etd35d_stages F A W (p_nl p)))
             (@as_phi (as_solver F (vec A) unit (etd5_coefs (vec A)) (mem1 (vec A)) uc
                 (etd35d_init F A unit (pure_nl N)) (etd35d_stages F A unit (pure_nl N))) (mk_sst None false k0 x0)) (inv1a uc k0).
  Proof. as_sound_tac. Qed.

  Lemma etd35n_sound uc k0 x0 : coef_indep uc -> (forall h k, fst (uc h k) = inr tt) ->
    (forall a b, teqb F a b = true -> kof uc k0 a = kof uc k0 b) ->
    as_sound (as_solver F (vec A) W (etd5_coefs (mat A)) (mem1 (vec A)) uc
                 (etd35n_init F A W (p_nl p)) (etd35n_stages F A W (p_nl p) (p_size p)))
             (@as_phi (as_solver F (vec A) unit (etd5_coefs (mat A)) (mem1 (vec A)) uc
                 (etd35n_init F A unit (pure_nl N)) (etd35n_stages F A unit (pure_nl N) (p_size p))) (mk_sst None false k0 x0)) (inv1a uc k0).
  Proof. as_sound_tac. Qed.

  Lemma etd35z_sound uc k0 x0 : coef_indep uc -> (forall h k, fst (uc h k) = inr tt) ->
    (forall a b, teqb F a b = true -> kof uc k0 a = kof uc k0 b) ->
    as_sound (as_solver F (vec A) W (etd5_coefs (vec A)) (mem4 (vec A)) uc
                 (etd35z_init F A W (p_nl p) (p_size p) (p_Sinv p)) (etd35z_stages F A W (p_nl p) (p_size p) (p_S p) (p_Sinv p)))
             (@as_phi (as_solver F (vec A) unit (etd5_coefs (vec A)) (mem4 (vec A)) uc
                 (etd35z_init F A unit (pure_nl N) (p_size p) (p_Sinv p)) (etd35z_stages F A unit (pure_nl N) (p_size p) (p_S p) (p_Sinv p))) (mk_sst None false k0 x0)) (inv4 uc k0).
  Proof. as_sound_tac. Qed.

  Lemma dp_sound k0 x0 :
    (forall a b, teqb F a b = true -> kof (dp_coeffs F A (p_vec p)) k0 a = kof (dp_coeffs F A (p_vec p)) k0 b) ->
    as_sound (if45dp F A W (p_nl p) (p_vec p))
             (@as_phi (if45dp F A unit (pure_nl N) (p_vec p)) (mk_sst None false k0 x0))
             (inv2 (dp_coeffs F A (p_vec p)) k0).
  Proof.
    assert (HT : forall h k, fst (dp_coeffs F A (p_vec p) h k) = inr tt) by reflexivity.
    revert HT. generalize (@dp_indep F A (p_vec p)). unfold if45dp, dp_update_stages.
    generalize (dp_coeffs F A (p_vec p)). intros uc. as_sound_tac.
  Qed.

End Sound.
