(** Evolution of the jacobian and of its flags through an iteration. *)
From Verif Require Import Base Num Linalg Residuals Iteratives UserModel Jacobian Solver.
From Verif Require Import Tactics FlowFacts.

Section Flags.
Context {F : Type} {NF : Num F} {IF : Inverter F}.
Context {St EI EU : Type} (M : Model F St EI EU).
Notation rootfinder := (rootfinder F).

Lemma next_has_inverse : forall (rf : rootfinder) s g,
  compute_next_from_inv_jac M rf s = Ret g -> exists i, jm_inverse (rf_jacobian rf) = Some i.
Proof.
  intros rf s g H. unfold compute_next_from_inv_jac in H. minv1 H. minv1 H. minv1 H.
  destruct (jm_inverse (rf_jacobian rf)); [eauto|discriminate].
Qed.

Lemma logged_jac : forall rf rf' : rootfinder,
  when_debug rf (jac_to_log rf) = Ret rf' -> same_but_log rf rf'.
Proof.
  intros rf rf' H. eapply same_but_log_when; [|exact H].
  intros ? Hj. eapply same_but_log_jac; eauto.
Qed.

Lemma compute_jac_flags : forall (rf : rootfinder) s rf' s' r i,
  compute_jac M rf s = Ret (rf', s', Ok r) ->
  jm_inverse (rf_jacobian rf') = Some i ->
  jm_compute_at_next (rf_jacobian rf') = false /\
  jm_approximated (rf_jacobian rf') = false /\
  exists m, jm_matrix (rf_jacobian rf') = Some m /\ try_inverse m = Some i.
Proof.
  intros rf s rf' s' r i H Hg. apply compute_jac_inv in H.
  destruct H as (j & r0 & -> & H & Hr). cbn [rf_jacobian set_jacobian] in *.
  assert (Hu : forall j0 m, update_jacobian_with_exact_value j0 m = (j, true) ->
    jm_compute_at_next j = false /\ jm_approximated j = false /\
    exists m, jm_matrix j = Some m /\ try_inverse m = Some i).
  { intros j0 m Hu. unfold update_jacobian_with_exact_value, update_jacobian in Hu.
    destruct (try_inverse m) eqn:Et; [|discriminate]. injection Hu as <-. cbn in *.
    split; [reflexivity|]. split; [reflexivity|]. exists m. rewrite Et. auto. }
  destruct (jacobian_provided M s).
  - unfold evaluate_jacobian_from_analytical_function in H. minv1 H. minv1 H.
    destruct b as [jv|x0].
    + minv1 H. destruct (update_jacobian_with_exact_value _ _) as [j1 ok] eqn:Eu.
      destruct ok; minv1 H; [eauto|discriminate Hr].
    + minv1 H. discriminate Hg.
  - unfold evaluate_jacobian_from_finite_difference in H. minv1 H. minv1 H.
    destruct b as [m|x0].
    + destruct (update_jacobian_with_exact_value _ _) as [j1 ok] eqn:Eu.
      destruct ok; minv1 H; [eauto|discriminate Hr].
    + minv1 H. rename E0 into Ef. unfold compute_jacobian_from_finite_difference in Ef.
      minv1 Ef. minv1 Ef. minv1 Ef. rename E2 into Ecol.
      destruct b; minv1 Ef.
      apply fd_columns_err in Ecol; destruct Ecol as (x9 & ->).
      discriminate Hr.
Qed.

(** Whether the jacobian held after a step is an approximation. *)
Definition approximated_after (rf : rootfinder) : bool :=
  match sp_resolution_method (rf_parameters rf) with
  | NewtonRaphson => false
  | QuasiNewton m =>
      if jm_compute_at_next (rf_jacobian rf) then false
      else match m with
           | StationaryNewton => jm_approximated (rf_jacobian rf)
           | _ => true
           end
  end.

Lemma compute_step_flags : forall (rf : rootfinder) s rf' s' g,
  compute_step M rf s = Ret (rf', s', Ok g) ->
  jm_compute_at_next (rf_jacobian rf') = false /\
  jm_approximated (rf_jacobian rf') = approximated_after rf /\
  exists i, jm_inverse (rf_jacobian rf') = Some i.
Proof.
  intros rf s rf' s' g H. unfold compute_step in H. unfold approximated_after.
  destruct (sp_resolution_method (rf_parameters rf)) as [|m].
  - unfold compute_newton_raphson_step in H.
    minv1 H. rename E into Ec. minv1 H. rename E into Ew.
    assert (Hl := logged_jac _ _ Ew).
    apply same_but_log_fields in Hl. destruct Hl as (_ & _ & Hj & _).
    destruct b; [|minv1 H]. minv1 H. minv1 H.
    destruct (next_has_inverse _ _ _ E) as (i & Hi). rewrite Hj in *.
    destruct (compute_jac_flags _ _ _ _ _ _ Ec Hi) as (H1 & H2 & _). eauto.
  - unfold compute_quasi_newton_step in H. minv1 H. rename E into Eq.
    destruct b; [|minv1 H]. minv1 H. minv1 H.
    destruct (next_has_inverse _ _ _ E) as (i & Hi).
    unfold evaluate_jacobian_quasi_newton_step in Eq.
    destruct (jm_compute_at_next (rf_jacobian rf)) eqn:Ecomp.
    + minv1 Eq. rename E0 into Ec. minv1 Eq. rename E0 into Ew. minv1 Eq.
      assert (Hl := logged_jac _ _ Ew).
      apply same_but_log_fields in Hl. destruct Hl as (_ & _ & Hj & _). rewrite Hj in *.
      destruct (compute_jac_flags _ _ _ _ _ _ Ec Hi) as (H1 & H2 & _). eauto.
    + minv1 Eq. rename E0 into Ea. destruct b; [|discriminate Eq].
      minv1 Eq. rename E0 into Ew. minv1 Eq.
      assert (Hl := logged_jac _ _ Ew).
      apply same_but_log_fields in Hl. destruct Hl as (_ & _ & Hj & _). rewrite Hj in *.
      unfold approximate_step in Ea. destruct m as [|um|um].
      * injection Ea; intros; subst. eauto.
      * minv1 Ea. minv1 Ea. minv1 Ea. minv1 Ea. minv1 Ea.
        match goal with H : approximate_jacobian _ _ _ _ _ = _ |- _ => rename H into Ej end.
        cbn [rf_jacobian set_jacobian] in *.
        unfold approximate_jacobian in Ej. minv1 Ej.
        unfold update_jacobian_with_approximated_value, update_jacobian in Ej.
        destruct (try_inverse _); [|discriminate Ej]. injection Ej as <-. cbn in *. eauto.
      * minv1 Ea. minv1 Ea. minv1 Ea. minv1 Ea. minv1 Ea.
        match goal with H : approximate_inv_jacobian _ _ _ _ _ = _ |- _ => rename H into Ej end.
        cbn [rf_jacobian set_jacobian] in *.
        unfold approximate_inv_jacobian in Ej. minv1 Ej. minv1 Ej. injection Ej as <-.
        cbn in *. eauto.
Qed.

(** The jacobian at the end of an update: recomputation is requested exactly
    when damping is on, the method is quasi-Newton, the jacobian is approximated
    and the error grew. *)
Lemma finish_update_flags : forall (rf : rootfinder) s e cur prop rf' s' en,
  finish_update M rf s e cur prop = Ret (rf', s', en) ->
  exists e1, evaluate_errors M rf s = Ret e1 /\
  let force := sp_damping (rf_parameters rf) && ngtb (amax e1) (amax e)
     && is_quasi_newton (sp_resolution_method (rf_parameters rf))
     && jm_approximated (rf_jacobian rf) in
  rf_jacobian rf' =
    (if force then force_jacobian_computation (rf_jacobian rf) else rf_jacobian rf) /\
  (force = true -> s' = s /\ en = e1).
Proof.
  intros rf s e cur prop rf' s' en H. unfold finish_update in H.
  minv1 H. rename E into Ee. minv1 H. rename E into Ew. minv1 H. rename E into Ed.
  minv1 H. rename E into Es. minv1 H.
  exists x. split; [reflexivity|]. cbv zeta.
  assert (Hl : same_but_log rf x0).
  { eapply same_but_log_when; [|exact Ew]. intros ? Hr. eapply same_but_log_iter; eauto. }
  apply same_but_log_fields in Hl. destruct Hl as ((Hp & _) & _ & Hj & _).
  assert (Hs : rf_jacobian rf' = rf_jacobian a0).
  { apply store_steps_inv in Es. destruct Es as [->|(ds & dy & _ & _ & ->)]; reflexivity. }
  rewrite Hs. rewrite Hp in Ed. destruct (sp_damping (rf_parameters rf)).
  - apply damping_inv in Ed.
    destruct Ed as [(H1 & -> & -> & ->)|[(H1 & H2 & H3 & Hl & -> & ->)|(H1 & H2 & Hl & _)]];
      rewrite H1; cbn [andb].
    + rewrite Hj. split; [reflexivity|discriminate].
    + rewrite Hp in H2. rewrite Hj in H3. rewrite H2, H3. cbn [andb].
      apply same_but_log_fields in Hl. destruct Hl as (_ & _ & Hl & _).
      rewrite Hl. cbn. rewrite Hj. auto.
    + rewrite Hp, Hj in H2. rewrite H2.
      apply same_but_log_fields in Hl. destruct Hl as (_ & _ & Hl & _).
      split; [congruence|discriminate].
  - minv1 Ed. cbn [andb]. split; [assumption|discriminate].
Qed.

(** The whole iteration. [e0] are the errors of the state from which the step
    was taken, [e1] those of the proposed guess. *)
Lemma iteration_flags : forall (rf : rootfinder) s rf' s' en,
  iteration M rf s = Ret (rf', s', Ok en) ->
  exists rf1 s1 g s2 r2 e0 e1,
    compute_step M (set_iter rf (S (rf_iter rf))) s = Ret (rf1, s1, Ok g) /\
    evaluate_errors M rf s1 = Ret e0 /\
    evaluate M (set_iteratives M s1 g) = Ret (s2, r2) /\
    evaluate_errors M rf s2 = Ret e1 /\
    jm_approximated (rf_jacobian rf') = approximated_after rf /\
    jm_compute_at_next (rf_jacobian rf') =
      sp_damping (rf_parameters rf) && ngtb (amax e1) (amax e0)
      && is_quasi_newton (sp_resolution_method (rf_parameters rf))
      && approximated_after rf.
Proof.
  intros rf s rf' s' en H. apply iteration_inv in H.
  destruct H as (rf1 & s1 & r1 & Hs & H). destruct r1 as [g|x]; [|destruct H as (_ & _ & [=])].
  destruct (compute_step_flags _ _ _ _ _ Hs) as (Hf1 & Hf2 & _).
  assert (Hs0 := Hs). apply compute_step_inv in Hs. destruct Hs as (Hs & _).
  apply same_but_jac_fields in Hs. destruct Hs as ((Hp & _ & _ & Hrc & _) & _).
  apply update_model_inv in H.
  destruct H as (e & s2 & r2 & He & Hev & [(x & _ & _ & _ & [=])|(en' & [= ->] & Hnu & Hf)]).
  apply finish_update_flags in Hf. destruct Hf as (e1 & He1 & Hj & _).
  exists rf1, s1, g, s2, r2, e, e1.
  split; [exact Hs0|]. split; [rewrite <- He; symmetry; apply evaluate_errors_config; exact Hrc|].
  split; [exact Hev|]. split; [rewrite <- He1; symmetry; apply evaluate_errors_config; exact Hrc|].
  cbn [rf_parameters rf_jacobian set_valid set_iter] in *.
  change (approximated_after (set_iter rf (S (rf_iter rf)))) with (approximated_after rf) in *.
  rewrite Hp, Hf2 in Hj. rewrite Hj.
  destruct (sp_damping _ && _ && _ && _); split; first [exact Hf2|exact Hf1|reflexivity].
Qed.

End Flags.
