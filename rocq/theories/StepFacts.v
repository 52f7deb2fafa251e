(** The complete description of one iteration. *)
From Verif Require Import Base Num Linalg Residuals Iteratives UserModel Jacobian Solver
  Tactics FlowFacts FlagFacts.

Section StepFacts.
Context {F : Type} {NF : Num F} {IF : Inverter F}.
Context {St EI EU : Type} (M : Model F St EI EU).
Notation rootfinder := (rootfinder F).

(** The methods that keep no secant pair. *)
Definition keeps_no_pair (m : resolution_method) : bool :=
  match m with
  | NewtonRaphson | QuasiNewton StationaryNewton => true
  | _ => false
  end.

Lemma store_steps_full : forall rf s cur e en rf',
  store_steps M rf s cur e en = Ret rf' ->
  if keeps_no_pair (sp_resolution_method (rf_parameters rf)) then rf' = rf
  else exists ds dy,
    vsub (get_iteratives M s) cur = Ret ds /\ vsub en e = Ret dy /\
    rf' = set_steps rf ds dy en.
Proof.
  intros rf s cur e en rf' H. unfold store_steps in H.
  destruct (sp_resolution_method (rf_parameters rf)) as [|[]]; cbn [keeps_no_pair];
    try (injection H as <-; reflexivity); minv1 H; minv1 H; minv1 H; eauto 10.
Qed.

Lemma finish_update_full : forall (rf : rootfinder) s e cur prop rf' s' en,
  finish_update M rf s e cur prop = Ret (rf', s', en) ->
  exists e1, evaluate_errors M rf s = Ret e1 /\
    (if sp_damping (rf_parameters rf) && ngtb (amax e1) (amax e)
        && negb (is_quasi_newton (sp_resolution_method (rf_parameters rf))
                 && jm_approximated (rf_jacobian rf))
     then exists d u, damped_guess cur prop = Ret d /\
            evaluate M (set_iteratives M s d) = Ret (s', Ok u) /\
            evaluate_errors M rf s' = Ret en
     else s' = s /\ en = e1) /\
    (if keeps_no_pair (sp_resolution_method (rf_parameters rf))
     then rf_iteratives_step rf' = rf_iteratives_step rf /\
          rf_residuals_step rf' = rf_residuals_step rf /\
          rf_residuals_current rf' = rf_residuals_current rf
     else exists ds dy,
       vsub (get_iteratives M s') cur = Ret ds /\ vsub en e = Ret dy /\
       rf_iteratives_step rf' = Some ds /\ rf_residuals_step rf' = Some dy /\
       rf_residuals_current rf' = Some en).
Proof.
  intros rf s e cur prop rf' s' en H. unfold finish_update in H.
  minv1 H. rename E into Ee. minv1 H. rename E into Ew. minv1 H. rename E into Ed.
  minv1 H. rename E into Es. minv1 H.
  exists x. split; [reflexivity|].
  assert (Hl : same_but_log rf x0).
  { eapply same_but_log_when; [|exact Ew]. intros ? Hr. eapply same_but_log_iter; eauto. }
  apply same_but_log_fields in Hl. destruct Hl as ((Hp & _ & _ & Hrc & _) & _ & Hj & _ & Hs1 & Hs2 & Hs3).
  assert (Ha : rf_parameters a0 = rf_parameters rf /\ rf_iteratives_step a0 = rf_iteratives_step rf /\
    rf_residuals_step a0 = rf_residuals_step rf /\ rf_residuals_current a0 = rf_residuals_current rf /\
    (if sp_damping (rf_parameters rf) && ngtb (amax x) (amax e)
        && negb (is_quasi_newton (sp_resolution_method (rf_parameters rf))
                 && jm_approximated (rf_jacobian rf))
     then exists d u, damped_guess cur prop = Ret d /\
            evaluate M (set_iteratives M s d) = Ret (s', Ok u) /\
            evaluate_errors M rf s' = Ret en
     else s' = s /\ en = x)).
  { rewrite Hp in Ed. destruct (sp_damping (rf_parameters rf)).
    - apply damping_inv in Ed.
      destruct Ed as [(H1 & -> & -> & ->)|[(H1 & H2 & H3 & Hl & -> & ->)|(H1 & H2 & Hl & d & u & Hd1 & Hd2 & Hd3)]];
        rewrite H1; cbn [andb].
      + auto 10.
      + rewrite Hp in H2. rewrite Hj in H3. rewrite H2, H3. cbn [andb negb].
        apply same_but_log_fields in Hl.
        destruct Hl as ((Hl & _) & _ & _ & _ & Hl1 & Hl2 & Hl3).
        cbn [rf_parameters rf_iteratives_step rf_residuals_step rf_residuals_current set_jacobian] in *.
        repeat split; congruence.
      + rewrite Hp, Hj in H2. rewrite H2. cbn [negb].
        apply same_but_log_fields in Hl. destruct Hl as ((Hl & _) & _ & _ & _ & Hl1 & Hl2 & Hl3).
        split; [congruence|]. split; [congruence|]. split; [congruence|]. split; [congruence|].
        exists d, u. split; [exact Hd1|]. split; [exact Hd2|].
        rewrite <- Hd3. symmetry. now apply evaluate_errors_config.
    - minv1 Ed. cbn [andb]. auto 10. }
  clear Ed. destruct Ha as (Ha1 & Ha2 & Ha3 & Ha4 & Ha5). split; [exact Ha5|].
  apply store_steps_full in Es. rewrite Ha1 in Es.
  destruct (keeps_no_pair _).
  - subst rf'. auto.
  - destruct Es as (ds & dy & H1 & H2 & ->). exists ds, dy. auto.
Qed.

Lemma iteration_full : forall (rf : rootfinder) s rf' s' en,
  iteration M rf s = Ret (rf', s', Ok en) ->
  exists rf1 s1 g s2 r2 e0 e1,
    compute_step M (set_iter rf (S (rf_iter rf))) s = Ret (rf1, s1, Ok g) /\
    compute_next_from_inv_jac M rf1 s1 = Ret g /\
    evaluate_errors M rf s1 = Ret e0 /\
    evaluate M (set_iteratives M s1 g) = Ret (s2, r2) /\
    (forall x, r2 <> Err (UnusableValuesError x)) /\
    evaluate_errors M rf s2 = Ret e1 /\
    (if sp_damping (rf_parameters rf) && ngtb (amax e1) (amax e0)
        && negb (is_quasi_newton (sp_resolution_method (rf_parameters rf)) && approximated_after rf)
     then exists d u, damped_guess (get_iteratives M s1) g = Ret d /\
            evaluate M (set_iteratives M s2 d) = Ret (s', Ok u) /\
            evaluate_errors M rf s' = Ret en
     else s' = s2 /\ en = e1) /\
    (if keeps_no_pair (sp_resolution_method (rf_parameters rf))
     then rf_iteratives_step rf' = rf_iteratives_step rf /\
          rf_residuals_step rf' = rf_residuals_step rf /\
          rf_residuals_current rf' = rf_residuals_current rf
     else exists ds dy,
       vsub (get_iteratives M s') (get_iteratives M s1) = Ret ds /\ vsub en e0 = Ret dy /\
       rf_iteratives_step rf' = Some ds /\ rf_residuals_step rf' = Some dy /\
       rf_residuals_current rf' = Some en) /\
    jm_approximated (rf_jacobian rf') = approximated_after rf /\
    jm_compute_at_next (rf_jacobian rf') =
      sp_damping (rf_parameters rf) && ngtb (amax e1) (amax e0)
      && is_quasi_newton (sp_resolution_method (rf_parameters rf))
      && approximated_after rf /\
    jm_matrix (rf_jacobian rf') = jm_matrix (rf_jacobian rf1) /\
    jm_inverse (rf_jacobian rf') = jm_inverse (rf_jacobian rf1).
Proof.
  intros rf s rf' s' en H. apply iteration_inv in H.
  destruct H as (rf1 & s1 & r1 & Hs & H). destruct r1 as [g|x]; [|destruct H as (_ & _ & [=])].
  destruct (compute_step_flags _ _ _ _ _ _ Hs) as (Hf1 & Hf2 & _).
  assert (Hs0 := Hs). apply compute_step_inv in Hs. destruct Hs as (Hs & Hg).
  specialize (Hg g eq_refl).
  apply same_but_jac_fields in Hs. destruct Hs as ((Hp & _ & _ & Hrc & _) & _ & _ & Hst1 & Hst2 & Hst3).
  apply update_model_inv in H.
  destruct H as (e & s2 & r2 & He & Hev & [(x & _ & _ & _ & [=])|(en' & [= ->] & Hnu & Hf)]).
  assert (Hj := Hf). apply finish_update_flags in Hj. destruct Hj as (e1 & He1 & Hj & _).
  apply finish_update_full in Hf. destruct Hf as (e1' & He1' & Hd & Hpair).
  rewrite He1 in He1'. injection He1' as <-.
  assert (Hec : forall s, evaluate_errors M rf1 s = evaluate_errors M rf s)
    by (intros; now apply evaluate_errors_config).
  assert (Hec2 : forall b s, evaluate_errors M (set_valid rf1 b) s = evaluate_errors M rf s)
    by (intros; now apply evaluate_errors_config).
  cbn [rf_parameters rf_jacobian rf_iteratives_step rf_residuals_step rf_residuals_current
       set_valid set_iter] in *.
  change (approximated_after (set_iter rf (S (rf_iter rf)))) with (approximated_after rf) in *.
  rewrite Hp, Hf2 in *.
  exists rf1, s1, g, s2, r2, e, e1.
  split; [exact Hs0|]. split; [exact Hg|]. split; [congruence|].
  split; [exact Hev|]. split; [exact Hnu|]. split; [rewrite <- He1; now rewrite Hec2|].
  split.
  { destruct (_ && negb _); [|exact Hd]. destruct Hd as (d & u & H1 & H2 & H3). rewrite Hec2 in H3.
    exists d, u. auto. }
  split. { destruct (keeps_no_pair _); [|exact Hpair]. destruct Hpair as (-> & -> & ->). auto. }
  rewrite Hj.
  destruct (sp_damping _ && _ && _ && _); (split; [exact Hf2|]); (split; [first [exact Hf1|reflexivity]|]); auto.
Qed.

End StepFacts.
