(** Inversion lemmas and loop invariants for solver/rootfinder.rs, for every
    scalar type, inversion function and user model. *)
From Verif Require Import Base Num Linalg Residuals Iteratives UserModel Jacobian Solver Tactics.

Section Flow.
Context {F : Type} {NF : Num F} {IF : Inverter F}.
Context {St EI EU : Type} (M : Model F St EI EU).
Notation rootfinder := (rootfinder F).

(** The user inputs of the solver are never modified. *)
Definition same_config (a b : rootfinder) : Prop :=
  rf_parameters b = rf_parameters a /\
  rf_initial_guess b = rf_initial_guess a /\
  rf_iters_params b = rf_iters_params a /\
  rf_residuals_config b = rf_residuals_config a /\
  rf_debug b = rf_debug a.

Lemma same_config_refl : forall a, same_config a a.
Proof. repeat split. Qed.
Lemma same_config_trans : forall a b c,
  same_config a b -> same_config b c -> same_config a c.
Proof. unfold same_config; intuition congruence. Qed.

Lemma when_debug_log : forall (rf : rootfinder) k rf',
  (forall rf1, k = Ret rf1 -> same_config rf rf1 /\ rf_iter rf1 = rf_iter rf
     /\ rf_jacobian rf1 = rf_jacobian rf /\ rf_valid_last rf1 = rf_valid_last rf
     /\ rf_iteratives_step rf1 = rf_iteratives_step rf
     /\ rf_residuals_step rf1 = rf_residuals_step rf
     /\ rf_residuals_current rf1 = rf_residuals_current rf) ->
  when_debug rf k = Ret rf' ->
  same_config rf rf' /\ rf_iter rf' = rf_iter rf
     /\ rf_jacobian rf' = rf_jacobian rf /\ rf_valid_last rf' = rf_valid_last rf
     /\ rf_iteratives_step rf' = rf_iteratives_step rf
     /\ rf_residuals_step rf' = rf_residuals_step rf
     /\ rf_residuals_current rf' = rf_residuals_current rf.
Proof.
  intros rf k rf' Hk H. unfold when_debug in H.
  destruct (rf_debug rf); [auto|]. injection H as <-.
  repeat split.
Qed.

Lemma write_log_inv : forall (rf : rootfinder) e rf',
  write_log rf e = Ret rf' ->
  exists l, rf_log rf = Some l /\ rf' = set_log rf (Some (l ++ [e])).
Proof.
  intros rf e rf' H. unfold write_log in H.
  destruct (rf_log rf) as [l|]; cbn in H; [|discriminate].
  injection H as <-. eauto.
Qed.

(** Everything except the log is unchanged. *)
Definition same_but_log (a b : rootfinder) : Prop := set_log b (rf_log a) = a.

Lemma same_but_log_refl : forall a, same_but_log a a.
Proof. intros []. reflexivity. Qed.
Lemma same_but_log_trans : forall a b c,
  same_but_log a b -> same_but_log b c -> same_but_log a c.
Proof.
  unfold same_but_log; intros [] [] []; cbn; intros H1 H2.
  injection H1; injection H2; intros; subst; reflexivity.
Qed.
Lemma same_but_log_write : forall (rf : rootfinder) e rf', write_log rf e = Ret rf' -> same_but_log rf rf'.
Proof.
  intros rf e rf' H. apply write_log_inv in H. destruct H as (l & Hl & ->).
  destruct rf; reflexivity.
Qed.
Lemma same_but_log_when : forall (rf : rootfinder) k rf',
  (forall rf1, k = Ret rf1 -> same_but_log rf rf1) ->
  when_debug rf k = Ret rf' -> same_but_log rf rf'.
Proof.
  intros rf k rf' Hk H. unfold when_debug in H.
  destruct (rf_debug rf); [auto|]. injection H as <-. apply same_but_log_refl.
Qed.
Lemma same_but_log_jac : forall (rf rf' : rootfinder),
  jac_to_log rf = Ret rf' -> same_but_log rf rf'.
Proof. intros rf rf' H. eapply same_but_log_write; eauto. Qed.
Lemma same_but_log_recompute : forall (rf rf' : rootfinder),
  recompute_jacobian_to_log rf = Ret rf' -> same_but_log rf rf'.
Proof. intros rf rf' H. eapply same_but_log_write; eauto. Qed.
Lemma same_but_log_params : forall (rf rf' : rootfinder),
  parameters_to_log rf = Ret rf' -> same_but_log rf rf'.
Proof.
  intros rf rf' H. unfold parameters_to_log in H. minv1 H. minv1 H.
  eapply same_but_log_write; eauto.
Qed.
Lemma same_but_log_iter : forall rf s e rf',
  iteration_to_log M rf s e = Ret rf' -> same_but_log rf rf'.
Proof.
  intros rf s e rf' H. unfold iteration_to_log in H. minv1 H.
  eapply same_but_log_write; eauto.
Qed.
Lemma same_but_log_damping : forall rf s e rf',
  damping_to_log M rf s e = Ret rf' -> same_but_log rf rf'.
Proof.
  intros rf s e rf' H. unfold damping_to_log in H. minv1 H.
  eapply same_but_log_write; eauto.
Qed.

Lemma same_but_log_fields : forall a b, same_but_log a b ->
  same_config a b /\ rf_iter b = rf_iter a
  /\ rf_jacobian b = rf_jacobian a /\ rf_valid_last b = rf_valid_last a
  /\ rf_iteratives_step b = rf_iteratives_step a
  /\ rf_residuals_step b = rf_residuals_step a
  /\ rf_residuals_current b = rf_residuals_current a.
Proof. unfold same_but_log; intros a [] <-; repeat split. Qed.

(** *** Inversion of the successful runs of each function *)

(** The only model error reported by the finite differences is an unusable
    evaluation. *)
Lemma fd_columns_err : forall conf n mem xref rref pert todo i s s' e,
  finite_difference_columns M conf n mem xref rref pert todo i s = Ret (s', Err e) ->
  exists x, e = UnusableValuesError x.
Proof.
  intros conf n mem xref rref pert todo. induction todo as [|todo IH];
    intros i s s' e H; cbn [finite_difference_columns] in H; [discriminate|].
  minv1 H. minv1 H. minv1 H. destruct b as [u|[e1|e1]].
  - minv1 H. minv1 H. minv1 H. unfold guard_shape in H. minv1 H. minv1 H.
    destruct b; minv1 H. eauto.
  - minv1 H. minv1 H. minv1 H. unfold guard_shape in H. minv1 H. minv1 H.
    destruct b; minv1 H. eauto.
  - minv1 H. eauto.
Qed.

Lemma compute_jac_inv : forall rf s rf' s' r,
  compute_jac M rf s = Ret (rf', s', r) ->
  exists j r0,
    rf' = set_jacobian rf j /\
    (if jacobian_provided M s
     then evaluate_jacobian_from_analytical_function M (rf_jacobian rf) s
            (rf_residuals_config rf)
     else evaluate_jacobian_from_finite_difference M (rf_jacobian rf) s
            (rf_iters_params rf) (rf_residuals_config rf)) = Ret (j, s', r0) /\
    r = match r0 with
        | Ok _ | Err (InvalidJacobianError (InaccurateValuesError _)) => Ok tt
        | Err e => Err e
        end.
Proof.
  intros rf s rf' s' r H. unfold compute_jac in H. minv1 H. minv1 H. eauto 10.
Qed.

Lemma approximate_step_inv : forall (rf : rootfinder) m rf' ok,
  approximate_step rf m = Ret (rf', ok) ->
  exists j, rf' = set_jacobian rf j.
Proof.
  intros rf m rf' ok H. unfold approximate_step in H.
  destruct m.
  - injection H as <- <-. exists (rf_jacobian rf). destruct rf; reflexivity.
  - minv H; eauto.
  - minv H; eauto.
Qed.

(** The solver fields a jacobian computation leaves unchanged. *)
Definition same_but_jac (a b : rootfinder) : Prop :=
  same_but_log (set_jacobian a (rf_jacobian b)) b.

Lemma same_but_jac_fields : forall a b, same_but_jac a b ->
  same_config a b /\ rf_iter b = rf_iter a /\ rf_valid_last b = rf_valid_last a
  /\ rf_iteratives_step b = rf_iteratives_step a
  /\ rf_residuals_step b = rf_residuals_step a
  /\ rf_residuals_current b = rf_residuals_current a.
Proof.
  unfold same_but_jac, same_but_log; intros [] [] H; cbn in H. injection H; intros; subst.
  repeat split.
Qed.
Lemma same_but_jac_log : forall a j b, same_but_log (set_jacobian a j) b -> same_but_jac a b.
Proof.
  unfold same_but_jac, same_but_log; intros [] j [] H; cbn in *. injection H; intros; subst.
  reflexivity.
Qed.

Lemma compute_step_inv : forall rf s rf' s' r,
  compute_step M rf s = Ret (rf', s', r) ->
  same_but_jac rf rf' /\
  (forall g, r = Ok g -> compute_next_from_inv_jac M rf' s' = Ret g).
Proof.
  intros rf s rf' s' r H. unfold compute_step in H.
  destruct (sp_resolution_method (rf_parameters rf)) as [|m].
  - unfold compute_newton_raphson_step in H.
    minv1 H. rename E into Ec. minv1 H. rename E into Ew.
    apply compute_jac_inv in Ec. destruct Ec as (j & r0 & -> & _ & _).
    assert (Hl : same_but_log (set_jacobian rf j) x).
    { eapply same_but_log_when; [|exact Ew]. intros ? Hj. eapply same_but_log_jac; eauto. }
    destruct b.
    + minv1 H. minv1 H. split; [eapply same_but_jac_log; eauto|].
      intros g Hg. injection Hg as <-. assumption.
    + minv1 H. split; [eapply same_but_jac_log; eauto|]. discriminate.
  - unfold compute_quasi_newton_step in H. minv1 H. rename E into Eq.
    assert (Hs : same_but_jac rf a0).
    { unfold evaluate_jacobian_quasi_newton_step in Eq.
      destruct (jm_compute_at_next (rf_jacobian rf)).
      - minv1 Eq. rename E into Ec. minv1 Eq. rename E into Ew. minv1 Eq.
        apply compute_jac_inv in Ec. destruct Ec as (j & r0 & -> & _ & _).
        eapply same_but_jac_log. eapply same_but_log_when; [|exact Ew].
        intros ? Hj. eapply same_but_log_jac; eauto.
      - minv1 Eq. rename E into Ea.
        apply approximate_step_inv in Ea. destruct Ea as (j & ->).
        minv1 Eq.
        + minv1 Eq. minv1 Eq.
          eapply same_but_jac_log. eapply same_but_log_when; [|eassumption].
          intros ? Hj. eapply same_but_log_jac; eauto.
        + minv1 Eq. eapply same_but_jac_log. apply same_but_log_refl. }
    destruct b.
    + minv1 H. minv1 H. split; [assumption|]. intros g Hg. injection Hg as <-. assumption.
    + minv1 H. split; [assumption|]. discriminate.
Qed.

Lemma damping_inv : forall rf s me cur prop en rf' s' en',
  damping M rf s me cur prop en = Ret (rf', s', en') ->
  (ngtb (amax en) me = false /\ rf' = rf /\ s' = s /\ en' = en) \/
  (ngtb (amax en) me = true /\
   is_quasi_newton (sp_resolution_method (rf_parameters rf)) = true /\
   jm_approximated (rf_jacobian rf) = true /\
   same_but_log (set_jacobian rf (force_jacobian_computation (rf_jacobian rf))) rf' /\
   s' = s /\ en' = en) \/
  (ngtb (amax en) me = true /\
   is_quasi_newton (sp_resolution_method (rf_parameters rf))
     && jm_approximated (rf_jacobian rf) = false /\
   same_but_log rf rf' /\
   exists d u, damped_guess cur prop = Ret d /\
     evaluate M (set_iteratives M s d) = Ret (s', Ok u) /\
     evaluate_errors M rf s' = Ret en').
Proof.
  intros rf s me cur prop en rf' s' en' H. unfold damping in H.
  destruct (ngtb (amax en) me); [|minv1 H; auto].
  destruct (is_quasi_newton _ && jm_approximated _) eqn:Eq.
  - apply andb_prop in Eq. destruct Eq. minv1 H. minv1 H. right; left.
    repeat split; auto. eapply same_but_log_when; [|eassumption].
    intros ? Hr. eapply same_but_log_recompute; eauto.
  - minv1 H. minv1 H. destruct b; [|discriminate]. minv1 H. minv1 H. minv1 H.
    right; right. split; [reflexivity|]. split; [reflexivity|].
    split.
    + eapply same_but_log_when; [|eassumption].
      intros ? Hr. eapply same_but_log_damping; eauto.
    + eauto 10.
Qed.

Lemma store_steps_inv : forall rf s cur e en rf',
  store_steps M rf s cur e en = Ret rf' ->
  rf' = rf \/ exists ds dy,
    vsub (get_iteratives M s) cur = Ret ds /\ vsub en e = Ret dy /\
    rf' = set_steps rf ds dy en.
Proof.
  intros rf s cur e en rf' H. unfold store_steps in H.
  destruct (sp_resolution_method (rf_parameters rf)) as [|[]];
    try (injection H as <-; auto); minv1 H; minv1 H; minv1 H; eauto 10.
Qed.

Lemma evaluate_errors_config : forall rf rf' s,
  rf_residuals_config rf' = rf_residuals_config rf ->
  evaluate_errors M rf' s = evaluate_errors M rf s.
Proof. intros rf rf' s H. unfold evaluate_errors. now rewrite H. Qed.

(** What the end of an update leaves: the configuration, the counter and the
    validity flag are unchanged; the returned errors are the stopping residuals
    of the final state. *)
Lemma finish_update_inv : forall rf s e cur prop rf' s' en,
  finish_update M rf s e cur prop = Ret (rf', s', en) ->
  same_config rf rf' /\ rf_iter rf' = rf_iter rf /\ rf_valid_last rf' = rf_valid_last rf /\
  evaluate_errors M rf s' = Ret en /\
  (s' = s \/
   (sp_damping (rf_parameters rf) = true /\
    exists d u, damped_guess cur prop = Ret d /\
     evaluate M (set_iteratives M s d) = Ret (s', Ok u))).
Proof.
  intros rf s e cur prop rf' s' en H. unfold finish_update in H.
  minv1 H. rename E into Ee. minv1 H. rename E into Ew. minv1 H. rename E into Ed. rename b into en2. rename b0 into s2.
  minv1 H. rename E into Es. minv1 H.
  assert (Hl : same_but_log rf x0).
  { eapply same_but_log_when; [|exact Ew]. intros ? Hr. eapply same_but_log_iter; eauto. }
  apply same_but_log_fields in Hl. destruct Hl as (Hc & Hi & Hj & Hv & _).
  assert (Hd : same_config rf a0 /\ rf_iter a0 = rf_iter rf /\
               rf_valid_last a0 = rf_valid_last rf /\
               evaluate_errors M rf s' = Ret en /\
               (s' = s \/ (sp_damping (rf_parameters rf) = true /\
                 exists d u, damped_guess cur prop = Ret d /\
                  evaluate M (set_iteratives M s d) = Ret (s', Ok u)))).
  { assert (Hcc := Hc). destruct Hcc as (Hp & _ & _ & Hrc & _). rewrite Hp in Ed.
    destruct (sp_damping (rf_parameters rf)) eqn:Esd.
    - apply damping_inv in Ed.
      destruct Ed as [(_ & -> & -> & ->)|[(_ & _ & _ & Hl & -> & ->)|(_ & _ & Hl & d & u & H1 & H2 & H3)]].
      + repeat split; try apply Hc; try congruence; auto.
      + apply same_but_log_fields in Hl. destruct Hl as (Hc2 & Hi2 & _ & Hv2 & _).
        split; [eapply same_config_trans; [exact Hc|exact Hc2]|].
        split; [rewrite Hi2; exact Hi|]. split; [rewrite Hv2; exact Hv|]. auto.
      + apply same_but_log_fields in Hl. destruct Hl as (Hc2 & Hi2 & _ & Hv2 & _).
        split; [eapply same_config_trans; eauto|].
        split; [congruence|]. split; [congruence|]. split.
        * rewrite <- H3. symmetry. now apply evaluate_errors_config.
        * right. eauto.
    - minv1 Ed. repeat split; try apply Hc; try congruence; auto. }
  destruct Hd as (Hc2 & Hi2 & Hv2 & He & Hs).
  apply store_steps_inv in Es.
  destruct Es as [->|(ds & dy & _ & _ & ->)]; repeat split; try apply Hc2; auto.
Qed.

Lemma update_model_inv : forall rf s g rf' s' r,
  update_model M rf s g = Ret (rf', s', r) ->
  exists e s1 r1,
    evaluate_errors M rf s = Ret e /\
    evaluate M (set_iteratives M s g) = Ret (s1, r1) /\
    ((exists x, r1 = Err (UnusableValuesError x) /\ rf' = set_valid rf false /\ s' = s1 /\
        r = Err (ModelEvaluationError (UnusableValuesError x))) \/
     (exists en, r = Ok en /\ (forall x, r1 <> Err (UnusableValuesError x)) /\
        finish_update M (set_valid rf (match r1 with Ok _ => true | Err _ => false end))
          s1 e (get_iteratives M s) g = Ret (rf', s', en))).
Proof.
  intros rf s g rf' s' r H. unfold update_model in H.
  minv1 H. minv1 H. exists x, a, b. split; [reflexivity|]. split; [reflexivity|].
  destruct b as [u|[x1|x1]].
  - minv1 H. minv1 H. right. eexists. split; [reflexivity|]. split; [discriminate|reflexivity].
  - minv1 H. minv1 H. right. eexists. split; [reflexivity|]. split; [discriminate|reflexivity].
  - minv1 H. left. eauto 10.
Qed.

Lemma iteration_inv : forall rf s rf' s' r,
  iteration M rf s = Ret (rf', s', r) ->
  exists rf1 s1 r1,
    compute_step M (set_iter rf (S (rf_iter rf))) s = Ret (rf1, s1, r1) /\
    match r1 with
    | Ok g => update_model M rf1 s1 g = Ret (rf', s', r)
    | Err e => rf' = rf1 /\ s' = s1 /\ r = Err (JacobianError e)
    end.
Proof.
  intros rf s rf' s' r H. unfold iteration in H. minv1 H.
  exists a0, b0, b. split; [reflexivity|].
  destruct b; [assumption|]. minv1 H. auto.
Qed.

(** The effect of one iteration on the bookkeeping. *)
Lemma iteration_fields : forall rf s rf' s' r,
  iteration M rf s = Ret (rf', s', r) ->
  same_config rf rf' /\ rf_iter rf' = S (rf_iter rf) /\
  (forall en, r = Ok en -> evaluate_errors M rf' s' = Ret en).
Proof.
  intros rf s rf' s' r H. apply iteration_inv in H.
  destruct H as (rf1 & s1 & r1 & Hs & Hr).
  apply compute_step_inv in Hs. destruct Hs as (Hs & _).
  apply same_but_jac_fields in Hs. destruct Hs as (Hc & Hi & _).
  assert (Hc1 : same_config rf rf1) by exact Hc. cbn in Hi.
  destruct r1 as [g|e].
  - apply update_model_inv in Hr.
    destruct Hr as (e & s2 & r2 & He & Hev & [(x & -> & -> & -> & ->)|(en & -> & Hnu & Hf)]).
    + repeat split; try apply Hc1; [cbn; exact Hi|discriminate].
    + apply finish_update_inv in Hf. destruct Hf as (Hc2 & Hi2 & _ & He2 & _).
      assert (Hc3 : same_config rf rf') by (eapply same_config_trans; [exact Hc1|exact Hc2]).
      split; [exact Hc3|]. split; [rewrite Hi2; exact Hi|].
      intros en0 Hen. injection Hen as <-. rewrite <- He2.
      apply evaluate_errors_config. apply Hc2.
  - destruct Hr as (-> & -> & ->). repeat split; try apply Hc1; [exact Hi|discriminate].
Qed.

Definition continues (rf : rootfinder) (max_error : F) : bool :=
  ngtb max_error (sp_tolerance (rf_parameters rf))
  && Nat.ltb (rf_iter rf) (sp_max_iter (rf_parameters rf)).

(** Induction principle of the loop. *)
Lemma iterate_ind : forall (P : rootfinder -> St -> F -> Prop),
  (forall rf s me rf1 s1 e,
     P rf s me -> continues rf me = true ->
     iteration M rf s = Ret (rf1, s1, Ok e) -> P rf1 s1 (amax e)) ->
  forall fuel rf s me rf' s' r,
  P rf s me ->
  iterate M fuel rf s me = Ret (rf', s', r) ->
  match r with
  | Ok me' => P rf' s' me' /\ continues rf' me' = false
  | Err e => exists rf0 s0 me0, P rf0 s0 me0 /\ continues rf0 me0 = true /\
               iteration M rf0 s0 = Ret (rf', s', Err e)
  end.
Proof.
  intros P HP fuel. induction fuel as [|fuel IH]; intros rf s me rf' s' r H0 H.
  - discriminate.
  - cbn [iterate] in H. fold (continues rf me) in H.
    destruct (continues rf me) eqn:Ec.
    + minv1 H. rename E into Ei. destruct b as [e|e].
      * eapply IH; [|exact H]. eapply HP; eauto.
      * minv1 H. exists rf, s, me. auto.
    + minv1 H. auto.
Qed.

(** The fuel is never exhausted: a panic of the loop is the panic of an
    iteration. *)
Lemma iterate_panic : forall fuel rf s me p,
  sp_max_iter (rf_parameters rf) - rf_iter rf < fuel ->
  iterate M fuel rf s me = Panic p ->
  exists rf0 s0, same_config rf rf0 /\ iteration M rf0 s0 = Panic p.
Proof.
  induction fuel as [|fuel IH]; intros rf s me p Hf H; [lia|].
  cbn [iterate] in H. fold (continues rf me) in H.
  destruct (continues rf me) eqn:Ec; [|discriminate].
  destruct (iteration M rf s) as [[[rf1 s1] r]|p'] eqn:Ei; cbn [bind] in H.
  - destruct r as [e|e]; [|discriminate].
    apply iteration_fields in Ei. destruct Ei as (Hc & Hi & _).
    unfold continues in Ec. apply andb_prop in Ec. destruct Ec as (_ & Ec).
    apply Nat.ltb_lt in Ec.
    destruct (IH rf1 s1 (amax e) p) as (rf0 & s0 & Hc0 & H0); [|exact H|].
    + destruct Hc as (Hp & _). rewrite Hp. lia.
    + exists rf0, s0. split; [eapply same_config_trans; eauto|assumption].
  - injection H as <-. exists rf, s. split; [apply same_config_refl|assumption].
Qed.

Lemma solve_from_inv : forall rf s rf' s' r,
  solve_from M rf s = Ret (rf', s', r) ->
  exists e rf1 r1,
    evaluate_errors M rf s = Ret e /\
    same_but_log rf rf1 /\
    iterate M (S (sp_max_iter (rf_parameters rf))) rf1 s (amax e) = Ret (rf', s', r1) /\
    r = match r1 with Ok me => verdict rf' me | Err x => Err x end.
Proof.
  intros rf s rf' s' r H. unfold solve_from in H.
  minv1 H. rename E into Ee. minv1 H. rename E into Ew.
  assert (Hl : same_but_log rf x0).
  { eapply same_but_log_when; [|exact Ew]. intros rf1 H1.
    minv1 H1. eapply same_but_log_trans; [eapply same_but_log_params; eauto|].
    eapply same_but_log_iter; eauto. }
  minv1 H. minv1 H. exists x, x0, b.
  split; [reflexivity|]. split; [assumption|]. split; [|reflexivity].
  apply same_but_log_fields in Hl. destruct Hl as ((Hp & _) & _). rewrite <- Hp. assumption.
Qed.

Lemma solve_inv : forall rf s rf' s' r,
  solve M rf s = Ret (rf', s', r) ->
  exists s1 r1,
    evaluate M (set_iteratives M s (rf_initial_guess rf)) = Ret (s1, r1) /\
    ((exists x, r1 = Err (UnusableValuesError x) /\ rf' = rf /\ s' = s1 /\
        r = Err (ModelInitialEvaluationError (show_unusable M x))) \/
     ((forall x, r1 <> Err (UnusableValuesError x)) /\ solve_from M rf s1 = Ret (rf', s', r))).
Proof.
  intros rf s rf' s' r H. unfold solve in H. minv1 H. exists a, b. split; [reflexivity|].
  destruct b as [u|[x|x]].
  - right. split; [discriminate|assumption].
  - right. split; [discriminate|assumption].
  - minv1 H. left. eauto.
Qed.

(** Loop invariant shared by the verdict theorems. *)
Definition tracked (rf0 rf : rootfinder) (s : St) (me : F) : Prop :=
  same_config rf0 rf /\ rf_iter rf0 <= rf_iter rf /\
  (rf_iter rf = rf_iter rf0 \/ rf_iter rf <= sp_max_iter (rf_parameters rf0)) /\
  exists e, evaluate_errors M rf s = Ret e /\ me = amax e.

Lemma tracked_step : forall rf0 rf s me rf1 s1 e,
  tracked rf0 rf s me -> continues rf me = true ->
  iteration M rf s = Ret (rf1, s1, Ok e) -> tracked rf0 rf1 s1 (amax e).
Proof.
  intros rf0 rf s me rf1 s1 e (Hc & Hle & Hi & _) Hcont H.
  apply iteration_fields in H. destruct H as (Hc1 & Hi1 & He).
  unfold continues in Hcont. apply andb_prop in Hcont. destruct Hcont as (_ & Hlt).
  apply Nat.ltb_lt in Hlt.
  assert (Hp : rf_parameters rf = rf_parameters rf0) by apply Hc.
  rewrite Hp in Hlt.
  split; [eapply same_config_trans; eauto|]. split; [lia|]. split; [right; lia|].
  exists e. split; [now apply He|reflexivity].
Qed.

Lemma solve_from_tracked : forall rf s rf' s' r,
  solve_from M rf s = Ret (rf', s', r) ->
  (exists me, tracked rf rf' s' me /\ continues rf' me = false /\ r = verdict rf' me) \/
  (exists rf0 s0 me0 e, tracked rf rf0 s0 me0 /\ continues rf0 me0 = true /\
     iteration M rf0 s0 = Ret (rf', s', Err e) /\ r = Err e).
Proof.
  intros rf s rf' s' r H. apply solve_from_inv in H.
  destruct H as (e & rf1 & r1 & He & Hl & Hit & ->).
  assert (Hl2 := Hl). apply same_but_log_fields in Hl2. destruct Hl2 as (Hc & Hi & _).
  assert (H0 : tracked rf rf1 s (amax e)).
  { split; [exact Hc|]. split; [lia|]. split; [auto|].
    exists e. split; [|reflexivity]. rewrite <- He. apply evaluate_errors_config. apply Hc. }
  apply (iterate_ind (tracked rf) (tracked_step rf)) in Hit; [|exact H0].
  destruct r1 as [me|x].
  - left. exists me. destruct Hit. auto.
  - right. destruct Hit as (rf0 & s0 & me0 & H1 & H2 & H3). exists rf0, s0, me0, x. auto.
Qed.

End Flow.
