(** C15: [solve] does not panic on well-formed problems. *)
From Verif Require Import Base Num Linalg Residuals Iteratives UserModel Jacobian Solver
  F64 Trace Samples FlowFacts SafeFacts.

(** ** Well-formed user models

    [callable s]: the methods may be called on [s]; [readable s]: moreover the
    residuals may be read (the model has been evaluated and its values were not
    unusable). [n] is the size of the problem. *)
Record well_formed_model {F St EI EU} (M : Model F St EI EU) (n : nat)
  (callable readable : St -> Prop) := {
  wf_callable : forall s, readable s -> callable s;
  wf_size : forall s, readable s -> len_problem M s = n;
  wf_set : forall s x, callable s -> length x = n -> callable (set_iteratives M s x);
  wf_get : forall s, readable s -> length (get_iteratives M s) = n;
  wf_evaluate : forall s, callable s -> exists s' r,
    evaluate M s = Ret (s', r) /\ callable s' /\
    (readable s' \/ exists e, r = Err (UnusableValuesError e));
  wf_residuals : forall s, readable s -> exists v,
    get_residuals M s = Ret v /\ length (rv_left v) = n /\ length (rv_right v) = n;
  wf_memory : forall s m, readable s -> readable (set_memory M s m);
  (* (b): no inaccurate jacobian is reported *)
  wf_jacobian : forall s, readable s -> jacobian_provided M s = true -> exists s' r,
    get_jacobian M s = Ret (s', r) /\ readable s' /\
    match r with
    | Ok jv => length (jv_left jv) = n /\ length (jv_right jv) = n
    | Err (InaccurateValuesError _) => False
    | Err (UnusableValuesError _) => True
    end
}.

(** (c): with damping, evaluations do not fail. *)
Definition accurate_if_damped {F St EI EU} (M : Model F St EI EU) (callable : St -> Prop)
  (damping : bool) : Prop :=
  damping = true -> forall s, callable s -> exists s', evaluate M s = Ret (s', Ok tt).

(** (a): a jacobian, or perturbations. *)
Definition differentiable_somehow {F St EI EU} (M : Model F St EI EU)
  (readable : St -> Prop) (its : list (iterative F)) : Prop :=
  (forall s, readable s -> jacobian_provided M s = true) \/
  (forall it x, In it its -> exists d, it_compute_perturbation it x = Ret d).

Section NoPanic.
Context {F : Type} {NF : Num F} {IF : Inverter F}.
Context (keeps_size : forall (A B : mat F), try_inverse A = Some B -> length B = length A).
Context {St EI EU : Type} (M : Model F St EI EU) (n : nat).
Context (callable readable : St -> Prop) (WF : well_formed_model M n callable readable).

Definition conf_ready (rf : rootfinder F) : Prop :=
  length (rf_initial_guess rf) = n /\ length (rf_iters_params rf) = n /\
  length (stopping_criterias (rf_residuals_config rf)) = n /\
  length (update_methods (rf_residuals_config rf)) = n /\
  (rf_debug rf = true -> rf_log rf <> None /\ n <> 0) /\
  accurate_if_damped M callable (sp_damping (rf_parameters rf)) /\
  differentiable_somehow M readable (rf_iters_params rf).

Definition has_size {A} (o : option (list A)) : Prop := exists l, o = Some l /\ length l = n.

(** The matrices an iteration reads. *)
Definition jac_usable (rf : rootfinder F) : Prop :=
  has_size (jm_inverse (rf_jacobian rf)) /\
  ((exists u, sp_resolution_method (rf_parameters rf) = QuasiNewton (JacobianUpdate u)) ->
   has_size (jm_matrix (rf_jacobian rf))).

Definition pair_usable (rf : rootfinder F) : Prop :=
  sp_resolution_method (rf_parameters rf) = QuasiNewton StationaryNewton \/
  (has_size (rf_iteratives_step rf) /\ has_size (rf_residuals_step rf) /\
   has_size (rf_residuals_current rf)).

Definition jac_ready (rf : rootfinder F) : Prop :=
  sp_resolution_method (rf_parameters rf) = NewtonRaphson \/
  jm_compute_at_next (rf_jacobian rf) = true \/ (jac_usable rf /\ pair_usable rf).

Definition ready (rf : rootfinder F) : Prop := conf_ready rf /\ jac_ready rf.

Lemma residuals_safe s : readable s ->
  safe (get_residuals M s) (fun v => length (rv_left v) = n /\ length (rv_right v) = n).
Proof.
  intros R; destruct (wf_residuals _ _ _ _ WF s R) as (v & -> & H); exact H.
Qed.

Lemma evaluate_safe s : callable s ->
  safe (evaluate M s) (fun q => callable (fst q) /\
    (readable (fst q) \/ exists e, snd q = Err (UnusableValuesError e))).
Proof.
  intros R; destruct (wf_evaluate _ _ _ _ WF s R) as (s' & r & -> & H); exact H.
Qed.

Lemma errors_safe rf s : conf_ready rf -> readable s ->
  safe (evaluate_errors M rf s) (fun v => length v = n).
Proof.
  intros (_ & _ & C & _) R; unfold evaluate_errors.
  eapply safe_bind; [apply residuals_safe, R|]; intros v [L1 L2].
  rewrite <- L1; apply evaluate_residuals_safe; congruence.
Qed.

Lemma update_residuals_safe rf s : conf_ready rf -> readable s ->
  safe (v <- get_residuals M s ;; evaluate_update_residuals (rf_residuals_config rf) v)
       (fun v => length v = n).
Proof.
  intros (_ & _ & _ & C & _) R.
  eapply safe_bind; [apply residuals_safe, R|]; intros v [L1 L2].
  rewrite <- L1; apply evaluate_residuals_safe; congruence.
Qed.

(** Writes to the log only change the log. *)
Lemma write_safe rf e (P : rootfinder F -> Prop) : rf_log rf <> None ->
  (forall l, P (set_log rf (Some l))) -> safe (write_log rf e) P.
Proof.
  intros H K; unfold write_log; destruct (rf_log rf); cbn [unwrap bind safe]; [apply K|].
  apply H; reflexivity.
Qed.

Lemma conf_log rf l : conf_ready rf -> conf_ready (set_log rf (Some l)).
Proof.
  intros (A & B & C & D & E & G & H); repeat split; try assumption.
  - cbn; discriminate.
  - apply E; assumption.
Qed.

Lemma usable_log rf l : jac_usable rf -> jac_usable (set_log rf l).
Proof. exact (fun H => H). Qed.
Lemma pair_log rf l : pair_usable rf -> pair_usable (set_log rf l).
Proof. exact (fun H => H). Qed.

(** Any predicate kept by a change of the log. *)
Definition log_blind (P : rootfinder F -> Prop) : Prop :=
  forall rf l, P rf -> P (set_log rf (Some l)).

Lemma when_debug_safe rf e (P : rootfinder F -> Prop) : conf_ready rf -> log_blind P -> P rf ->
  safe (when_debug rf (write_log rf e)) P.
Proof.
  intros C B H; unfold when_debug; destruct (rf_debug rf) eqn:D; [|exact H].
  apply write_safe; [|intros l; apply B, H].
  destruct C as (_ & _ & _ & _ & L & _); apply L, D.
Qed.

Definition jac_state (j : jacobian_matrix F) : Prop :=
  has_size (jm_inverse j) /\ has_size (jm_matrix j) /\ jm_compute_at_next j = false.

Lemma exact_update j m : length m = n ->
  let q := update_jacobian_with_exact_value j m in
  (snd q = true /\ jac_state (fst q)) \/
  (snd q = false /\ jm_compute_at_next (fst q) = jm_compute_at_next j).
Proof.
  intros L; unfold update_jacobian_with_exact_value, update_jacobian.
  destruct (try_inverse m) as [inv|] eqn:E; cbn; [left|right]; repeat split; auto.
  - exists inv; split; [reflexivity|]; rewrite (keeps_size _ _ E); exact L.
  - exists m; split; [reflexivity|exact L].
Qed.

Lemma approx_update j m : length m = n ->
  let q := update_jacobian_with_approximated_value j m in
  (snd q = true /\ jac_state (fst q)) \/ snd q = false.
Proof.
  intros L; unfold update_jacobian_with_approximated_value, update_jacobian.
  destruct (try_inverse m) as [inv|] eqn:E; cbn; [left|right]; repeat split; auto.
  - exists inv; split; [reflexivity|]; rewrite (keeps_size _ _ E); exact L.
  - exists m; split; [reflexivity|exact L].
Qed.

(** The outcome of a jacobian computation: a usable jacobian, or an error and
    an unchanged demand for a computation. *)
Definition jac_outcome {A} (j0 : jacobian_matrix F)
  (q : jacobian_matrix F * St * result A (solver_internal_error EI EU)) : Prop :=
  let '(j, s, r) := q in
  match r with
  | Ok _ => jac_state j /\ readable s
  | Err e => callable s /\ jm_compute_at_next j = jm_compute_at_next j0 /\
      (forall i, e <> InvalidJacobianError (InaccurateValuesError i))
  end.

Lemma analytic_safe rf s : conf_ready rf -> readable s -> jacobian_provided M s = true ->
  safe (evaluate_jacobian_from_analytical_function M (rf_jacobian rf) s
          (rf_residuals_config rf)) (jac_outcome (rf_jacobian rf)).
Proof.
  intros C R J; unfold evaluate_jacobian_from_analytical_function.
  eapply safe_bind; [apply residuals_safe, R|]; intros v [L1 L2].
  destruct (wf_jacobian _ _ _ _ WF s R J) as (s' & r & -> & R' & H); cbn [bind].
  destruct r as [jv|[e|e]]; [|destruct H|].
  - destruct H as [H1 H2]; unfold normalize.
    eapply safe_bind.
    { apply normalize_rows_safe; try congruence.
      destruct C as (_ & _ & _ & D & _); congruence. }
    intros m Lm; cbn beta in Lm.
    pose proof (exact_update (rf_jacobian rf) m (eq_trans Lm L1)) as U; cbn zeta in U.
    destruct (update_jacobian_with_exact_value (rf_jacobian rf) m) as [j ok]; cbn [fst snd] in U.
    destruct U as [[-> U]|[-> U]]; cbn [safe jac_outcome]; [auto|].
    split; [apply (wf_callable _ _ _ _ WF), R'|]; split; [exact U|]; intros i; discriminate.
  - cbn [safe jac_outcome invalidate_jacobian jm_compute_at_next].
    split; [apply (wf_callable _ _ _ _ WF), R'|]; split; [reflexivity|].
    intros i; discriminate.
Qed.

Lemma columns_safe rf mem x0 res pert : conf_ready rf -> length x0 = n -> length res = n ->
  length pert = n ->
  forall todo i s, todo + i = n -> readable s ->
  safe (finite_difference_columns M (rf_residuals_config rf) n mem x0 res pert todo i s)
    (fun q => callable (fst q) /\
       match snd q with
       | Ok cols => readable (fst q)
       | Err (UnusableValuesError _) => True
       | Err (InaccurateValuesError _) => False
       end).
Proof.
  intros C Lx Lr Lp; induction todo as [|todo IH]; intros i s T R;
    cbn [finite_difference_columns].
  - cbn [safe fst snd]; split; [apply (wf_callable _ _ _ _ WF), R|exact R].
  - eapply safe_bind; [apply index_safe; lia|]; intros dx _.
    eapply safe_bind; [apply update_at_safe; lia|]; intros x Hx; cbn beta in Hx.
    eapply safe_bind.
    { apply evaluate_safe, (wf_set _ _ _ _ WF); [apply (wf_callable _ _ _ _ WF), R|congruence]. }
    intros [s1 r] [C1 R1]; cbn [fst snd] in C1, R1.
    assert (D : (exists e, r = Err (UnusableValuesError e)) \/
                (readable s1 /\ (r = Ok tt \/ exists e, r = Err (InaccurateValuesError e)))).
    { destruct r as [[]|[e|e]].
      - right; split; [|left; reflexivity]; destruct R1 as [R1|[e R1]]; [exact R1|discriminate].
      - right; split; [|right; exists e; reflexivity].
        destruct R1 as [R1|[e' R1]]; [exact R1|discriminate].
      - left; exists e; reflexivity. }
    destruct D as [[e ->]|[R2 D]]; [cbn [safe fst snd]; auto|].
    assert (G : forall (k : outcome (St * result (list (vec F)) (model_error EI EU)))
                  (Q : _ -> Prop), safe k Q ->
      safe (match r with
            | Err (UnusableValuesError e) => Ret (s1, Err (UnusableValuesError e))
            | Ok _ | Err (InaccurateValuesError _) => k
            end) Q).
    { intros k Q K; destruct D as [->|[e ->]]; exact K. }
    apply G.
    eapply safe_bind; [apply residuals_safe, R2|]; intros v [L1 L2].
    eapply safe_bind.
    { apply evaluate_residuals_safe; [|congruence].
      destruct C as (_ & _ & _ & D' & _); congruence. }
    intros w Lw; cbn beta in Lw.
    eapply safe_bind; [apply vsub_safe; congruence|]; intros d Ld; cbn beta in Ld.
    assert (Lc : length (vdiv d dx) = n) by (unfold vdiv; rewrite map_length; congruence).
    cbv zeta; rewrite Lc, Nat.eqb_refl; cbn [guard_shape].
    eapply safe_bind; [apply IH; [lia|apply (wf_memory _ _ _ _ WF), R2]|].
    intros [s2 rest] H; cbn [safe fst snd] in *.
    destruct rest as [cols|[e|e]]; auto.
Qed.

Lemma finite_difference_safe rf s : conf_ready rf -> readable s ->
  (forall it x, In it (rf_iters_params rf) -> exists d, it_compute_perturbation it x = Ret d) ->
  safe (evaluate_jacobian_from_finite_difference M (rf_jacobian rf) s (rf_iters_params rf)
          (rf_residuals_config rf)) (jac_outcome (rf_jacobian rf)).
Proof.
  intros C R P; unfold evaluate_jacobian_from_finite_difference.
  pose proof (wf_get _ _ _ _ WF s R) as Lg.
  eapply safe_bind.
  { apply compute_perturbations_safe.
    - destruct C as (_ & D & _); congruence.
    - intros it x I; destruct (P it x I) as [d ->]; exact Logic.I. }
  intros pert Lp; cbn beta in Lp.
  eapply safe_bind with (P := fun q => callable (fst q) /\
       match snd q with
       | Ok m => readable (fst q) /\ length m = n
       | Err (UnusableValuesError _) => True
       | Err (InaccurateValuesError _) => False
       end).
  { unfold compute_jacobian_from_finite_difference.
    eapply safe_bind; [apply residuals_safe, R|]; intros v [L1 L2].
    eapply safe_bind.
    { apply evaluate_residuals_safe; [|congruence].
      destruct C as (_ & _ & _ & D' & _); congruence. }
    intros w Lw; cbn beta in Lw; cbv zeta.
    rewrite Lp, Lg.
    eapply safe_bind.
    { apply columns_safe; try congruence.
      rewrite (wf_size _ _ _ _ WF s R); lia. }
    intros [s1 r] H; cbn [safe fst snd] in *.
    destruct r as [cols|e]; [|exact H].
    destruct H as [H1 H2]; split; [exact H1|]; split; [exact H2|apply length_mat_of_cols]. }
  intros [s1 r] H; cbn [fst snd] in H; destruct H as [H1 H2].
  destruct r as [m|[e|e]]; [|destruct H2|].
  - destruct H2 as [H2 Lm].
    pose proof (exact_update (rf_jacobian rf) m Lm) as U; cbn zeta in U.
    destruct (update_jacobian_with_exact_value (rf_jacobian rf) m) as [j ok]; cbn [fst snd] in U.
    destruct U as [[-> U]|[-> U]]; cbn [safe jac_outcome]; [auto|].
    split; [exact H1|]; split; [exact U|]; intros i; discriminate.
  - cbn [safe jac_outcome]; split; [exact H1|]; split; [reflexivity|]; intros i; discriminate.
Qed.

(** The outcome of [compute_jac]: only the jacobian field changes. *)
Lemma compute_jac_safe rf s : conf_ready rf -> readable s ->
  safe (compute_jac M rf s) (fun q => let '(rf', s', r) := q in
    exists j, rf' = set_jacobian rf j /\
    jac_outcome (rf_jacobian rf) (j, s', r)).
Proof.
  intros C R; unfold compute_jac.
  eapply safe_bind with (P := jac_outcome (rf_jacobian rf)).
  { destruct (jacobian_provided M s) eqn:J; [apply analytic_safe; assumption|].
    apply finite_difference_safe; try assumption.
    destruct C as (_ & _ & _ & _ & _ & _ & [D|D]); [|exact D].
    rewrite (D s R) in J; discriminate. }
  intros [[j s1] r] H; cbn [safe]; exists j; split; [reflexivity|].
  destruct r as [u|e]; [exact H|].
  destruct H as (H1 & H2 & H3).
  destruct e as [[i|e]|]; [exfalso; apply (H3 i); reflexivity| |];
    cbn [jac_outcome]; (split; [exact H1|]; split; [exact H2|]; intros i; discriminate).
Qed.

Lemma conf_jacobian rf j : conf_ready rf -> conf_ready (set_jacobian rf j).
Proof. exact (fun H => H). Qed.
Lemma conf_iter rf k : conf_ready rf -> conf_ready (set_iter rf k).
Proof. exact (fun H => H). Qed.
Lemma conf_valid rf b : conf_ready rf -> conf_ready (set_valid rf b).
Proof. exact (fun H => H). Qed.

Lemma next_safe rf s : conf_ready rf -> jac_usable rf -> readable s ->
  safe (compute_next_from_inv_jac M rf s) (fun v => length v = n).
Proof.
  intros C [[inv [U L]] _] R; unfold compute_next_from_inv_jac.
  eapply safe_bind; [apply residuals_safe, R|]; intros v [L1 L2].
  eapply safe_bind.
  { apply evaluate_residuals_safe; [|congruence].
    destruct C as (_ & _ & _ & D' & _); congruence. }
  intros w Lw; cbn beta in Lw.
  rewrite U; cbn [unwrap bind].
  eapply safe_bind.
  { apply mat_vec_chk_safe; unfold mat_neg; rewrite map_length; congruence. }
  intros d Ld; cbn beta in Ld.
  pose proof (wf_get _ _ _ _ WF s R) as Lg.
  rewrite <- Lg; apply step_limitations_safe; [|congruence].
  destruct C as (_ & D & _); congruence.
Qed.

(** Same parameters, configuration and stored pair. *)
Definition same_frame (rf rf' : rootfinder F) : Prop :=
  rf_parameters rf' = rf_parameters rf /\ rf_iteratives_step rf' = rf_iteratives_step rf /\
  rf_residuals_step rf' = rf_residuals_step rf /\
  rf_residuals_current rf' = rf_residuals_current rf.

Lemma frame_pair rf rf' : same_frame rf rf' -> pair_usable rf -> pair_usable rf'.
Proof. intros (A & B & C & D); unfold pair_usable; rewrite A, B, C, D; auto. Qed.

(** The outcome of the computation of a step. *)
Definition step_outcome (rf : rootfinder F)
  (q : rootfinder F * St * result (vec F) (solver_internal_error EI EU)) : Prop :=
  let '(rf', s', r) := q in
  conf_ready rf' /\ same_frame rf rf' /\
  match r with
  | Ok x => jac_usable rf' /\ length x = n /\ readable s'
  | Err e => callable s' /\ (e <> InvalidJacobianInverseError -> jac_ready rf')
  end.

Lemma log_blind_conf : log_blind conf_ready.
Proof. intros rf l H; apply conf_log, H. Qed.

Lemma state_usable rf j : jac_state j -> jac_usable (set_jacobian rf j).
Proof. intros (A & B & _); split; [exact A|]; intros _; exact B. Qed.

Lemma newton_safe rf s : conf_ready rf -> readable s ->
  sp_resolution_method (rf_parameters rf) = NewtonRaphson ->
  safe (compute_newton_raphson_step M rf s) (step_outcome rf).
Proof.
  intros C R MN; unfold compute_newton_raphson_step.
  eapply safe_bind; [apply compute_jac_safe; assumption|].
  intros [[rf1 s1] r] (j & -> & H).
  eapply safe_bind with (P := fun rf' => conf_ready rf' /\ same_frame rf rf' /\
     rf_jacobian rf' = j).
  { apply when_debug_safe; [apply conf_jacobian, C| |].
    - intros rf' l (A & B & D); split; [apply conf_log, A|]; split; [exact B|exact D].
    - split; [exact C|]; repeat split; reflexivity. }
  intros rf2 (C2 & F2 & J2).
  destruct r as [u|e].
  - destruct H as [H1 H2].
    assert (U2 : jac_usable rf2).
    { destruct H1 as (A & B & _); unfold jac_usable; rewrite J2.
      split; [exact A|]; intros _; exact B. }
    eapply safe_bind; [apply next_safe; assumption|].
    intros x Lx; cbn [safe step_outcome]; auto.
  - cbn [safe step_outcome]; split; [exact C2|]; split; [exact F2|].
    split; [apply H|]; intros _; left.
    destruct F2 as (-> & _); exact MN.
Qed.

Lemma some_has {A} (l : list A) : length l = n -> has_size (Some l).
Proof. intros H; exists l; auto. Qed.

Ltac sizes := repeat (rewrite ?length_mat_sub, ?length_mat_div, ?length_outer, ?length_mat_mul,
  ?length_defect, ?length_transpose by
    (repeat (rewrite ?length_mat_div, ?length_outer, ?length_mat_mul, ?length_transpose;
             try rewrite length_defect); congruence)); try congruence.

Lemma approximate_jacobian_safe j u s y c : has_size (jm_matrix j) -> has_size (jm_inverse j) ->
  length s = n -> length y = n -> length c = n ->
  safe (approximate_jacobian j u s y c) (fun q => snd q = true -> jac_state (fst q)).
Proof.
  intros (A & EA & LA) (B & EB & LB) Ls Ly Lc; unfold approximate_jacobian.
  eapply safe_bind with (P := fun m => length m = n).
  - destruct u; rewrite ?EA, ?EB; cbn [unwrap bind].
    + rewrite (same_size_true A s y s n) by assumption; cbn [guard_shape safe].
      unfold broyden_first_jac; sizes.
    + rewrite (same_size_true A s y y n) by assumption; cbn [guard_shape safe].
      unfold broyden_second_jac; sizes.
    + rewrite (same_size_true A s y c n) by assumption; cbn [guard_shape safe].
      unfold quasi_method_jac; sizes.
    + eapply safe_bind; [apply mat_vec_chk_safe; congruence|]; intros hy Lh; cbn beta in Lh.
      rewrite (same_size_true A s y hy n) by congruence; cbn [guard_shape safe].
      unfold greenstadt_second_jac; sizes.
  - intros m Lm; cbn [safe].
    destruct (approx_update j m Lm) as [[-> H]| ->]; [auto|discriminate].
Qed.

Lemma approximate_inv_safe j u s y c : has_size (jm_inverse j) ->
  length s = n -> length y = n -> length c = n ->
  safe (approximate_inv_jacobian j u s y c) (fun j' => has_size (jm_inverse j')).
Proof.
  intros (B & EB & LB) Ls Ly Lc; unfold approximate_inv_jacobian.
  rewrite EB; cbn [unwrap bind].
  eapply safe_bind with (P := fun m => length m = n).
  - destruct u.
    + rewrite (same_size_true B s y s n) by assumption; cbn [guard_shape safe].
      unfold broyden_first_inv; sizes.
    + rewrite (same_size_true B s y y n) by assumption; cbn [guard_shape safe].
      unfold broyden_second_inv; sizes.
    + rewrite (same_size_true B s y c n) by assumption; cbn [guard_shape safe].
      unfold quasi_method_inv; sizes.
    + eapply safe_bind.
      { apply mat_vec_chk_safe; rewrite length_mat_mul, length_transpose; congruence. }
      intros c2 Lh; cbn beta in Lh.
      rewrite (same_size_true B s y c2 n) by congruence; cbn [guard_shape safe].
      unfold quasi_method_inv; sizes.
  - intros m Lm; cbn [safe update_inverse jm_inverse]; apply some_has, Lm.
Qed.

Lemma approximate_safe rf m : conf_ready rf -> jac_usable rf -> pair_usable rf ->
  sp_resolution_method (rf_parameters rf) = QuasiNewton m ->
  safe (approximate_step rf m) (fun q => conf_ready (fst q) /\ same_frame rf (fst q) /\
    (snd q = true -> jac_usable (fst q))).
Proof.
  intros C U P MQ; unfold approximate_step.
  destruct P as [P|((s & Es & Ls) & (y & Ey & Ly) & (c & Ec & Lc))].
  { rewrite MQ in P; injection P as ->; cbn [safe fst snd].
    split; [exact C|]; split; [repeat split|intros _; exact U]. }
  destruct m as [|u|u].
  - cbn [safe fst snd]; split; [exact C|]; split; [repeat split|intros _; exact U].
  - rewrite Es, Ey, Ec; cbn [unwrap bind].
    eapply safe_bind.
    { apply approximate_jacobian_safe; try assumption; [|apply U].
      apply U; exists u; exact MQ. }
    intros [j ok] H; cbn [safe fst snd] in *.
    split; [exact C|]; split; [repeat split|]; intros K; apply state_usable, H, K.
  - rewrite Es, Ey, Ec; cbn [unwrap bind].
    eapply safe_bind; [apply approximate_inv_safe; try assumption; apply U|].
    intros j H; cbn [safe fst snd] in *.
    split; [exact C|]; split; [repeat split|]; intros _; split; [exact H|].
    intros [u' E]; cbn in E; rewrite MQ in E; discriminate.
Qed.

Lemma quasi_safe rf s m : conf_ready rf -> jac_ready rf -> readable s ->
  sp_resolution_method (rf_parameters rf) = QuasiNewton m ->
  safe (compute_quasi_newton_step M rf s m) (step_outcome rf).
Proof.
  intros C JR R MQ; unfold compute_quasi_newton_step.
  eapply safe_bind with (P := fun q => let '(rf', s', r) := q in
    conf_ready rf' /\ same_frame rf rf' /\
    match r with
    | Ok _ => jac_usable rf' /\ readable s'
    | Err e => callable s' /\ (e <> InvalidJacobianInverseError -> jac_ready rf')
    end).
  - unfold evaluate_jacobian_quasi_newton_step.
    destruct (jm_compute_at_next (rf_jacobian rf)) eqn:K.
    + eapply safe_bind; [apply compute_jac_safe; assumption|].
      intros [[rf1 s1] r] (j & -> & H).
      eapply safe_bind with (P := fun rf' => conf_ready rf' /\ same_frame rf rf' /\
        rf_jacobian rf' = j).
      { apply when_debug_safe; [apply conf_jacobian, C| |].
        - intros rf' l (A & B & D); split; [apply conf_log, A|]; split; [exact B|exact D].
        - split; [exact C|]; repeat split; reflexivity. }
      intros rf2 (C2 & F2 & J2); cbn [safe].
      split; [exact C2|]; split; [exact F2|].
      destruct r as [u|e].
      * destruct H as [(A & B & _) H2]; split; [|exact H2].
        unfold jac_usable; rewrite J2; split; [exact A|intros _; exact B].
      * destruct H as (H1 & H2 & _); split; [exact H1|].
        intros _; right; left; rewrite J2, H2; exact K.
    + destruct JR as [JR|[JR|[JU JP]]]; [congruence|congruence|].
      eapply safe_bind; [apply approximate_safe; eassumption|].
      intros [rf1 ok] (C1 & F1 & H); cbn [fst snd] in *.
      destruct ok.
      * eapply safe_bind with (P := fun rf' => conf_ready rf' /\ same_frame rf rf' /\
          jac_usable rf').
        { apply when_debug_safe; [exact C1| |].
          - intros rf' l (A & B & D); split; [apply conf_log, A|]; split; [exact B|exact D].
          - auto. }
        intros rf2 (C2 & F2 & U2); cbn [safe]; auto.
      * cbn [safe]; split; [exact C1|]; split; [exact F1|].
        split; [apply (wf_callable _ _ _ _ WF), R|]; intros X; exfalso; apply X; reflexivity.
  - intros [[rf1 s1] r] (C1 & F1 & H).
    destruct r as [u|e].
    + destruct H as [U1 R1].
      eapply safe_bind; [apply next_safe; eassumption|].
      intros x Lx; cbn [safe step_outcome]; auto.
    + cbn [safe step_outcome]; auto.
Qed.

Lemma compute_step_safe rf s : ready rf -> readable s ->
  safe (compute_step M rf s) (step_outcome rf).
Proof.
  intros [C J] R; unfold compute_step.
  destruct (sp_resolution_method (rf_parameters rf)) as [|m] eqn:E.
  - apply newton_safe; assumption.
  - apply quasi_safe; assumption.
Qed.

(** After the evaluation of the proposed guess. *)
Definition after_damping (rf rf' : rootfinder F) : Prop :=
  conf_ready rf' /\ rf_parameters rf' = rf_parameters rf /\
  (jm_compute_at_next (rf_jacobian rf') = true \/ jac_usable rf').

Lemma damping_safe rf s e cg pg en : conf_ready rf -> jac_usable rf -> readable s ->
  sp_damping (rf_parameters rf) = true ->
  length cg = n -> length pg = n -> length en = n ->
  safe (damping M rf s e cg pg en) (fun q => let '(rf', s', en') := q in
    after_damping rf rf' /\ readable s' /\ length en' = n).
Proof.
  intros C U R SD Lc Lp Le; unfold damping.
  destruct (ngtb (amax en) e); cbn [safe].
  2: { split; [|auto]; split; [exact C|]; split; [reflexivity|right; exact U]. }
  destruct (is_quasi_newton _ && jm_approximated _).
  - cbv zeta.
    eapply safe_bind with (P := after_damping rf).
    { apply when_debug_safe; [exact C| |].
      - intros rf' l (A & B & D); split; [apply conf_log, A|]; split; [exact B|exact D].
      - split; [exact C|]; split; [reflexivity|]; left; reflexivity. }
    intros rf2 H; cbn [safe]; auto.
  - eapply safe_bind.
    { unfold damped_guess; apply vadd_safe; unfold vscale; rewrite !map_length; congruence. }
    intros x Lx; cbn beta in Lx; unfold vscale in Lx; rewrite map_length in Lx.
    assert (CS : callable (set_iteratives M s x)).
    { apply (wf_set _ _ _ _ WF); [apply (wf_callable _ _ _ _ WF), R|congruence]. }
    pose proof (wf_evaluate _ _ _ _ WF _ CS) as (s1 & r & E1 & _ & R1).
    destruct C as (C1 & C2 & C3 & C4 & C5 & C6 & C7).
    destruct (C6 SD _ CS) as (s1' & E2).
    rewrite E2 in E1; injection E1 as <- <-.
    assert (R2 : readable s1') by (destruct R1 as [R1|[e' R1]]; [exact R1|discriminate]).
    rewrite E2; cbn [bind].
    assert (C : conf_ready rf) by (repeat split; assumption || apply C5; assumption).
    eapply safe_bind; [apply errors_safe; assumption|]; intros en' Len; cbn beta in Len.
    eapply safe_bind with (P := after_damping rf).
    { unfold when_debug; destruct (rf_debug rf) eqn:D.
      - unfold damping_to_log; eapply safe_bind; [apply residuals_safe, R2|]; intros v _.
        apply write_safe; [apply C5, eq_refl|].
        intros l; split; [apply conf_log, C|]; split; [reflexivity|]; right; exact U.
      - cbn [safe]; split; [exact C|]; split; [reflexivity|]; right; exact U. }
    intros rf1 H; cbn [safe]; auto.
Qed.

Lemma store_safe rf s cg e en : conf_ready rf -> readable s ->
  jm_compute_at_next (rf_jacobian rf) = true \/ jac_usable rf ->
  length cg = n -> length e = n -> length en = n ->
  safe (store_steps M rf s cg e en) ready.
Proof.
  intros C R J Lc Le Len; unfold store_steps.
  pose proof (wf_get _ _ _ _ WF s R) as Lg.
  assert (K : safe (ds <- vsub (get_iteratives M s) cg ;; dy <- vsub en e ;;
                    Ret (set_steps rf ds dy en)) ready).
  { eapply safe_bind; [apply vsub_safe; congruence|]; intros ds Ls; cbn beta in Ls.
    eapply safe_bind; [apply vsub_safe; congruence|]; intros dy Ly; cbn beta in Ly.
    cbn [safe]; split; [exact C|].
    destruct J as [J|J]; [right; left; exact J|right; right].
    split; [exact J|]; right; repeat split; apply some_has; congruence. }
  destruct (sp_resolution_method (rf_parameters rf)) as [|[|u|u]] eqn:E; try exact K;
    cbn [safe]; (split; [exact C|]).
  - left; exact E.
  - destruct J as [J|J]; [right; left; exact J|right; right].
    split; [exact J|]; left; exact E.
Qed.

Lemma finish_safe rf s e cg pg : conf_ready rf -> jac_usable rf -> readable s ->
  length e = n -> length cg = n -> length pg = n ->
  safe (finish_update M rf s e cg pg) (fun q => let '(rf', s', e') := q in
    ready rf' /\ readable s').
Proof.
  intros C U R Le Lc Lp; unfold finish_update.
  eapply safe_bind; [apply errors_safe; assumption|]; intros en Len; cbn beta in Len.
  eapply safe_bind with (P := fun rf' => conf_ready rf' /\ jac_usable rf').
  { unfold when_debug; destruct (rf_debug rf) eqn:D; [|cbn [safe]; auto].
    unfold iteration_to_log; eapply safe_bind; [apply residuals_safe, R|]; intros v _.
    apply write_safe; [apply C, D|]; intros l; split; [apply conf_log, C|exact U]. }
  intros rf1 [C1 U1].
  eapply safe_bind with (P := fun q => let '(rf', s', en') := q in
    after_damping rf1 rf' /\ readable s' /\ length en' = n).
  { destruct (sp_damping (rf_parameters rf1)) eqn:SD.
    - apply damping_safe; assumption.
    - cbn [safe]; split; [|auto]; split; [exact C1|]; split; [reflexivity|right; exact U1]. }
  intros [[rf2 s2] en2] ((C2 & _ & J2) & R2 & L2).
  eapply safe_bind; [apply store_safe; eassumption|].
  intros rf3 H; cbn [safe]; auto.
Qed.

Lemma update_safe rf s x : conf_ready rf -> jac_usable rf -> readable s -> length x = n ->
  safe (update_model M rf s x) (fun q => let '(rf', s', r) := q in
    callable s' /\ conf_ready rf' /\
    match r with
    | Ok _ => ready rf' /\ readable s'
    | Err e => exists e', e = ModelEvaluationError (UnusableValuesError e')
    end).
Proof.
  intros C U R Lx; unfold update_model.
  pose proof (wf_get _ _ _ _ WF s R) as Lg.
  eapply safe_bind; [apply errors_safe; assumption|]; intros e Le; cbn beta in Le; cbv zeta.
  eapply safe_bind.
  { apply evaluate_safe, (wf_set _ _ _ _ WF); [apply (wf_callable _ _ _ _ WF), R|exact Lx]. }
  intros [s1 r] [C1 R1]; cbn [fst snd] in C1, R1.
  assert (K : forall b, readable s1 ->
    safe ('(rf1, s2, e') <- finish_update M (set_valid rf b) s1 e (get_iteratives M s) x ;;
          Ret (rf1, s2, Ok e'))
     (fun q => let '(rf', s', r) := q in
       callable s' /\ conf_ready rf' /\
       match r with
       | Ok _ => ready rf' /\ readable s'
       | Err e => exists e', e = ModelEvaluationError
                               (UnusableValuesError e' : model_error EI EU)
       end)).
  { intros b R2.
    eapply safe_bind; [apply finish_safe; try assumption|].
    intros [[rf1 s2] e'] [H1 H2]; cbn [safe].
    split; [apply (wf_callable _ _ _ _ WF), H2|]; split; [apply H1|auto]. }
  destruct r as [u|[i|eu]].
  - apply K; destruct R1 as [R1|[e' R1]]; [exact R1|discriminate].
  - apply K; destruct R1 as [R1|[e' R1]]; [exact R1|discriminate].
  - cbn [safe]; split; [exact C1|]; split; [exact C|].
    exists eu; reflexivity.
Qed.

(** ** The loop *)

(** The errors after which the solver may be used again: those which stop
    neither the computation of a jacobian nor an iteration halfway. *)
Definition reusable (r : result unit (solver_error EI EU)) : Prop :=
  match r with
  | Err (ModelEvaluationError _) => False
  | Err (JacobianError InvalidJacobianInverseError) => False
  | _ => True
  end.

Lemma ready_iter rf k : ready rf -> ready (set_iter rf k).
Proof. exact (fun H => H). Qed.

Lemma iteration_safe rf s : ready rf -> readable s ->
  safe (iteration M rf s) (fun q => let '(rf', s', r) := q in
    callable s' /\ conf_ready rf' /\
    match r with
    | Ok _ => ready rf' /\ readable s'
    | Err (ModelEvaluationError _) => True
    | Err (JacobianError InvalidJacobianInverseError) => True
    | Err _ => ready rf'
    end).
Proof.
  intros RD R; unfold iteration.
  eapply safe_bind; [apply compute_step_safe; [apply ready_iter, RD|exact R]|].
  intros [[rf1 s1] r] (C1 & F1 & H).
  destruct r as [x|e].
  - destruct H as (U1 & Lx & R1).
    eapply safe_mono; [apply update_safe; assumption|].
    intros [[rf2 s2] r2] (A & B & D); split; [exact A|]; split; [exact B|].
    destruct r2 as [v|e]; [exact D|]; destruct D as [e' ->]; exact Logic.I.
  - destruct H as [H1 H2]; cbn [safe]; split; [exact H1|]; split; [exact C1|].
    destruct e as [e|]; [|exact Logic.I]; split; [exact C1|]; apply H2; discriminate.
Qed.

Lemma iterate_safe : forall fuel rf s e, ready rf -> readable s ->
  0 < fuel -> sp_max_iter (rf_parameters rf) < fuel + rf_iter rf ->
  safe (iterate M fuel rf s e) (fun q => let '(rf', s', r) := q in
    callable s' /\ conf_ready rf' /\
    match r with
    | Ok _ => ready rf'
    | Err (ModelEvaluationError _) => True
    | Err (JacobianError InvalidJacobianInverseError) => True
    | Err _ => ready rf'
    end).
Proof.
  induction fuel as [|fuel IH]; intros rf s e RD R F0 FU; cbn [iterate]; [lia|].
  - destruct (ngtb e _ && Nat.ltb _ _) eqn:EC.
    + pose proof (iteration_safe rf s RD R) as H.
      destruct (iteration M rf s) as [[[rf1 s1] r]|p] eqn:EI'; [|destruct H].
      destruct (iteration_fields M _ _ _ _ _ EI') as ((P1 & _) & P2 & _).
      cbn [bind safe] in *; destruct H as (A & B & D).
      apply andb_prop in EC; destruct EC as [_ EC]; apply Nat.ltb_lt in EC.
      destruct r as [v|e']; [apply IH; [apply D|apply D|lia|rewrite P1, P2; lia]|].
      cbn [safe]; split; [exact A|]; split; [exact B|exact D].
    + cbn [safe]; split; [apply (wf_callable _ _ _ _ WF), R|]; split; [apply RD|exact RD].
Qed.

(** ** No panic, from any solver in a state where it may be used *)
Theorem C15_no_panic_ready rf s : ready rf -> callable s ->
  exists rf' s' r, solve M rf s = Ret (rf', s', r) /\ callable s' /\
    (reusable r -> ready rf').
Proof.
  intros RD CS.
  assert (H : safe (solve M rf s) (fun q => let '(rf', s', r) := q in
            callable s' /\ (reusable r -> ready rf'))).
  2: { destruct (solve M rf s) as [[[rf' s'] r]|p]; [|destruct H].
       exists rf', s', r; split; [reflexivity|exact H]. }
  unfold solve in *.
  destruct (wf_evaluate _ _ _ _ WF (set_iteratives M s (rf_initial_guess rf)))
    as (s1 & r & E1 & C1 & R1).
  { apply (wf_set _ _ _ _ WF); [exact CS|apply RD]. }
  rewrite E1 in *; cbn [bind] in *.
  assert (K : readable s1 ->
            safe (solve_from M rf s1) (fun q => let '(rf', s', r) := q in
              callable s' /\ (reusable r -> ready rf'))).
  { intros R; unfold solve_from in *.
    pose proof (errors_safe rf s1 (proj1 RD) R) as HE.
    destruct (evaluate_errors M rf s1) as [e|p]; [|destruct HE]; cbn [bind] in *.
    match goal with
    | |- safe (bind ?w _) _ =>
        assert (W : safe w ready);
        [|destruct w as [rf1|p]; [|destruct W]; cbn [bind safe] in *]
    end.
    { unfold when_debug; destruct (rf_debug rf) eqn:D; [|exact RD].
      destruct RD as [C J]; destruct C as (C0 & C2 & C3 & C4 & C5 & C6 & C7).
      destruct (C5 D) as [LN N0].
      unfold parameters_to_log, iteration_to_log.
      destruct (rf_log rf) as [l|] eqn:EL; [|exfalso; apply LN; reflexivity].
      cbn [unwrap bind].
      destruct (rf_iters_params rf) as [|it its] eqn:EI'; [cbn [length] in C2; congruence|].
      cbn [index nth_error bind].
      unfold write_log at 1; rewrite EL; cbn [unwrap bind].
      eapply safe_bind; [apply residuals_safe, R|]; intros v _.
      apply write_safe; [cbn; discriminate|].
      intros l'; split; [|exact J].
      cbn; repeat split; cbn; rewrite ?EI'; try assumption; discriminate. }
    assert (FU : sp_max_iter (rf_parameters rf1) <
                 S (sp_max_iter (rf_parameters rf1)) + rf_iter rf1) by lia.
    pose proof (iterate_safe _ rf1 s1 (amax e) W R (Nat.lt_0_succ _) FU) as HI.
    destruct (iterate M _ rf1 s1 (amax e)) as [[[rf2 s2] r2]|p]; [|destruct HI].
    cbn [safe bind] in *; destruct HI as (A & B & D); split; [exact A|].
    destruct r2 as [m|e2]; [intros _; exact D|].
    destruct e2 as [|t|me|[je|]|]; cbn [reusable]; intros X; try exact D; destruct X. }
  destruct r as [u|[i|eu]].
  - apply K; [destruct R1 as [R1|[e' R1]]; [exact R1|discriminate]].
  - apply K; [destruct R1 as [R1|[e' R1]]; [exact R1|discriminate]].
  - cbn [safe]; split; [exact C1|intros _; exact RD].
Qed.

Lemma new_ready p guess its conf rf :
  rootfinder_new p guess its conf = Ret rf -> sp_problem_size p = n ->
  length (update_methods conf) = length (stopping_criterias conf) ->
  accurate_if_damped M callable (sp_damping p) -> differentiable_somehow M readable its ->
  ready rf /\ (n <> 0 -> ready (activate_debug rf)).
Proof.
  unfold rootfinder_new; intros E S UC AD DS.
  destruct (Nat.eqb (residuals_config_len conf) (sp_problem_size p)) eqn:E1; [|discriminate].
  destruct (Nat.eqb (length guess) (sp_problem_size p)) eqn:E2; [|discriminate].
  destruct (Nat.eqb (length its) (sp_problem_size p)) eqn:E3; [|discriminate].
  apply Nat.eqb_eq in E1, E2, E3; unfold residuals_config_len in E1; cbn [negb] in E.
  injection E as <-.
  split; [|intros N0]; (split; [|right; left; reflexivity]);
    cbn; repeat split; cbn; try congruence; try assumption; discriminate.
Qed.

(** C15. A solver built by [new] (with a configuration built by its own
    constructor), with or without debugging, does not panic. *)
Theorem C15_no_panic p guess its stopping update conf rf s :
  residuals_config_new stopping update = Ret conf ->
  rootfinder_new p guess its conf = Ret rf ->
  sp_problem_size p = n ->
  accurate_if_damped M callable (sp_damping p) ->
  differentiable_somehow M readable its ->
  callable s ->
  (exists q, solve M rf s = Ret q) /\
  (n <> 0 -> exists q, solve M (activate_debug rf) s = Ret q).
Proof.
  intros EC E S AD DS CS.
  assert (UC : length (update_methods conf) = length (stopping_criterias conf)).
  { unfold residuals_config_new in EC.
    destruct (Nat.eqb (length stopping) (length update)) eqn:EL; [|discriminate].
    injection EC as <-; apply Nat.eqb_eq in EL; cbn; congruence. }
  destruct (new_ready p guess its conf rf E S UC AD DS) as [R1 R2].
  split; [|intros N0].
  - destruct (C15_no_panic_ready rf s R1 CS) as (a & b & c & H & _); eexists; exact H.
  - destruct (C15_no_panic_ready (activate_debug rf) s (R2 N0) CS) as (a & b & c & H & _);
      eexists; exact H.
Qed.

(** Such a solver may be run any number of times, on any callable states, as
    long as no run ends with [ModelEvaluationError] or
    [JacobianError(InvalidJacobianInverseError)]. *)
Theorem C15_no_panic_again rf s : ready rf -> callable s ->
  forall rf' s' r, solve M rf s = Ret (rf', s', r) -> reusable r ->
  forall s2, callable s2 -> exists q, solve M rf' s2 = Ret q.
Proof.
  intros RD CS rf' s' r E U s2 CS2.
  destruct (C15_no_panic_ready rf s RD CS) as (a & b & c & H & _ & K).
  rewrite H in E; injection E as -> -> ->.
  destruct (C15_no_panic_ready rf' s2 (K U) CS2) as (a' & b' & c' & H' & _); eexists; exact H'.
Qed.

End NoPanic.

(** ** Instances *)

(** On [f64], with the LU inverse, for the four adapters of the crate around a
    function keeping the size (and a jacobian of the right size): no further
    condition than (a). *)
Definition um_sized (n : nat) (s : user_model f64) : Prop :=
  um_problem_size s = n /\ length (um_inputs s) = n /\ length (um_left s) = n /\
  length (um_right s) = n.

Lemma um_new_sized n : um_sized n (user_model_new n).
Proof. unfold um_sized; cbn; unfold vzeros; rewrite !repeat_length; auto. Qed.

Lemma mzeros_square n : is_square n (mzeros n : mat f64) = true.
Proof.
  unfold is_square, mzeros; rewrite repeat_length, Nat.eqb_refl; cbn [andb].
  apply forallb_forall; intros r H; apply repeat_spec in H; subst r.
  unfold vzeros; rewrite repeat_length; apply Nat.eqb_refl.
Qed.

Lemma adapter_well_formed n (f : vec f64 -> vec f64) :
  (forall x, length x = n -> length (f x) = n) ->
  well_formed_model (model_from_function f) n (um_sized n) (um_sized n).
Proof.
  intros L; split.
  - auto.
  - intros s H; apply H.
  - intros s x (A & B & C & D) Lx; repeat split; assumption.
  - intros s H; apply H.
  - intros s (A & B & C & D); eexists _, _; split; [reflexivity|].
    split; [|left]; repeat split; try assumption; apply L, B.
  - intros s (A & B & C & D).
    cbn [get_residuals model_from_function]; unfold um_get_residuals, residuals_values_new.
    rewrite C, D, Nat.eqb_refl; eexists; split; [reflexivity|]; split; assumption.
  - auto.
  - intros s _ H; discriminate H.
Qed.

Lemma adapter_jac_well_formed n (f : vec f64 -> vec f64) (jac : vec f64 -> mat f64) :
  (forall x, length x = n -> length (f x) = n) ->
  (forall x, length x = n -> is_square n (jac x) = true) ->
  well_formed_model (model_from_function_and_jacobian f jac) n (um_sized n) (um_sized n).
Proof.
  intros L LJ; split.
  - auto.
  - intros s H; apply H.
  - intros s x (A & B & C & D) Lx; repeat split; assumption.
  - intros s H; apply H.
  - intros s (A & B & C & D); eexists _, _; split; [reflexivity|].
    split; [|left]; repeat split; try assumption; apply L, B.
  - intros s (A & B & C & D).
    cbn [get_residuals model_from_function_and_jacobian];
      unfold um_get_residuals, residuals_values_new.
    rewrite C, D, Nat.eqb_refl; eexists; split; [reflexivity|]; split; assumption.
  - auto.
  - intros s H _.
    pose proof H as (A & B & C & D).
    cbn [get_jacobian model_from_function_and_jacobian];
      unfold um_get_jacobian, jacobian_values_new.
    pose proof (LJ _ B) as Q.
    assert (LQ : length (jac (um_inputs s)) = n).
    { unfold is_square in Q; apply andb_prop in Q; apply Nat.eqb_eq, Q. }
    rewrite LQ, Q, A, mzeros_square; cbn [andb bind].
    eexists _, _; split; [reflexivity|]; split; [exact H|]; cbn [jv_left jv_right].
    split; [exact LQ|]; unfold mzeros; apply repeat_length.
Qed.

Theorem C15_adapters n (f : vec f64 -> vec f64) (jac : vec f64 -> mat f64)
  p guess its stopping update conf rf :
  (forall x, length x = n -> length (f x) = n) ->
  (forall x, length x = n -> is_square n (jac x) = true) ->
  residuals_config_new stopping update = Ret conf ->
  rootfinder_new p guess its conf = Ret rf ->
  sp_problem_size p = n ->
  (* with a jacobian: no panic *)
  (exists q, solve (model_from_function_and_jacobian f jac) rf (user_model_new n) = Ret q) /\
  (* without: no panic when all iteratives have perturbations *)
  ((forall it x, In it its -> exists d, it_compute_perturbation it x = Ret d) ->
   exists q, solve (model_from_function f) rf (user_model_new n) = Ret q).
Proof.
  intros L LJ EC E S; split; [|intros P].
  - eapply (C15_no_panic (@lu_inverse_length f64 _) _ n _ _ (adapter_jac_well_formed n f jac L LJ));
      try eassumption.
    + intros _ s H; eexists; reflexivity.
    + left; reflexivity.
    + apply um_new_sized.
  - eapply (C15_no_panic (@lu_inverse_length f64 _) _ n _ _ (adapter_well_formed n f L));
      try eassumption.
    + intros _ s H; eexists; reflexivity.
    + right; exact P.
    + apply um_new_sized.
Qed.

Print Assumptions C15_no_panic.
Print Assumptions C15_no_panic_again.
Print Assumptions C15_adapters.

Definition panics {A} (o : outcome A) : bool := match o with Ret _ => false | Panic _ => true end.
Lemma panics_true {A} (o : outcome A) : panics o = true -> exists p, o = Panic p.
Proof. destruct o; [discriminate|eauto]. Qed.

(** The premises are met by the sample solvers, which do iterate. *)
Example C15_case :
  (exists q, solve (model_from_function sq2) (sq2_fd 50 broy1 true) (user_model_new 1) = Ret q) /\
  check_run (solve (model_from_function sq2) (sq2_fd 50 broy1 true) (user_model_new 1))
    (fun rf s r => is_ok r && Nat.ltb 2 (rf_iter rf)) = true.
Proof.
  split; [|vm_compute; reflexivity].
  eapply (C15_adapters 1 sq2 (fun _ => mzeros 1) (params6 1 50 broy1 true) [Fz 1] (fd_its 1)
            [Abs] [Abs] (abs_conf 1)); try reflexivity.
  - intros x H; unfold sq2; rewrite map_length; exact H.
  - intros it x [<-|[]]; eexists; reflexivity.
Qed.

(** Condition (a) is needed: iteratives without perturbations and a model
    without jacobian panic ([unimplemented!]). Conditions (b) and (c) are needed
    by [C14_inaccurate_is_recoverable_refuted]. *)
Example C15_perturbations_needed :
  solve (model_from_function sq2) (sq2_an 50 NewtonRaphson false) (user_model_new 1)
  = Panic PanicUnimplemented.
Proof.
  assert (H : match solve (model_from_function sq2) (sq2_an 50 NewtonRaphson false)
                      (user_model_new 1) with
              | Panic PanicUnimplemented => true | _ => false end = true)
    by (vm_compute; reflexivity).
  destruct (solve _ _ _) as [q|[]]; try discriminate; reflexivity.
Qed.

(** "Freshly built" is needed: after an unusable evaluation in the first
    iteration, a second resolution with the same solver panics. *)
Definition twice {F St EI EU} {NF : Num F} {IF : Inverter F} (M : Model F St EI EU)
  (rf : rootfinder F) (s : St) :=
  '(rf1, s1, _) <- solve M rf s ;; solve M rf1 s1.
Theorem C15_second_resolution_refuted :
  exists (rf : rootfinder f64) f jac estat,
    check_run (solve (scripted_model 1 f (Some jac) estat always_ok) rf (scripted_init 1))
      (fun _ _ r => match r with Err (ModelEvaluationError _) => true | _ => false end) = true /\
    exists p, twice (scripted_model 1 f (Some jac) estat always_ok) rf (scripted_init 1) = Panic p.
Proof.
  exists (sq2_an 50 broy1 false), sq2, sq2_jac, (at_call 1 SUnusable).
  split; [vm_compute; reflexivity|].
  apply panics_true; vm_compute; reflexivity.
Qed.
Print Assumptions C15_second_resolution_refuted.

(** Debugging a problem of size 0 panics: the log reads the first iterative. *)
Example C15_debug_size_zero :
  solve (model_from_function (fun x : vec f64 => x))
    (activate_debug (sample_rf (params6 0 50 NewtonRaphson false) [] [] (abs_conf 0)))
    (user_model_new 0) = Panic PanicIndex.
Proof. vm_compute; reflexivity. Qed.
