(** The debug log does not change a run: simulation between a solver and the
    same solver without debugging. *)
From Verif Require Import Base Num Linalg Residuals Iteratives UserModel Jacobian Solver
  Tactics FlowFacts Trace SimFacts.

Section Debug.
Context {F : Type} {NF : Num F} {IF : Inverter F} {St EI EU : Type}.
Context (M : Model F St EI EU).
Notation rootfinder := (rootfinder F).

(** The solver without its log. *)
Definition undebug (rf : rootfinder) : rootfinder :=
  mkRootFinder (rf_parameters rf) (rf_initial_guess rf) (rf_iters_params rf)
    (rf_residuals_config rf) false (rf_iter rf) None (rf_jacobian rf)
    (rf_iteratives_step rf) (rf_residuals_step rf) (rf_residuals_current rf)
    (rf_valid_last rf).

(** A log file exists when debugging is active. *)
Definition has_log (rf : rootfinder) : Prop := rf_debug rf = true -> rf_log rf <> None.

Definition drel (a b : rootfinder) : Prop := a = undebug b /\ has_log b.

Definition drel3 {A} (p q : rootfinder * St * A) : Prop :=
  let '(a, s, x) := p in
  let '(b, t, y) := q in drel a b /\ s = t /\ x = y.

(** A log write. *)
Lemma d_write : forall (b : rootfinder) e, rf_debug b = true -> has_log b ->
  exists b', write_log b e = Ret b' /\ undebug b' = undebug b /\ has_log b' /\ rf_debug b' = true.
Proof.
  intros b e Hd Hl. unfold write_log. specialize (Hl Hd). destruct (rf_log b) as [l|]; [|easy].
  cbn. eexists. split; [reflexivity|]. repeat split; [intros _; discriminate|exact Hd].
Qed.

Lemma d_when : forall a b k1 k2, drel a b ->
  (rf_debug b = true -> has_log b -> exists b', k2 = Ret b' /\ undebug b' = undebug b /\ has_log b') ->
  rel_out drel (when_debug a k1) (when_debug b k2).
Proof.
  intros a b k1 k2 (-> & Hl) Hk. unfold when_debug. cbn [rf_debug undebug].
  destruct (rf_debug b) eqn:Hd.
  - destruct (Hk eq_refl Hl) as (b' & -> & Hu & Hl'). cbn. split; [symmetry; exact Hu|exact Hl'].
  - cbn. split; [reflexivity|exact Hl].
Qed.

Lemma d_when_jac : forall a b, drel a b ->
  rel_out drel (when_debug a (jac_to_log a)) (when_debug b (jac_to_log b)).
Proof.
  intros a b H. apply d_when; [exact H|]. intros Hd Hl.
  destruct (d_write b (LJacobian (rf_jacobian b)) Hd Hl) as (b' & H1 & H2 & H3 & _). eauto.
Qed.

Lemma d_compute_jac : forall a b s, drel a b ->
  rel_out drel3 (compute_jac M a s) (compute_jac M b s).
Proof.
  intros a b s (-> & Hl). unfold compute_jac.
  cbn [rf_jacobian rf_residuals_config rf_iters_params undebug].
  destruct (if jacobian_provided M s then _ else _) as [[[j s1] r]|p]; [|reflexivity].
  cbn. split; [split; [reflexivity|exact Hl]|auto].
Qed.

Lemma d_next : forall a b s, drel a b ->
  compute_next_from_inv_jac M a s = compute_next_from_inv_jac M b s.
Proof. intros a b s (-> & _). reflexivity. Qed.

Lemma d_approximate : forall a b m, drel a b ->
  rel_out (fun p q => drel (fst p) (fst q) /\ snd p = snd q)
    (approximate_step a m) (approximate_step b m).
Proof.
  intros a b m (-> & Hl). unfold approximate_step.
  cbn [rf_iteratives_step rf_residuals_step rf_residuals_current rf_jacobian undebug].
  destruct m; [cbn; repeat split; exact Hl|..];
    destruct (rf_iteratives_step b), (rf_residuals_step b), (rf_residuals_current b);
    cbn [unwrap bind]; try reflexivity.
  - destruct (approximate_jacobian _ _ _ _ _) as [[j ok]|]; cbn; [|reflexivity].
    repeat split; exact Hl.
  - destruct (approximate_inv_jacobian _ _ _ _ _) as [j|]; cbn; [|reflexivity].
    repeat split; exact Hl.
Qed.

Lemma d_step : forall a b s, drel a b ->
  rel_out drel3 (compute_step M a s) (compute_step M b s).
Proof.
  intros a b s H. unfold compute_step.
  replace (rf_parameters a) with (rf_parameters b) by (destruct H as (-> & _); reflexivity).
  destruct (sp_resolution_method (rf_parameters b)) as [|m].
  - unfold compute_newton_raphson_step. eapply rel_bind; [apply d_compute_jac, H|].
    intros [[a1 s1] r1] [[b1 t1] r2] (H1 & <- & <-).
    eapply rel_bind; [apply d_when_jac, H1|]. intros a2 b2 H2.
    destruct r1; [|cbn; auto]. rewrite (d_next _ _ _ H2).
    destruct (compute_next_from_inv_jac M b2 s1); cbn; auto.
  - unfold compute_quasi_newton_step. apply rel_bind with (Q := drel3).
    + unfold evaluate_jacobian_quasi_newton_step.
      replace (rf_jacobian a) with (rf_jacobian b) by (destruct H as (-> & _); reflexivity).
      destruct (jm_compute_at_next (rf_jacobian b)).
      * eapply rel_bind; [apply d_compute_jac, H|].
        intros [[a1 s1] r1] [[b1 t1] r2] (H1 & <- & <-).
        eapply rel_bind; [apply d_when_jac, H1|]. intros a2 b2 H2. cbn. auto.
      * eapply rel_bind; [apply d_approximate, H|].
        intros [a1 o1] [b1 o2] (H1 & H2); cbn [fst snd] in *. subst o2.
        destruct o1; [|cbn; auto].
        eapply rel_bind; [apply d_when_jac, H1|]. intros a2 b2 H2. cbn. auto.
    + intros [[a1 s1] r1] [[b1 t1] r2] (H1 & <- & <-).
      destruct r1; [|cbn; auto]. rewrite (d_next _ _ _ H1).
      destruct (compute_next_from_inv_jac M b1 s1); cbn; auto.
Qed.

Lemma d_errors : forall a b s, drel a b -> evaluate_errors M a s = evaluate_errors M b s.
Proof. intros a b s (-> & _). reflexivity. Qed.

Lemma d_errors_res : forall (b : rootfinder) s e, evaluate_errors M b s = Ret e ->
  exists v, get_residuals M s = Ret v.
Proof.
  intros b s e H. unfold evaluate_errors in H. destruct (get_residuals M s); [eauto|discriminate].
Qed.

Lemma d_damping : forall a b s me cur prop en, drel a b ->
  rel_out drel3 (damping M a s me cur prop en) (damping M b s me cur prop en).
Proof.
  intros a b s me cur prop en H. unfold damping.
  replace (rf_parameters a) with (rf_parameters b) by (destruct H as (-> & _); reflexivity).
  replace (rf_jacobian a) with (rf_jacobian b) by (destruct H as (-> & _); reflexivity).
  destruct (ngtb _ _); [|cbn; auto]. destruct (_ && _).
  - cbv zeta. destruct H as (-> & Hl).
    eapply rel_bind.
    + apply d_when with (b := set_jacobian b (force_jacobian_computation (rf_jacobian b)));
        [split; [reflexivity|exact Hl]|].
      intros Hd Hl'. unfold recompute_jacobian_to_log.
      destruct (d_write _ LRecompute Hd Hl') as (b' & H1 & H2 & H3 & _). eauto.
    + intros a' b' H'. cbn. auto.
  - destruct (damped_guess cur prop) as [d|]; [|reflexivity]. cbn [bind].
    destruct (evaluate M (set_iteratives M s d)) as [[s1 r]|]; [|reflexivity]. cbn [bind].
    destruct r; [|reflexivity]. rewrite (d_errors _ _ s1 H).
    destruct (evaluate_errors M b s1) as [e|] eqn:Ee; [|reflexivity]. cbn [bind].
    eapply rel_bind.
    + apply d_when; [exact H|]. intros Hd Hl. unfold damping_to_log.
      destruct (d_errors_res _ _ _ Ee) as (v & ->). cbn [bind].
      destruct (d_write b (LDamping (get_iteratives M s1) v e) Hd Hl) as (b' & H1 & H2 & H3 & _).
      eauto.
    + intros a' b' H'. cbn. auto.
Qed.

Lemma d_store : forall a b s cur e en, drel a b ->
  rel_out drel (store_steps M a s cur e en) (store_steps M b s cur e en).
Proof.
  intros a b s cur e en (-> & Hl). unfold store_steps. cbn [rf_parameters undebug].
  destruct (sp_resolution_method (rf_parameters b)) as [|[]]; try (split; [reflexivity|exact Hl]);
    (destruct (vsub (get_iteratives M s) cur); [|reflexivity]); cbn [bind];
    (destruct (vsub en e); [|reflexivity]); split; (reflexivity || exact Hl).
Qed.

Lemma d_finish : forall a b s e cur prop, drel a b ->
  rel_out drel3 (finish_update M a s e cur prop) (finish_update M b s e cur prop).
Proof.
  intros a b s e cur prop H. unfold finish_update. rewrite (d_errors _ _ s H).
  destruct (evaluate_errors M b s) as [en|] eqn:Ee; [|reflexivity]. cbn [bind].
  eapply rel_bind.
  { apply d_when; [exact H|]. intros Hd Hl. unfold iteration_to_log.
    destruct (d_errors_res _ _ _ Ee) as (v & ->). cbn [bind].
    destruct (d_write b (LIteration (rf_iter b) (get_iteratives M s) v en) Hd Hl)
      as (b' & H1 & H2 & H3 & _). eauto. }
  intros a1 b1 H1. apply rel_bind with (Q := drel3).
  - replace (rf_parameters a1) with (rf_parameters b1) by (destruct H1 as (-> & _); reflexivity).
    destruct (sp_damping (rf_parameters b1)); [apply d_damping, H1|cbn; auto].
  - intros [[a2 s2] e2] [[b2 t2] f2] (H2 & <- & <-).
    eapply rel_bind; [apply d_store, H2|]. intros a3 b3 H3. cbn. auto.
Qed.

Lemma d_update : forall a b s g, drel a b ->
  rel_out drel3 (update_model M a s g) (update_model M b s g).
Proof.
  intros a b s g H. unfold update_model. rewrite (d_errors _ _ s H).
  destruct (evaluate_errors M b s) as [e|]; [|reflexivity]. cbn [bind].
  destruct (evaluate M (set_iteratives M s g)) as [[s1 r]|]; [|reflexivity]. cbn [bind].
  assert (Hv : forall v, drel (set_valid a v) (set_valid b v)).
  { intros v. destruct H as (-> & Hl). split; [reflexivity|exact Hl]. }
  destruct r as [u|[x|x]].
  - eapply rel_bind; [apply d_finish, Hv|].
    intros [[a1 s2] f] [[b1 t2] f'] (H1 & <- & <-). cbn. auto.
  - eapply rel_bind; [apply d_finish, Hv|].
    intros [[a1 s2] f] [[b1 t2] f'] (H1 & <- & <-). cbn. auto.
  - cbn. auto.
Qed.

Lemma d_iteration : forall a b s, drel a b ->
  rel_out drel3 (iteration M a s) (iteration M b s).
Proof.
  intros a b s H. unfold iteration.
  eapply rel_bind.
  { apply d_step with (b := set_iter b (S (rf_iter b))). destruct H as (-> & Hl).
    split; [reflexivity|exact Hl]. }
  intros [[a1 s1] r] [[b1 t1] r'] (H1 & <- & <-). destruct r; [apply d_update, H1|cbn; auto].
Qed.

Lemma d_iterate : forall fuel a b s me, drel a b ->
  rel_out drel3 (iterate M fuel a s me) (iterate M fuel b s me).
Proof.
  induction fuel as [|fuel IH]; intros a b s me H; cbn [iterate]; [reflexivity|].
  replace (rf_parameters a) with (rf_parameters b) by (destruct H as (-> & _); reflexivity).
  replace (rf_iter a) with (rf_iter b) by (destruct H as (-> & _); reflexivity).
  destruct (_ && _); [|cbn; auto].
  eapply rel_bind; [apply d_iteration, H|].
  intros [[a1 s1] r] [[b1 t1] r'] (H1 & <- & <-). destruct r; [apply IH, H1|cbn; auto].
Qed.

Theorem d_solve : forall a b s, drel a b -> rf_iters_params b <> [] ->
  rel_out drel3 (solve M a s) (solve M b s).
Proof.
  intros a b s H Hne. unfold solve.
  replace (rf_initial_guess a) with (rf_initial_guess b) by (destruct H as (-> & _); reflexivity).
  destruct (evaluate M (set_iteratives M s (rf_initial_guess b))) as [[s1 r]|]; [|reflexivity].
  cbn [bind].
  assert (Hk : rel_out drel3 (solve_from M a s1) (solve_from M b s1)).
  { unfold solve_from. rewrite (d_errors _ _ s1 H).
    destruct (evaluate_errors M b s1) as [e|] eqn:Ee; [|reflexivity]. cbn [bind].
    eapply rel_bind.
    { apply d_when; [exact H|]. intros Hd Hl. unfold parameters_to_log.
      specialize (Hl Hd). destruct (rf_log b) as [l|] eqn:El; [|easy]. cbn [unwrap bind].
      destruct (rf_iters_params b) as [|i its] eqn:Ei; [easy|]. cbn [index nth_error unwrap bind].
      destruct (d_write b (LParameters (rf_parameters b) (i :: its) (rf_residuals_config b)) Hd)
        as (b1 & -> & Hu & Hl1 & Hd1); [intros _; congruence|]. cbn [bind].
      unfold iteration_to_log. destruct (d_errors_res _ _ _ Ee) as (v & ->). cbn [bind].
      destruct (d_write b1 (LIteration (rf_iter b1) (get_iteratives M s1) v e) Hd1 Hl1)
        as (b2 & -> & Hu2 & Hl2 & _). exists b2. split; [reflexivity|].
      split; [congruence|exact Hl2]. }
    intros a1 b1 H1.
    replace (rf_parameters a1) with (rf_parameters b1) by (destruct H1 as (-> & _); reflexivity).
    eapply rel_bind; [apply d_iterate, H1|].
    intros [[a2 s2] r2] [[b2 t2] r2'] (H2 & <- & <-). cbn. split; [exact H2|]. split; [reflexivity|].
    destruct r2 as [me|]; [|reflexivity]. destruct H2 as (-> & _). reflexivity. }
  destruct r as [u|[x|x]]; [exact Hk|exact Hk|cbn; auto].
Qed.

End Debug.
