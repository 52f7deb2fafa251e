(** A run and the run of the same solver with another tolerance and another
    budget: the iterations are the same, only where the loop stops differs. *)
From Verif Require Import Base Num Linalg Residuals Iteratives UserModel Jacobian Solver
  Tactics FlowFacts Trace SimFacts TraceFacts.

Section Limits.
Context {F : Type} {NF : Num F} {IF : Inverter F} {St EI EU : Type}.
Context (M : Model F St EI EU).
Notation rootfinder := (rootfinder F).

(** The same solver, as if it had been built with tolerance [tol], budget [m]
    ([SolverParameters::new], solver/parameters.rs) and guess [g]. *)
Definition rebuilt (tol : F) (m : nat) (g : vec F) (rf : rootfinder) : rootfinder :=
  mkRootFinder
    (mkSolverParameters (sp_problem_size (rf_parameters rf)) tol m
       (sp_resolution_method (rf_parameters rf)) (sp_damping (rf_parameters rf)))
    g (rf_iters_params rf)
    (rf_residuals_config rf) (rf_debug rf) (rf_iter rf) (rf_log rf) (rf_jacobian rf)
    (rf_iteratives_step rf) (rf_residuals_step rf) (rf_residuals_current rf)
    (rf_valid_last rf).

(** With the same guess. *)
Definition with_limits (tol : F) (m : nat) (rf : rootfinder) : rootfinder :=
  rebuilt tol m (rf_initial_guess rf) rf.

Section Fixed.
Context (tol : F) (m : nat) (g : vec F).

Definition lrel (a b : rootfinder) : Prop := a = rebuilt tol m g b /\ rf_debug b = false.

Definition lrel3 {A} (p q : rootfinder * St * A) : Prop :=
  let '(a, s, x) := p in
  let '(b, t, y) := q in lrel a b /\ s = t /\ x = y.

Lemma l_when : forall a b k1 k2, lrel a b ->
  rel_out lrel (when_debug a k1) (when_debug b k2).
Proof.
  intros a b k1 k2 (-> & Hd). unfold when_debug. cbn [rf_debug rebuilt].
  rewrite Hd. cbn. split; [reflexivity|exact Hd].
Qed.

Lemma l_compute_jac : forall a b s, lrel a b ->
  rel_out lrel3 (compute_jac M a s) (compute_jac M b s).
Proof.
  intros a b s (-> & Hl). unfold compute_jac.
  cbn [rf_jacobian rf_residuals_config rf_iters_params rebuilt].
  destruct (if jacobian_provided M s then _ else _) as [[[j s1] r]|p]; [|reflexivity].
  cbn. split; [split; [reflexivity|exact Hl]|auto].
Qed.

Lemma l_next : forall a b s, lrel a b ->
  compute_next_from_inv_jac M a s = compute_next_from_inv_jac M b s.
Proof. intros a b s (-> & _). reflexivity. Qed.

Lemma l_approximate : forall a b qm, lrel a b ->
  rel_out (fun p q => lrel (fst p) (fst q) /\ snd p = snd q)
    (approximate_step a qm) (approximate_step b qm).
Proof.
  intros a b qm (-> & Hl). unfold approximate_step.
  cbn [rf_iteratives_step rf_residuals_step rf_residuals_current rf_jacobian rebuilt].
  destruct qm; [cbn; repeat split; exact Hl|..];
    destruct (rf_iteratives_step b), (rf_residuals_step b), (rf_residuals_current b);
    cbn [unwrap bind]; try reflexivity.
  - destruct (approximate_jacobian _ _ _ _ _) as [[j ok]|]; cbn; [|reflexivity].
    repeat split; exact Hl.
  - destruct (approximate_inv_jacobian _ _ _ _ _) as [j|]; cbn; [|reflexivity].
    repeat split; exact Hl.
Qed.

Lemma l_method : forall a b, lrel a b ->
  sp_resolution_method (rf_parameters a) = sp_resolution_method (rf_parameters b).
Proof. intros a b (-> & _). reflexivity. Qed.

Lemma l_damps : forall a b, lrel a b ->
  sp_damping (rf_parameters a) = sp_damping (rf_parameters b).
Proof. intros a b (-> & _). reflexivity. Qed.

Lemma l_jacobian : forall a b, lrel a b -> rf_jacobian a = rf_jacobian b.
Proof. intros a b (-> & _). reflexivity. Qed.

Lemma l_step : forall a b s, lrel a b ->
  rel_out lrel3 (compute_step M a s) (compute_step M b s).
Proof.
  intros a b s H. unfold compute_step. rewrite (l_method _ _ H).
  destruct (sp_resolution_method (rf_parameters b)) as [|qm].
  - unfold compute_newton_raphson_step. eapply rel_bind; [apply l_compute_jac, H|].
    intros [[a1 s1] r1] [[b1 t1] r2] (H1 & <- & <-).
    eapply rel_bind; [apply l_when, H1|]. intros a2 b2 H2.
    destruct r1; [|cbn; auto]. rewrite (l_next _ _ _ H2).
    destruct (compute_next_from_inv_jac M b2 s1); cbn; auto.
  - unfold compute_quasi_newton_step. apply rel_bind with (Q := lrel3).
    + unfold evaluate_jacobian_quasi_newton_step. rewrite (l_jacobian _ _ H).
      destruct (jm_compute_at_next (rf_jacobian b)).
      * eapply rel_bind; [apply l_compute_jac, H|].
        intros [[a1 s1] r1] [[b1 t1] r2] (H1 & <- & <-).
        eapply rel_bind; [apply l_when, H1|]. intros a2 b2 H2. cbn. auto.
      * eapply rel_bind; [apply l_approximate, H|].
        intros [a1 o1] [b1 o2] (H1 & H2); cbn [fst snd] in *. subst o2.
        destruct o1; [|cbn; auto].
        eapply rel_bind; [apply l_when, H1|]. intros a2 b2 H2. cbn. auto.
    + intros [[a1 s1] r1] [[b1 t1] r2] (H1 & <- & <-).
      destruct r1; [|cbn; auto]. rewrite (l_next _ _ _ H1).
      destruct (compute_next_from_inv_jac M b1 s1); cbn; auto.
Qed.

Lemma l_errors : forall a b s, lrel a b -> evaluate_errors M a s = evaluate_errors M b s.
Proof. intros a b s (-> & _). reflexivity. Qed.

Lemma l_damping : forall a b s me cur prop en, lrel a b ->
  rel_out lrel3 (damping M a s me cur prop en) (damping M b s me cur prop en).
Proof.
  intros a b s me cur prop en H. unfold damping.
  rewrite (l_method _ _ H), (l_jacobian _ _ H).
  destruct (ngtb _ _); [|cbn; auto]. destruct (_ && _).
  - cbv zeta. destruct H as (-> & Hl).
    eapply rel_bind.
    + apply l_when with (b := set_jacobian b (force_jacobian_computation (rf_jacobian b))).
      split; [reflexivity|exact Hl].
    + intros a' b' H'. cbn. auto.
  - destruct (damped_guess cur prop) as [d|]; [|reflexivity]. cbn [bind].
    destruct (evaluate M (set_iteratives M s d)) as [[s1 r]|]; [|reflexivity]. cbn [bind].
    destruct r; [|reflexivity]. rewrite (l_errors _ _ s1 H).
    destruct (evaluate_errors M b s1) as [e|] eqn:Ee; [|reflexivity]. cbn [bind].
    eapply rel_bind; [apply l_when, H|]. intros a' b' H'. cbn. auto.
Qed.

Lemma l_store : forall a b s cur e en, lrel a b ->
  rel_out lrel (store_steps M a s cur e en) (store_steps M b s cur e en).
Proof.
  intros a b s cur e en H. unfold store_steps. rewrite (l_method _ _ H).
  destruct H as (-> & Hl).
  destruct (sp_resolution_method (rf_parameters b)) as [|[]]; try (split; [reflexivity|exact Hl]);
    (destruct (vsub (get_iteratives M s) cur); [|reflexivity]); cbn [bind];
    (destruct (vsub en e); [|reflexivity]); split; (reflexivity || exact Hl).
Qed.

Lemma l_finish : forall a b s e cur prop, lrel a b ->
  rel_out lrel3 (finish_update M a s e cur prop) (finish_update M b s e cur prop).
Proof.
  intros a b s e cur prop H. unfold finish_update. rewrite (l_errors _ _ s H).
  destruct (evaluate_errors M b s) as [en|] eqn:Ee; [|reflexivity]. cbn [bind].
  eapply rel_bind; [apply l_when, H|].
  intros a1 b1 H1. apply rel_bind with (Q := lrel3).
  - rewrite (l_damps _ _ H1).
    destruct (sp_damping (rf_parameters b1)); [apply l_damping, H1|cbn; auto].
  - intros [[a2 s2] e2] [[b2 t2] f2] (H2 & <- & <-).
    eapply rel_bind; [apply l_store, H2|]. intros a3 b3 H3. cbn. auto.
Qed.

Lemma l_update : forall a b s x, lrel a b ->
  rel_out lrel3 (update_model M a s x) (update_model M b s x).
Proof.
  intros a b s y H. unfold update_model. rewrite (l_errors _ _ s H).
  destruct (evaluate_errors M b s) as [e|]; [|reflexivity]. cbn [bind].
  destruct (evaluate M (set_iteratives M s y)) as [[s1 r]|]; [|reflexivity]. cbn [bind].
  assert (Hv : forall v, lrel (set_valid a v) (set_valid b v)).
  { intros v. destruct H as (-> & Hl). split; [reflexivity|exact Hl]. }
  destruct r as [u|[x|x]].
  - eapply rel_bind; [apply l_finish, Hv|].
    intros [[a1 s2] f] [[b1 t2] f'] (H1 & <- & <-). cbn. auto.
  - eapply rel_bind; [apply l_finish, Hv|].
    intros [[a1 s2] f] [[b1 t2] f'] (H1 & <- & <-). cbn. auto.
  - cbn. auto.
Qed.

Lemma l_iteration : forall a b s, lrel a b ->
  rel_out lrel3 (iteration M a s) (iteration M b s).
Proof.
  intros a b s H. unfold iteration.
  eapply rel_bind.
  { apply l_step with (b := set_iter b (S (rf_iter b))). destruct H as (-> & Hl).
    split; [reflexivity|exact Hl]. }
  intros [[a1 s1] r] [[b1 t1] r'] (H1 & <- & <-). destruct r; [apply l_update, H1|cbn; auto].
Qed.

End Fixed.

(** One iteration does not read the tolerance, the budget nor the guess. *)
Lemma rebuilt_iteration : forall tol m g rf s, rf_debug rf = false ->
  iteration M (rebuilt tol m g rf) s
  = ('(rf1, s1, r) <- iteration M rf s ;; Ret (rebuilt tol m g rf1, s1, r)) /\
  (forall rf1 s1 r, iteration M rf s = Ret (rf1, s1, r) -> rf_debug rf1 = false).
Proof.
  intros tol m g rf s Hd.
  assert (H := l_iteration tol m g (rebuilt tol m g rf) rf s (conj eq_refl Hd)).
  destruct (iteration M rf s) as [[[rf1 s1] r]|p].
  - destruct (iteration M (rebuilt tol m g rf) s) as [[[a1 t1] r']|]; [|easy].
    destruct H as ((-> & Hd1) & -> & ->). split; [reflexivity|].
    intros ? ? ? [= <- <- <-]. exact Hd1.
  - destruct (iteration M (rebuilt tol m g rf) s) as [|p']; [easy|].
    cbn in H |- *. split; [congruence|]. discriminate.
Qed.

Lemma limits_iteration : forall tol m rf s, rf_debug rf = false ->
  iteration M (with_limits tol m rf) s
  = ('(rf1, s1, r) <- iteration M rf s ;; Ret (with_limits tol m rf1, s1, r)) /\
  (forall rf1 s1 r, iteration M rf s = Ret (rf1, s1, r) -> rf_debug rf1 = false).
Proof.
  intros tol m rf s Hd.
  destruct (rebuilt_iteration tol m (rf_initial_guess rf) rf s Hd) as (E & H).
  split; [|exact H]. unfold with_limits at 1. rewrite E.
  destruct (iteration M rf s) as [[[rf1 s1] r]|p] eqn:Ei; [|reflexivity]. cbn [bind].
  apply iteration_fields in Ei. destruct Ei as ((_ & Hg & _) & _).
  unfold with_limits. rewrite Hg. reflexivity.
Qed.

Lemma with_limits_twice : forall tol m tol' m' rf,
  with_limits tol m (with_limits tol' m' rf) = with_limits tol m rf.
Proof. reflexivity. Qed.

(** The loop with the second limits, when it stops no later. *)
Lemma limits_iterate : forall tol m tol' m',
  (forall e, ngtb e tol' = true -> ngtb e tol = true) -> m' <= m ->
  forall fuel' fuel rf s me, rf_debug rf = false ->
  m' - rf_iter rf < fuel' -> m - rf_iter rf < fuel ->
  match iterate M fuel' (with_limits tol' m' rf) s me with
  | Ret (rf1, s1, Err x) =>
      iterate M fuel (with_limits tol m rf) s me = Ret (with_limits tol m rf1, s1, Err x)
  | Ret (rf1, s1, Ok me1) =>
      continues rf1 me1 = false /\ rf1 = with_limits tol' m' rf1 /\ rf_debug rf1 = false /\
      exists fuel1, m - rf_iter rf1 < fuel1 /\
      iterate M fuel (with_limits tol m rf) s me
      = iterate M fuel1 (with_limits tol m rf1) s1 me1
  | Panic p => iterate M fuel (with_limits tol m rf) s me = Panic p
  end.
Proof.
  intros tol m tol' m' HT HM. induction fuel' as [|fuel' IH]; intros fuel rf s me Hd Hf' Hf; [lia|].
  cbn [iterate]. fold (continues (with_limits tol' m' rf) me).
  destruct (continues (with_limits tol' m' rf) me) eqn:Ec.
  - destruct fuel as [|fuel]; [lia|]. cbn [iterate].
    fold (continues (with_limits tol m rf) me).
    assert (Ec2 : continues (with_limits tol m rf) me = true /\ rf_iter rf < m').
    { unfold continues in *. cbn [rf_parameters with_limits rebuilt sp_tolerance sp_max_iter rf_iter] in *.
      apply andb_prop in Ec. destruct Ec as (E1 & E2). apply Nat.ltb_lt in E2.
      rewrite (HT _ E1). split; [|exact E2]. apply Nat.ltb_lt. lia. }
    destruct Ec2 as (-> & Hlt).
    destruct (limits_iteration tol' m' rf s Hd) as (-> & Hd1).
    destruct (limits_iteration tol m rf s Hd) as (-> & _).
    destruct (iteration M rf s) as [[[rf1 s1] r]|p] eqn:Ei; cbn [bind]; [|reflexivity].
    destruct r as [e|x]; [|reflexivity].
    assert (Hi := Ei). apply iteration_fields in Hi. destruct Hi as (_ & Hi & _).
    apply IH; [eapply Hd1; reflexivity|lia|lia].
  - split; [exact Ec|]. split; [reflexivity|]. split; [exact Hd|]. exists fuel. split; [exact Hf|reflexivity].
Qed.

End Limits.
