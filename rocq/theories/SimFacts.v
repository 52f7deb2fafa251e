(** Simulation between runs of the solver on two user models.

    Two models related by [R] and answering alike give the same run. With
    [strict = false] the models may differ in reporting [Ok] or an inaccurate
    evaluation (damping off); then only the validity flag may differ. With
    [lenient = true] the second model may only be the less accurate one; then
    damping is allowed, and the second run may stop with its panic. *)
From Verif Require Import Base Num Linalg Residuals Iteratives UserModel Jacobian Solver
  Tactics FlowFacts Trace.

(** Both return related values, or both panic alike. With [lenient = true] the
    second may also stop with the panic of the damping. *)
Definition rel_outl (lenient : bool) {A B} (Q : A -> B -> Prop)
  (o1 : outcome A) (o2 : outcome B) : Prop :=
  match o1, o2 with
  | Ret a, Ret b => Q a b
  | Panic p, Panic q => if lenient then p = q \/ q = PanicUnwrapErr else p = q
  | Ret _, Panic q => if lenient then q = PanicUnwrapErr else False
  | Panic _, Ret _ => False
  end.
Notation rel_out := (rel_outl false).

Lemma rel_bind : forall l A1 A2 B1 B2 (Q : A1 -> A2 -> Prop) (Q' : B1 -> B2 -> Prop) o1 o2 k1 k2,
  rel_outl l Q o1 o2 -> (forall a b, Q a b -> rel_outl l Q' (k1 a) (k2 b)) ->
  rel_outl l Q' (bind o1 k1) (bind o2 k2).
Proof.
  intros l A1 A2 B1 B2 Q Q' [a|p] [b|q] k1 k2 H Hk; cbn in *; try easy; [now apply Hk|].
  destruct (k1 a); [exact H|]. destruct l; [right; exact H|elim H].
Qed.

Lemma rel_panic : forall l A B (Q : A -> B -> Prop) p, rel_outl l Q (Panic p) (Panic p).
Proof. intros [] A B Q p; cbn; auto. Qed.
Lemma rel_eq : forall l A (o1 o2 : outcome A), o1 = o2 -> rel_outl l eq o1 o2.
Proof. intros l A [a|p] o2 <-; [reflexivity|apply rel_panic]. Qed.
Lemma rel_eq_inv : forall A (o1 o2 : outcome A), rel_out eq o1 o2 -> o1 = o2.
Proof. intros A [a|p] [b|q]; cbn; congruence || easy. Qed.

(** Evaluation results that count as the same. *)
Definition rel_status (strict lenient : bool) {A EI EU}
  (r1 r2 : result A (model_error EI EU)) : Prop :=
  if strict then r1 = r2
  else match r1, r2 with
       | Err (UnusableValuesError e1), Err (UnusableValuesError e2) => e1 = e2
       | Err (UnusableValuesError _), _ => False
       | _, Err (UnusableValuesError _) => False
       | Err (InaccurateValuesError _), Ok _ => if lenient then False else True
       | _, _ => True
       end.

(** Whether a result is [Ok]. *)
Definition accepted {A E} (r : result A E) : bool := match r with Ok _ => true | Err _ => false end.

Lemma rel_status_cases : forall strict lenient A EI EU (r1 r2 : result A (model_error EI EU)),
  rel_status strict lenient r1 r2 ->
  (exists e, r1 = Err (UnusableValuesError e) /\ r2 = Err (UnusableValuesError e)) \/
  ((forall e, r1 <> Err (UnusableValuesError e)) /\
   (forall e, r2 <> Err (UnusableValuesError e)) /\ (strict = true -> r1 = r2) /\
   (lenient = true -> accepted r2 = true -> accepted r1 = true)).
Proof.
  intros strict lenient A EI EU r1 r2 H; unfold rel_status in H; destruct strict.
  - subst r2. destruct r1 as [|[e|e]]; [right|right|left]; eauto; repeat split; discriminate || auto.
  - destruct r1 as [|[e|e]], r2 as [|[e'|e']]; try easy; subst;
      try (right; repeat split; try discriminate; auto; intros ->; contradiction). left. eauto.
Qed.

(** The second run has stopped with the panic of the damping. *)
Lemma rel_stopped : forall (l : bool) A B (Q : A -> B -> Prop) (o : outcome A) q,
  (if l : bool then q = PanicUnwrapErr else False) -> rel_outl l Q o (Panic q).
Proof. intros [] A B Q [a|p] q H; cbn; auto; contradiction. Qed.

Section Sim.
Context {F : Type} {NF : Num F} {IF : Inverter F} {S1 S2 EI EU : Type}.
Context (M1 : Model F S1 EI EU) (M2 : Model F S2 EI EU) (R : S1 -> S2 -> Prop) (strict lenient : bool).
Notation rootfinder := (rootfinder F).

Record model_sim : Prop := {
  sim_len : forall s1 s2, R s1 s2 -> len_problem M1 s1 = len_problem M2 s2;
  sim_set : forall s1 s2 x, R s1 s2 -> R (set_iteratives M1 s1 x) (set_iteratives M2 s2 x);
  sim_get : forall s1 s2, R s1 s2 -> get_iteratives M1 s1 = get_iteratives M2 s2;
  sim_eval : forall s1 s2, R s1 s2 ->
    rel_outl lenient (fun p q => R (fst p) (fst q) /\ rel_status strict lenient (snd p) (snd q))
      (evaluate M1 s1) (evaluate M2 s2);
  sim_res : forall s1 s2, R s1 s2 -> get_residuals M1 s1 = get_residuals M2 s2;
  sim_prov : forall s1 s2, R s1 s2 -> jacobian_provided M1 s1 = jacobian_provided M2 s2;
  sim_jac : forall s1 s2, R s1 s2 ->
    rel_outl lenient (fun p q => R (fst p) (fst q) /\ snd p = snd q)
      (get_jacobian M1 s1) (get_jacobian M2 s2);
  sim_getmem : forall s1 s2, R s1 s2 -> get_memory M1 s1 = get_memory M2 s2;
  sim_setmem : forall s1 s2 m, R s1 s2 -> R (set_memory M1 s1 m) (set_memory M2 s2 m);
  sim_show : forall e, show_unusable M1 e = show_unusable M2 e
}.
Context (HS : model_sim).

(** Related solver states: equal up to the validity flag; under [lenient] a
    valid second one goes with a valid first one. *)
Definition rrel (rf1 rf2 : rootfinder) : Prop :=
  exists b, rf2 = set_valid rf1 b /\
    ((strict = true -> b = rf_valid_last rf1) /\
     (lenient = true -> b = true -> rf_valid_last rf1 = true)).

(** Related results of solver functions. *)
Definition rel3 {A} (p : rootfinder * S1 * A) (q : rootfinder * S2 * A) : Prop :=
  let '(rf1, s1, a) := p in
  let '(rf2, s2, b) := q in rrel rf1 rf2 /\ R s1 s2 /\ a = b.

Lemma sim_fd_columns : forall conf n mem xref rref pert todo i s1 s2, R s1 s2 ->
  rel_outl lenient (fun p q => R (fst p) (fst q) /\ snd p = snd q)
    (finite_difference_columns M1 conf n mem xref rref pert todo i s1)
    (finite_difference_columns M2 conf n mem xref rref pert todo i s2).
Proof.
  intros conf n mem xref rref pert todo. induction todo as [|todo IH]; intros i s1 s2 H;
    cbn [finite_difference_columns]; [cbn; auto|].
  eapply rel_bind; [apply rel_eq; reflexivity|]. intros dx ? <-.
  eapply rel_bind; [apply rel_eq; reflexivity|]. intros x ? <-.
  eapply rel_bind; [apply (sim_eval HS), (sim_set HS), H|].
  intros [s1' r1] [s2' r2] (Hs & Hr); cbn [fst snd] in *.
  apply rel_status_cases in Hr. destruct Hr as [(e & -> & ->)|(Hn1 & Hn2 & _)]; [cbn; auto|].
  assert (Hk : rel_outl lenient (fun p q => R (fst p) (fst q) /\ snd p = snd q)
    (values <- get_residuals M1 s1' ;;
       res <- evaluate_update_residuals conf values ;;
       diff <- vsub res rref ;;
       guard_shape (Nat.eqb (length (vdiv diff dx)) n)
         ('(s2, rest) <-
            finite_difference_columns M1 conf n mem xref rref pert todo (S i)
              (set_memory M1 s1' mem) ;;
          Ret (s2, match rest with Ok cols => Ok (vdiv diff dx :: cols) | Err e => Err e end)))
    (values <- get_residuals M2 s2' ;;
       res <- evaluate_update_residuals conf values ;;
       diff <- vsub res rref ;;
       guard_shape (Nat.eqb (length (vdiv diff dx)) n)
         ('(s2, rest) <-
            finite_difference_columns M2 conf n mem xref rref pert todo (S i)
              (set_memory M2 s2' mem) ;;
          Ret (s2, match rest with Ok cols => Ok (vdiv diff dx :: cols) | Err e => Err e end)))).
  { eapply rel_bind; [apply rel_eq, (sim_res HS), Hs|]. intros v ? <-.
    eapply rel_bind; [apply rel_eq; reflexivity|]. intros res ? <-.
    eapply rel_bind; [apply rel_eq; reflexivity|]. intros diff ? <-.
    unfold guard_shape. destruct (Nat.eqb _ _); [|apply rel_panic].
    eapply rel_bind; [apply IH, (sim_setmem HS), Hs|].
    intros [a1 b1] [a2 b2] (Ha & Hb); cbn [fst snd] in *. subst b2. cbn. auto. }
  destruct r1 as [|[e|e]]; [..|elim (Hn1 e); reflexivity];
    (destruct r2 as [|[e'|e']]; [..|elim (Hn2 e'); reflexivity]); exact Hk.
Qed.

Lemma sim_compute_jac : forall rf1 rf2 s1 s2, rrel rf1 rf2 -> R s1 s2 ->
  rel_outl lenient rel3 (compute_jac M1 rf1 s1) (compute_jac M2 rf2 s2).
Proof.
  intros rf1 rf2 s1 s2 (b & -> & Hb) H. unfold compute_jac.
  cbn [rf_jacobian rf_residuals_config rf_iters_params set_valid].
  apply rel_bind with (Q := fun p q => fst (fst p) = fst (fst q) /\
     R (snd (fst p)) (snd (fst q)) /\ snd p = snd q).
  - rewrite (sim_prov HS _ _ H). destruct (jacobian_provided M2 s2).
    + unfold evaluate_jacobian_from_analytical_function.
      eapply rel_bind; [apply rel_eq, (sim_res HS), H|]. intros v ? <-.
      eapply rel_bind; [apply (sim_jac HS), H|].
      intros [a1 r1] [a2 r2] (Ha & Hr); cbn [fst snd] in *. subst r2.
      destruct r1 as [jv|e]; [|cbn; auto].
      eapply rel_bind; [apply rel_eq; reflexivity|]. intros m ? <-.
      destruct (update_jacobian_with_exact_value _ _). cbn. auto.
    + unfold evaluate_jacobian_from_finite_difference.
      rewrite (sim_get HS _ _ H).
      eapply rel_bind; [apply rel_eq; reflexivity|]. intros dx ? <-.
      unfold compute_jacobian_from_finite_difference.
      apply rel_bind with (Q := fun p q => R (fst p) (fst q) /\ snd p = snd q).
      * rewrite (sim_res HS _ _ H), (sim_get HS _ _ H), (sim_getmem HS _ _ H), (sim_len HS _ _ H).
        eapply rel_bind; [apply rel_eq; reflexivity|]. intros v ? <-.
        eapply rel_bind; [apply rel_eq; reflexivity|]. intros rr ? <-.
        eapply rel_bind; [apply sim_fd_columns, H|].
        intros [a1 r1] [a2 r2] (Ha & Hr); cbn [fst snd] in *. subst r2. cbn. auto.
      * intros [a1 r1] [a2 r2] (Ha & Hr); cbn [fst snd] in *. subst r2.
        destruct r1; [|cbn; auto].
        destruct (update_jacobian_with_exact_value _ _). cbn. auto.
  - intros [[j1 a1] r1] [[j2 a2] r2] (Hj & Ha & Hr); cbn [fst snd] in *. subst j2 r2.
    cbn. split; [exists b; split; [reflexivity|exact Hb]|auto].
Qed.

Lemma sim_when_jac : forall rf1 rf2, rrel rf1 rf2 ->
  rel_outl lenient rrel (when_debug rf1 (jac_to_log rf1)) (when_debug rf2 (jac_to_log rf2)).
Proof.
  intros rf1 rf2 (b & -> & Hb). unfold when_debug, jac_to_log, write_log.
  cbn [rf_debug set_valid rf_log rf_jacobian].
  destruct (rf_debug rf1); [|cbn; exists b; auto].
  destruct (rf_log rf1); [|apply rel_panic]; cbn. exists b. auto.
Qed.

Lemma sim_next : forall rf1 rf2 s1 s2, rrel rf1 rf2 -> R s1 s2 ->
  compute_next_from_inv_jac M1 rf1 s1 = compute_next_from_inv_jac M2 rf2 s2.
Proof.
  intros rf1 rf2 s1 s2 (b & -> & Hb) H. unfold compute_next_from_inv_jac.
  rewrite (sim_res HS _ _ H), (sim_get HS _ _ H). reflexivity.
Qed.

Lemma sim_compute_step : forall rf1 rf2 s1 s2, rrel rf1 rf2 -> R s1 s2 ->
  rel_outl lenient rel3 (compute_step M1 rf1 s1) (compute_step M2 rf2 s2).
Proof.
  intros rf1 rf2 s1 s2 Hrf H. unfold compute_step.
  assert (Hp : rf_parameters rf2 = rf_parameters rf1) by (destruct Hrf as (b & -> & _); reflexivity).
  rewrite Hp. destruct (sp_resolution_method (rf_parameters rf1)) as [|m].
  - unfold compute_newton_raphson_step.
    eapply rel_bind; [apply sim_compute_jac; assumption|].
    intros [[rf1' a1] r1] [[rf2' a2] r2] (Hrf' & Ha & <-).
    eapply rel_bind; [apply sim_when_jac, Hrf'|]. intros rf1'' rf2'' Hrf''.
    destruct r1; [|cbn; auto].
    rewrite (sim_next _ _ _ _ Hrf'' Ha).
    eapply rel_bind; [apply rel_eq; reflexivity|]. intros g ? <-. cbn. auto.
  - unfold compute_quasi_newton_step.
    apply rel_bind with (Q := rel3).
    + unfold evaluate_jacobian_quasi_newton_step.
      assert (Hj : rf_jacobian rf2 = rf_jacobian rf1) by (destruct Hrf as (b & -> & _); reflexivity).
      rewrite Hj. destruct (jm_compute_at_next (rf_jacobian rf1)).
      * eapply rel_bind; [apply sim_compute_jac; assumption|].
        intros [[rf1' a1] r1] [[rf2' a2] r2] (Hrf' & Ha & <-).
        eapply rel_bind; [apply sim_when_jac, Hrf'|]. intros rf1'' rf2'' Hrf''. cbn. auto.
      * apply rel_bind with (Q := fun p q => rrel (fst p) (fst q) /\ snd p = snd q).
        -- destruct Hrf as (b & -> & Hb). unfold approximate_step.
           cbn [rf_iteratives_step rf_residuals_step rf_residuals_current rf_jacobian set_valid].
           destruct m.
           ++ cbn. split; [exists b; auto|reflexivity].
           ++ destruct (rf_iteratives_step rf1), (rf_residuals_step rf1), (rf_residuals_current rf1);
                cbn [unwrap bind]; try apply rel_panic.
              destruct (approximate_jacobian _ _ _ _ _) as [[j ok]|]; [|apply rel_panic]. cbn.
              split; [exists b; auto|reflexivity].
           ++ destruct (rf_iteratives_step rf1), (rf_residuals_step rf1), (rf_residuals_current rf1);
                cbn [unwrap bind]; try apply rel_panic.
              destruct (approximate_inv_jacobian _ _ _ _ _) as [j|]; [|apply rel_panic]. cbn.
              split; [exists b; auto|reflexivity].
        -- intros [rf1' ok1] [rf2' ok2] (Hrf' & Hok); cbn [fst snd] in *. subst ok2.
           destruct ok1; [|cbn; auto].
           eapply rel_bind; [apply sim_when_jac, Hrf'|]. intros rf1'' rf2'' Hrf''. cbn. auto.
    + intros [[rf1' a1] r1] [[rf2' a2] r2] (Hrf' & Ha & <-).
      destruct r1; [|cbn; auto].
      rewrite (sim_next _ _ _ _ Hrf' Ha).
      eapply rel_bind; [apply rel_eq; reflexivity|]. intros g ? <-. cbn. auto.
Qed.

Lemma sim_errors : forall rf1 rf2 s1 s2, rrel rf1 rf2 -> R s1 s2 ->
  evaluate_errors M1 rf1 s1 = evaluate_errors M2 rf2 s2.
Proof.
  intros rf1 rf2 s1 s2 (b & -> & _) H. unfold evaluate_errors.
  now rewrite (sim_res HS _ _ H).
Qed.

Lemma sim_iter_log : forall rf1 rf2 s1 s2 e, rrel rf1 rf2 -> R s1 s2 ->
  rel_outl lenient rrel (iteration_to_log M1 rf1 s1 e) (iteration_to_log M2 rf2 s2 e).
Proof.
  intros rf1 rf2 s1 s2 e (b & -> & Hb) H. unfold iteration_to_log, write_log.
  rewrite (sim_res HS _ _ H), (sim_get HS _ _ H). cbn [rf_log set_valid rf_iter].
  eapply rel_bind; [apply rel_eq; reflexivity|]. intros v ? <-.
  destruct (rf_log rf1); [|apply rel_panic]; cbn. exists b. auto.
Qed.
Lemma sim_damping_log : forall rf1 rf2 s1 s2 e, rrel rf1 rf2 -> R s1 s2 ->
  rel_outl lenient rrel (damping_to_log M1 rf1 s1 e) (damping_to_log M2 rf2 s2 e).
Proof.
  intros rf1 rf2 s1 s2 e (b & -> & Hb) H. unfold damping_to_log, write_log.
  rewrite (sim_res HS _ _ H), (sim_get HS _ _ H). cbn [rf_log set_valid rf_iter].
  eapply rel_bind; [apply rel_eq; reflexivity|]. intros v ? <-.
  destruct (rf_log rf1); [|apply rel_panic]; cbn. exists b. auto.
Qed.
Lemma sim_when : forall rf1 rf2 k1 k2, rrel rf1 rf2 -> rel_outl lenient rrel k1 k2 ->
  rel_outl lenient rrel (when_debug rf1 k1) (when_debug rf2 k2).
Proof.
  intros rf1 rf2 k1 k2 Hr Hk. unfold when_debug.
  replace (rf_debug rf2) with (rf_debug rf1) by (destruct Hr as (b & -> & _); reflexivity).
  destruct (rf_debug rf1); [exact Hk|exact Hr].
Qed.

Lemma sim_damping : forall rf1 rf2 s1 s2 me cur prop en,
  strict = true \/ lenient = true -> rrel rf1 rf2 -> R s1 s2 ->
  rel_outl lenient rel3 (damping M1 rf1 s1 me cur prop en) (damping M2 rf2 s2 me cur prop en).
Proof.
  intros rf1 rf2 s1 s2 me cur prop en Hst Hrf H. unfold damping.
  assert (Hp : rf_parameters rf2 = rf_parameters rf1 /\ rf_jacobian rf2 = rf_jacobian rf1)
    by (destruct Hrf as (b & -> & _); split; reflexivity).
  destruct Hp as (-> & ->).
  destruct (ngtb _ _); [|cbn; auto].
  destruct (is_quasi_newton _ && jm_approximated _).
  - cbv zeta. destruct Hrf as (b & -> & Hb).
    assert (Hrf : rrel (set_jacobian rf1 (force_jacobian_computation (rf_jacobian rf1)))
      (set_jacobian (set_valid rf1 b) (force_jacobian_computation (rf_jacobian rf1))))
      by (exists b; auto).
    eapply rel_bind.
    + apply sim_when; [exact Hrf|].
      unfold recompute_jacobian_to_log, write_log. cbn [rf_log set_jacobian set_valid].
      destruct (rf_log rf1); [|apply rel_panic]; cbn. exists b. auto.
    + intros a c Hac. cbn. auto.
  - eapply rel_bind; [apply rel_eq; reflexivity|]. intros d ? <-.
    eapply rel_bind; [apply (sim_eval HS), (sim_set HS), H|].
    intros [a1 r1] [a2 r2] (Ha & Hr); cbn [fst snd] in *.
    assert (Hc : accepted r1 = accepted r2 \/
                 (lenient = true /\ accepted r1 = true /\ accepted r2 = false)).
    { apply rel_status_cases in Hr. destruct Hr as [(x & -> & ->)|(_ & _ & Hs & Hl)]; [now left|].
      destruct Hst as [Hst|Hst]; [left; rewrite (Hs Hst); reflexivity|].
      destruct (accepted r2) eqn:E2; [left; auto|].
      destruct (accepted r1) eqn:E1; [right|left]; auto. }
    destruct r1 as [u1|x1], r2 as [u2|x2]; cbn [accepted] in Hc.
    2: { destruct Hc as [Hc|(-> & _)]; [discriminate Hc|].
         destruct (bind (evaluate_errors M1 rf1 a1) _); cbn; auto. }
    2: { destruct Hc as [Hc|(_ & Hc & _)]; discriminate Hc. }
    2: apply rel_panic.
    rewrite (sim_errors _ _ _ _ Hrf Ha).
    eapply rel_bind; [apply rel_eq; reflexivity|]. intros e ? <-.
    eapply rel_bind; [apply sim_when; [exact Hrf|apply sim_damping_log; assumption]|].
    intros c1 c2 Hcc. cbn. auto.
Qed.

Lemma sim_store : forall rf1 rf2 s1 s2 cur e en, rrel rf1 rf2 -> R s1 s2 ->
  rel_outl lenient rrel (store_steps M1 rf1 s1 cur e en) (store_steps M2 rf2 s2 cur e en).
Proof.
  intros rf1 rf2 s1 s2 cur e en (b & -> & Hb) H. unfold store_steps.
  cbn [rf_parameters set_valid]. rewrite (sim_get HS _ _ H).
  assert (Hk : rel_outl lenient rrel
    (ds <- vsub (get_iteratives M2 s2) cur ;; dy <- vsub en e ;; Ret (set_steps rf1 ds dy en))
    (ds <- vsub (get_iteratives M2 s2) cur ;; dy <- vsub en e ;;
     Ret (set_steps (set_valid rf1 b) ds dy en))).
  { eapply rel_bind; [apply rel_eq; reflexivity|]. intros ds ? <-.
    eapply rel_bind; [apply rel_eq; reflexivity|]. intros dy ? <-. cbn. exists b. auto. }
  destruct (sp_resolution_method (rf_parameters rf1)) as [|[]]; try exact Hk; cbn; exists b; auto.
Qed.

Lemma sim_finish : forall rf1 rf2 s1 s2 e cur prop,
  (strict = false -> lenient = false -> sp_damping (rf_parameters rf1) = false) ->
  rrel rf1 rf2 -> R s1 s2 ->
  rel_outl lenient rel3 (finish_update M1 rf1 s1 e cur prop) (finish_update M2 rf2 s2 e cur prop).
Proof.
  intros rf1 rf2 s1 s2 e cur prop Hd Hrf H. unfold finish_update.
  rewrite (sim_errors _ _ _ _ Hrf H).
  eapply rel_bind; [apply rel_eq; reflexivity|]. intros en ? <-.
  apply rel_bind with (Q := fun a b => rrel a b /\ rf_parameters a = rf_parameters rf1).
  - destruct (when_debug rf1 (iteration_to_log M1 rf1 s1 en)) as [w|w] eqn:Ew.
    + assert (Hw : rf_parameters w = rf_parameters rf1).
      { assert (Hl : same_but_log rf1 w).
        { eapply same_but_log_when; [|exact Ew]. intros ? Hx. eapply same_but_log_iter; eauto. }
        apply same_but_log_fields in Hl. apply Hl. }
      pose proof (sim_when rf1 rf2 _ _ Hrf (sim_iter_log rf1 rf2 s1 s2 en Hrf H)) as Hx.
      rewrite Ew in Hx. destruct (when_debug rf2 _); cbn in *; auto.
    + pose proof (sim_when rf1 rf2 _ _ Hrf (sim_iter_log rf1 rf2 s1 s2 en Hrf H)) as Hx.
      rewrite Ew in Hx. destruct (when_debug rf2 _); cbn in *; auto.
  - intros a1 a2 (Ha & Hpa).
    eapply rel_bind with (Q := rel3).
    + replace (rf_parameters a2) with (rf_parameters a1)
        by (destruct Ha as (b & -> & _); reflexivity).
      destruct (sp_damping (rf_parameters a1)) eqn:Ed.
      * apply sim_damping; auto. destruct strict; [now left|]. destruct lenient; [now right|].
        rewrite Hpa, Hd in Ed by reflexivity. discriminate.
      * cbn. auto.
    + intros [[c1 t1] n1] [[c2 t2] n2] (Hc & Ht & <-).
      eapply rel_bind; [apply sim_store; eassumption|].
      intros d1 d2 Hd12. cbn. auto.
Qed.

Lemma sim_update : forall rf1 rf2 s1 s2 g,
  (strict = false -> lenient = false -> sp_damping (rf_parameters rf1) = false) ->
  rrel rf1 rf2 -> R s1 s2 ->
  rel_outl lenient rel3 (update_model M1 rf1 s1 g) (update_model M2 rf2 s2 g).
Proof.
  intros rf1 rf2 s1 s2 g Hd Hrf H. unfold update_model.
  rewrite (sim_errors _ _ _ _ Hrf H), (sim_get HS _ _ H).
  eapply rel_bind; [apply rel_eq; reflexivity|]. intros e ? <-.
  eapply rel_bind; [apply (sim_eval HS), (sim_set HS), H|].
  intros [a1 r1] [a2 r2] (Ha & Hr); cbn [fst snd] in *.
  apply rel_status_cases in Hr. destruct Hr as [(x & -> & ->)|(Hn1 & Hn2 & Hst & Hle)].
  { cbn. split; [|auto]. destruct Hrf as (b & -> & _). exists false.
    destruct rf1; auto. }
  assert (Hk : forall b1 b2, (strict = true -> b1 = b2) ->
    (lenient = true -> b2 = true -> b1 = true) ->
    rel_outl lenient rel3
      ('(rf1', s2', e') <- finish_update M1 (set_valid rf1 b1) a1 e (get_iteratives M2 s2) g ;;
       Ret (rf1', s2', Ok e' : result (vec F) (solver_error EI EU)))
      ('(rf1', s2', e') <- finish_update M2 (set_valid rf2 b2) a2 e (get_iteratives M2 s2) g ;;
       Ret (rf1', s2', Ok e'))).
  { intros b1 b2 Hb Hl.
    eapply rel_bind; [apply sim_finish; [exact Hd| |exact Ha]|].
    - destruct Hrf as (b & -> & _). exists b2. split; [destruct rf1; reflexivity|].
      split; [|exact Hl]. intros Hs. cbn. symmetry. auto.
    - intros [[c1 t1] n1] [[c2 t2] n2] (Hc & Ht & <-). cbn. auto. }
  destruct r1 as [u1|[e1|e1]]; [..|elim (Hn1 e1); reflexivity];
    (destruct r2 as [u2|[e2|e2]]; [..|elim (Hn2 e2); reflexivity]); apply Hk;
    try (intros Hs; reflexivity || (specialize (Hst Hs); discriminate Hst)); exact Hle.
Qed.

Lemma sim_iteration : forall rf1 rf2 s1 s2,
  (strict = false -> lenient = false -> sp_damping (rf_parameters rf1) = false) ->
  rrel rf1 rf2 -> R s1 s2 ->
  rel_outl lenient rel3 (iteration M1 rf1 s1) (iteration M2 rf2 s2).
Proof.
  intros rf1 rf2 s1 s2 Hd Hrf H. unfold iteration.
  assert (Hrf1 : rrel (set_iter rf1 (S (rf_iter rf1))) (set_iter rf2 (S (rf_iter rf2)))).
  { destruct Hrf as (b & -> & Hb). exists b. auto. }
  assert (Hx := sim_compute_step _ _ _ _ Hrf1 H).
  destruct (compute_step M1 (set_iter rf1 (S (rf_iter rf1))) s1) as [[[rf1' a1] r1]|p] eqn:E1;
    destruct (compute_step M2 (set_iter rf2 (S (rf_iter rf2))) s2) as [[[rf2' a2] r2]|q];
    cbn [rel_outl] in Hx; try contradiction; [|apply rel_stopped, Hx|exact Hx].
  destruct Hx as (Hrf' & Ha & <-). cbn [bind].
  destruct r1; [|cbn; auto].
  apply sim_update; [|assumption|assumption].
  apply compute_step_inv in E1. destruct E1 as (E1 & _).
  apply same_but_jac_fields in E1. destruct E1 as ((Hp & _) & _).
  rewrite Hp. exact Hd.
Qed.

Lemma sim_iterate : forall fuel rf1 rf2 s1 s2 me,
  (strict = false -> lenient = false -> sp_damping (rf_parameters rf1) = false) ->
  rrel rf1 rf2 -> R s1 s2 ->
  rel_outl lenient rel3 (iterate M1 fuel rf1 s1 me) (iterate M2 fuel rf2 s2 me).
Proof.
  induction fuel as [|fuel IH]; intros rf1 rf2 s1 s2 me Hd Hrf H; cbn [iterate]; [apply rel_panic|].
  assert (Hp : rf_parameters rf2 = rf_parameters rf1 /\ rf_iter rf2 = rf_iter rf1)
    by (destruct Hrf as (b & -> & _); split; reflexivity).
  destruct Hp as (-> & ->).
  destruct (ngtb _ _ && Nat.ltb _ _); [|cbn; auto].
  assert (Hx := sim_iteration _ _ _ _ Hd Hrf H).
  destruct (iteration M1 rf1 s1) as [[[rf1' a1] r1]|p] eqn:E1;
    destruct (iteration M2 rf2 s2) as [[[rf2' a2] r2]|q];
    cbn [rel_outl] in Hx; try contradiction; [|apply rel_stopped, Hx|exact Hx].
  destruct Hx as (Hrf' & Ha & <-). cbn [bind].
  destruct r1; [|cbn; auto].
  apply IH; [|assumption|assumption].
  apply iteration_fields in E1. destruct E1 as ((Hp & _) & _). rewrite Hp. exact Hd.
Qed.

(** Verdicts of related runs: equal, or differing only by the validity flag. *)
Definition rel_verdict (r1 r2 : result unit (solver_error EI EU)) : Prop :=
  r1 = r2 \/
  (strict = false /\
   (r1 = Ok tt \/ r1 = Err FinalEvaluationError) /\
   (r2 = Ok tt \/ r2 = Err FinalEvaluationError) /\
   (lenient = true -> r2 = Ok tt -> r1 = Ok tt)).

Definition rel_solve (p : rootfinder * S1 * result unit (solver_error EI EU))
  (q : rootfinder * S2 * result unit (solver_error EI EU)) : Prop :=
  let '(rf1, s1, a) := p in
  let '(rf2, s2, b) := q in rrel rf1 rf2 /\ R s1 s2 /\ rel_verdict a b.

Theorem sim_solve : forall rf1 rf2 s1 s2,
  (strict = false -> lenient = false -> sp_damping (rf_parameters rf1) = false) ->
  rrel rf1 rf2 -> R s1 s2 ->
  rel_outl lenient rel_solve (solve M1 rf1 s1) (solve M2 rf2 s2).
Proof.
  intros rf1 rf2 s1 s2 Hd Hrf H. unfold solve.
  replace (rf_initial_guess rf2) with (rf_initial_guess rf1)
    by (destruct Hrf as (b & -> & _); reflexivity).
  eapply rel_bind; [apply (sim_eval HS), (sim_set HS), H|].
  intros [a1 r1] [a2 r2] (Ha & Hr); cbn [fst snd] in *.
  assert (Hk : rel_outl lenient rel_solve (solve_from M1 rf1 a1) (solve_from M2 rf2 a2)).
  { unfold solve_from. rewrite (sim_errors _ _ _ _ Hrf Ha).
    eapply rel_bind; [apply rel_eq; reflexivity|]. intros e ? <-.
    assert (Hw : rel_outl lenient rrel
      (when_debug rf1 (rf' <- parameters_to_log rf1 ;; iteration_to_log M1 rf' a1 e))
      (when_debug rf2 (rf' <- parameters_to_log rf2 ;; iteration_to_log M2 rf' a2 e))).
    { apply sim_when; [exact Hrf|]. apply rel_bind with (Q := rrel).
      - destruct Hrf as (b & -> & Hb). unfold parameters_to_log, write_log.
        cbn [rf_log set_valid rf_iters_params rf_parameters rf_residuals_config].
        destruct (rf_log rf1); cbn [unwrap bind]; [|apply rel_panic].
        destruct (index (rf_iters_params rf1) 0); [|apply rel_panic]. cbn. exists b. auto.
      - intros b1 b2 Hb. apply sim_iter_log; assumption. }
    destruct (when_debug rf1 _) as [b1|p1] eqn:E1; destruct (when_debug rf2 _) as [b2|p2];
      cbn [rel_outl] in Hw; try contradiction; [|apply rel_stopped, Hw|exact Hw].
    assert (Hp1 : rf_parameters b1 = rf_parameters rf1).
    { assert (Hl : same_but_log rf1 b1).
      { eapply same_but_log_when; [|exact E1]. intros rfx Hx. minv1 Hx.
        eapply same_but_log_trans; [eapply same_but_log_params; eauto|].
        eapply same_but_log_iter; eauto. }
      apply same_but_log_fields in Hl. apply Hl. }
    cbn [bind].
    replace (rf_parameters b2) with (rf_parameters b1) by (destruct Hw as (b & -> & _); reflexivity).
    eapply rel_bind; [apply sim_iterate; [rewrite Hp1; exact Hd|exact Hw|exact Ha]|].
    intros [[c1 t1] n1] [[c2 t2] n2] (Hc & Ht & <-). cbn.
    split; [exact Hc|]. split; [exact Ht|].
    destruct n1 as [me|x]; [|left; reflexivity].
    unfold verdict.
    destruct Hc as (b & -> & Hb). cbn [rf_parameters set_valid rf_valid_last].
    destruct (ngtb _ _); [left; reflexivity|].
    destruct strict eqn:Est.
    - rewrite (proj1 Hb) by reflexivity. left. reflexivity.
    - right. split; [exact Est|]. destruct Hb as (_ & Hb).
      destruct (rf_valid_last c1) eqn:E3, b; repeat split; auto; try discriminate.
      intros Hl. discriminate (Hb Hl eq_refl). }
  apply rel_status_cases in Hr. destruct Hr as [(x & -> & ->)|(Hn1 & Hn2 & _)].
  { cbn. rewrite (sim_show HS). split; [exact Hrf|]. split; [exact Ha|left; reflexivity]. }
  destruct r1 as [u1|[e1|e1]]; [..|elim (Hn1 e1); reflexivity];
    (destruct r2 as [u2|[e2|e2]]; [..|elim (Hn2 e2); reflexivity]); exact Hk.
Qed.

End Sim.

Lemma rrel_refl : forall F strict lenient (rf : rootfinder F), rrel strict lenient rf rf.
Proof. intros F strict lenient rf. exists (rf_valid_last rf). destruct rf; auto. Qed.

(** *** Tracing does not change a run *)
Section Erasure.
Context {F : Type} {NF : Num F} {IF : Inverter F} {St EI EU : Type}.
Context (M : Model F St EI EU).

Definition erases (s : St) (p : St * list (event F)) : Prop := s = fst p.

Lemma traced_sim : model_sim M (traced M) erases true false.
Proof.
  split; unfold erases; intros; subst; try reflexivity; cbn [evaluate get_jacobian traced].
  - destruct (evaluate M (fst s2)) as [[s r]|]; cbn; auto.
  - destruct (get_jacobian M (fst s2)) as [[s r]|]; cbn; auto.
Qed.

Theorem traced_solve : forall rf s t rf' s' r,
  solve M rf s = Ret (rf', s', r) <->
  exists t', solve (traced M) rf (s, t) = Ret (rf', (s', t'), r).
Proof.
  intros rf s t rf' s' r.
  assert (H := sim_solve M (traced M) erases true false traced_sim rf rf s (s, t)).
  specialize (H ltac:(discriminate) (rrel_refl _ _ _ rf) eq_refl).
  destruct (solve M rf s) as [[[rf1 s1] r1]|p];
    destruct (solve (traced M) rf (s, t)) as [[[rf2 [s2 t2]] r2]|q]; cbn in H; try contradiction.
  - destruct H as ((b & -> & Hb) & Hs & [<-|(Hf & _)]); [|discriminate Hf].
    unfold erases in Hs. cbn in Hs. subst s2.
    assert (Hrf : set_valid rf1 b = rf1) by (rewrite (proj1 Hb) by reflexivity; destruct rf1; reflexivity).
    rewrite Hrf. split.
    + intros Hx. injection Hx as -> -> ->. exists t2. reflexivity.
    + intros (t' & Hx). injection Hx as -> -> _ ->. reflexivity.
  - split; [discriminate|intros (t' & Hx); discriminate Hx].
Qed.

Theorem traced_solve_panic : forall rf s t p,
  solve M rf s = Panic p <-> solve (traced M) rf (s, t) = Panic p.
Proof.
  intros rf s t p.
  assert (H := sim_solve M (traced M) erases true false traced_sim rf rf s (s, t)).
  specialize (H ltac:(discriminate) (rrel_refl _ _ _ rf) eq_refl).
  destruct (solve M rf s) as [[[rf1 s1] r1]|p1];
    destruct (solve (traced M) rf (s, t)) as [[[rf2 [s2 t2]] r2]|q]; cbn in H; try contradiction.
  - split; discriminate.
  - subst q. split; intros Hx; injection Hx as ->; reflexivity.
Qed.
End Erasure.
