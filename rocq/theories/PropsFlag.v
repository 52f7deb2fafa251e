(** C66: the verdict on an initial guess and the evaluation of that guess. *)
From Verif Require Import Base Num Linalg Residuals Iteratives UserModel Jacobian Solver F64
  Trace Spec Samples Fresh Tactics FlowFacts TraceFacts VerdictFacts PropsVerdict.

(** The evaluation of the initial guess decides a solve that does no iteration:
    [Ok] exactly when it succeeded, [FinalEvaluationError] exactly when it was
    inaccurate, the criterion being met; whatever the solver did before. *)
Definition C66_statement : Prop :=
  forall (IF : Inverter f64) St EI EU (M : Model f64 St EI EU) rf0 rf s s1 k rf' s' r e,
  fresh rf0 -> history rf0 rf ->
  evaluate M (set_iteratives M s (rf_initial_guess rf)) = Ret (s1, k) ->
  (forall x, k <> Err (UnusableValuesError x)) ->
  evaluate_errors M rf s1 = Ret e -> ngtb (amax e) (sp_tolerance (rf_parameters rf)) = false ->
  solve M rf s = Ret (rf', s', r) ->
  (r = Ok tt <-> k = Ok tt) /\ (r = Err FinalEvaluationError <-> k <> Ok tt).

(** A solve that starts within the tolerance returns what the flag says. *)
Lemma solve_converged {F} {NF : Num F} {IF : Inverter F} {St EI EU} (M : Model F St EI EU)
  rf s s1 k rf' s' r e :
  evaluate M (set_iteratives M s (rf_initial_guess rf)) = Ret (s1, k) ->
  (forall x, k <> Err (UnusableValuesError x)) ->
  evaluate_errors M rf s1 = Ret e -> ngtb (amax e) (sp_tolerance (rf_parameters rf)) = false ->
  solve M rf s = Ret (rf', s', r) ->
  r = (if rf_valid_last rf then Ok tt else Err FinalEvaluationError) /\ s' = s1 /\
  rf_valid_last rf' = rf_valid_last rf.
Proof.
  intros EV NU EE NG H; apply solve_inv in H.
  destruct H as (s2 & k2 & EV2 & H); rewrite EV in EV2; injection EV2 as <- <-.
  destruct H as [(x & K & _)|(_ & H)]; [elim (NU x K)|].
  apply solve_from_inv in H; destruct H as (e2 & rf1 & r1 & EE2 & SL & IT & ->).
  rewrite EE in EE2; injection EE2 as <-.
  apply same_but_log_fields in SL; destruct SL as ((P1 & _) & _ & _ & V1 & _).
  cbn [iterate] in IT; rewrite P1, NG in IT; cbn [andb] in IT; injection IT as <- <- <-.
  unfold verdict; rewrite P1, NG, V1; auto.
Qed.

(** An iteration that ends on an unusable evaluation clears the flag. *)
Lemma iteration_unusable {F} {NF : Num F} {IF : Inverter F} {St EI EU} (M : Model F St EI EU)
  rf s rf' s' x :
  iteration M rf s = Ret (rf', s', Err (ModelEvaluationError x)) -> rf_valid_last rf' = false.
Proof.
  intros H; apply iteration_inv in H; destruct H as (rf1 & s1 & [g|e] & _ & H).
  - apply update_model_inv in H; destruct H as (e & s2 & r1 & _ & _ & [(y & _ & -> & _)|(en & H & _)]);
      [reflexivity|discriminate H].
  - destruct H as (_ & _ & H); discriminate H.
Qed.
Lemma solve_unusable {F} {NF : Num F} {IF : Inverter F} {St EI EU} (M : Model F St EI EU)
  rf s rf' s' x :
  solve M rf s = Ret (rf', s', Err (ModelEvaluationError x)) -> rf_valid_last rf' = false.
Proof.
  intros H; apply solve_inv in H; destruct H as (s1 & k & _ & [(y & _ & _ & _ & H)|(_ & H)]); [discriminate H|].
  apply solve_from_tracked in H.
  destruct H as [(me & _ & _ & H)|(rf0 & s0 & me0 & e & _ & _ & H & E)].
  - unfold verdict in H; destruct (ngtb me _); [discriminate H|]; destruct (rf_valid_last rf'); discriminate H.
  - injection E as <-; exact (iteration_unusable _ _ _ _ _ _ H).
Qed.

(** After a solve stopped by an unusable evaluation, the solver refuses every
    model whose initial guess is a solution, however it is evaluated; and it
    stays so. *)
Theorem C66_failure_is_remembered :
  forall F (NF : Num F) (IF : Inverter F) St EI EU (M : Model F St EI EU) rf s rf1 s1 x,
  solve M rf s = Ret (rf1, s1, Err (ModelEvaluationError x)) ->
  forall St2 EI2 EU2 (M2 : Model F St2 EI2 EU2) s2 s3 k rf' s' r e,
  evaluate M2 (set_iteratives M2 s2 (rf_initial_guess rf)) = Ret (s3, k) ->
  (forall x, k <> Err (UnusableValuesError x)) ->
  evaluate_errors M2 rf s3 = Ret e -> ngtb (amax e) (sp_tolerance (rf_parameters rf)) = false ->
  solve M2 rf1 s2 = Ret (rf', s', r) ->
  r = Err FinalEvaluationError /\ s' = s3 /\ rf_valid_last rf' = false.
Proof.
  intros F NF IF St EI EU M rf s rf1 s1 x H St2 EI2 EU2 M2 s2 s3 k rf' s' r e EV NU EE NG H2.
  assert (V := solve_unusable _ _ _ _ _ _ H).
  apply solve_counter in H; destruct H as ((P & G & _ & R & _) & _).
  destruct (solve_converged M2 rf1 s2 s3 k rf' s' r e) as (R1 & R2 & R3); auto.
  - rewrite G; exact EV.
  - rewrite <- EE; apply evaluate_errors_config; exact R.
  - rewrite P; exact NG.
  - rewrite V in R1, R3; auto.
Qed.
Print Assumptions C66_failure_is_remembered.

(** The function x^2 - 2 from 1, unusable at the second evaluation, then a model
    that vanishes at 1. *)
Definition C66_first : Model f64 (scripted f64) string string :=
  scripted_model 1 sq2 (Some sq2_jac) (at_call 1 SUnusable) always_ok.
Definition C66_second : Model f64 (scripted f64) string string :=
  scripted_model 1 (fun _ => [n0]) (Some sq2_jac) always_ok always_ok.
Definition is_unusable {A EI EU} (r : result A (solver_error EI EU)) : bool :=
  match r with Err (ModelEvaluationError _) => true | _ => false end.
Example C66_case :
  check_run (solve C66_first (sq2_an 5 NewtonRaphson false) (scripted_init 1))
    (fun rf _ r => is_unusable r &&
       check_run (solve C66_second rf (scripted_init 1)) (fun _ _ r2 => is_final r2)) = true /\
  check_run (solve C66_second (sq2_an 5 NewtonRaphson false) (scripted_init 1)) (fun _ _ r => is_ok r) = true.
Proof. split; vm_compute; reflexivity. Qed.

Theorem C66_own_evaluation_refuted : ~ C66_statement.
Proof.
  intros H; destruct C66_case as [W _].
  apply check_run_true in W; destruct W as (rf1 & s1 & r1 & H1 & W).
  apply andb_prop in W; destruct W as [_ W].
  apply check_run_true in W; destruct W as (rf2 & s2 & r2 & H2 & W).
  assert (FR : fresh (sq2_an 5 NewtonRaphson false)) by (apply sample_fresh; reflexivity).
  assert (C := solve_counter _ _ _ _ _ _ H1); destruct C as ((P & G & _ & R & _) & _).
  destruct (H _ _ _ _ C66_second (sq2_an 5 NewtonRaphson false) rf1 (scripted_init 1)
    (mkScripted [Fz 1] [n0] 1 0) (Ok tt) rf2 s2 r2 [nabs (nsub n0 n0)]) as [[_ K] _].
  - exact FR.
  - eapply history_solve; [apply history_none|exact H1].
  - rewrite G; reflexivity.
  - discriminate.
  - rewrite (evaluate_errors_config _ (sq2_an 5 NewtonRaphson false)) by exact R; reflexivity.
  - rewrite P; vm_compute; reflexivity.
  - exact H2.
  - rewrite (K eq_refl) in W; discriminate W.
Qed.
Print Assumptions C66_own_evaluation_refuted.

(** What decides instead: the last point proposed by an iteration, of this solve
    or of one before; the evaluation of the initial guess plays no part. *)
Theorem C66_flag_decides :
  forall F (NF : Num F) (IF : Inverter F) St EI EU (M : Model F St EI EU) rf s s1 k rf' s' r e,
  evaluate M (set_iteratives M s (rf_initial_guess rf)) = Ret (s1, k) ->
  (forall x, k <> Err (UnusableValuesError x)) ->
  evaluate_errors M rf s1 = Ret e -> ngtb (amax e) (sp_tolerance (rf_parameters rf)) = false ->
  solve M rf s = Ret (rf', s', r) ->
  r = (if rf_valid_last rf then Ok tt else Err FinalEvaluationError) /\
  rf_valid_last rf' = rf_valid_last rf.
Proof.
  intros F NF IF St EI EU M rf s s1 k rf' s' r e A B C D E.
  destruct (solve_converged M rf s s1 k rf' s' r e A B C D E) as (? & _ & ?); auto.
Qed.
Print Assumptions C66_flag_decides.

(** The flag after an iteration: whether the proposed point was evaluated without
    error; unchanged when no point is proposed. *)
Theorem C66_flag :
  forall F (NF : Num F) (IF : Inverter F) St EI EU (M : Model F St EI EU) rf s rf' s' r,
  iteration M rf s = Ret (rf', s', r) ->
  match r with
  | Err (JacobianError _) => rf_valid_last rf' = rf_valid_last rf
  | _ => exists rf1 s1 x s2 k,
           compute_step M (set_iter rf (S (rf_iter rf))) s = Ret (rf1, s1, Ok x) /\
           evaluate M (set_iteratives M s1 x) = Ret (s2, k) /\
           (rf_valid_last rf' = true <-> k = Ok tt)
  end.
Proof.
  intros F NF IF St EI EU M rf s rf' s' r H; apply iteration_inv in H.
  destruct H as (rf1 & s1 & [g|e] & HS & H).
  - apply update_model_inv in H; destruct H as (e & s2 & r1 & _ & EV & H).
    assert (Q : exists rf1 s1 x s2 k,
           compute_step M (set_iter rf (S (rf_iter rf))) s = Ret (rf1, s1, Ok x) /\
           evaluate M (set_iteratives M s1 x) = Ret (s2, k) /\
           (rf_valid_last rf' = true <-> k = Ok tt)).
    { exists rf1, s1, g, s2, r1; split; [exact HS|]; split; [exact EV|].
      destruct H as [(y & -> & -> & _)|(en & _ & _ & H)].
      - split; discriminate.
      - apply finish_update_inv in H; destruct H as (_ & _ & V & _); rewrite V; cbn [set_valid rf_valid_last].
        destruct r1 as [[]|]; split; congruence. }
    destruct H as [(y & _ & _ & _ & ->)|(en & -> & _)]; exact Q.
  - destruct H as (-> & _ & ->); apply compute_step_inv in HS; destruct HS as [HS _].
    apply same_but_jac_fields in HS; destruct HS as (_ & _ & V & _); exact V.
Qed.
Print Assumptions C66_flag.
