(** solver/parameters.rs, solver/default.rs, solver/log.rs, solver/rootfinder.rs *)
From Verif Require Import Base Num Linalg Residuals Iteratives UserModel Jacobian.

Section Solver.
Context {F : Type} {NF : Num F} {IF : Inverter F}.

(** solver/parameters.rs:47-53, 56-70 [SolverParameters], [new], and the
    getters 72-90 *)
Record solver_parameters := mkSolverParameters {
  sp_problem_size : nat;
  sp_tolerance : F;
  sp_max_iter : nat;
  sp_resolution_method : resolution_method;
  sp_damping : bool
}.

(** The contents of the log file, as a list of the writes made by
    solver/log.rs; the text of each write is produced in [Display.v].
    - [LHeader]: [SolverLog::new] (59-87);
    - [LParameters]: [add_parameters] (94-103);
    - [LIteration]: [add_new_iteration] (119-134);
    - [LDamping]: [add_damping] (105-118);
    - [LRecompute]: rootfinder.rs:474-478;
    - [LJacobian]: rootfinder.rs:492-497. *)
Inductive log_entry :=
| LHeader
| LParameters (p : solver_parameters) (its : list (iterative F)) (c : residuals_config)
| LIteration (iter : nat) (x : vec F) (v : residuals_values F) (errors : vec F)
| LDamping (x : vec F) (v : residuals_values F) (errors : vec F)
| LRecompute
| LJacobian (j : jacobian_matrix F).

(** solver/rootfinder.rs:24-48 [RootFinder] *)
Record rootfinder := mkRootFinder {
  rf_parameters : solver_parameters;
  rf_initial_guess : vec F;
  rf_iters_params : list (iterative F);
  rf_residuals_config : residuals_config;
  rf_debug : bool;
  rf_iter : nat;
  rf_log : option (list log_entry);
  rf_jacobian : jacobian_matrix F;
  rf_iteratives_step : option (vec F);
  rf_residuals_step : option (vec F);
  rf_residuals_current : option (vec F);
  rf_valid_last : bool
}.

(** Field assignments. rootfinder.rs:421. *)
Definition set_iter rf n := mkRootFinder (rf_parameters rf) (rf_initial_guess rf)
  (rf_iters_params rf) (rf_residuals_config rf) (rf_debug rf) n (rf_log rf)
  (rf_jacobian rf) (rf_iteratives_step rf) (rf_residuals_step rf)
  (rf_residuals_current rf) (rf_valid_last rf).
(** rootfinder.rs:146; the writes of log.rs:89-92. *)
Definition set_log rf l := mkRootFinder (rf_parameters rf) (rf_initial_guess rf)
  (rf_iters_params rf) (rf_residuals_config rf) (rf_debug rf) (rf_iter rf) l
  (rf_jacobian rf) (rf_iteratives_step rf) (rf_residuals_step rf)
  (rf_residuals_current rf) (rf_valid_last rf).
(** The [&mut self.jacobian] of rootfinder.rs:158-184, 234-254, 316. *)
Definition set_jacobian rf j := mkRootFinder (rf_parameters rf) (rf_initial_guess rf)
  (rf_iters_params rf) (rf_residuals_config rf) (rf_debug rf) (rf_iter rf) (rf_log rf)
  j (rf_iteratives_step rf) (rf_residuals_step rf)
  (rf_residuals_current rf) (rf_valid_last rf).
(** rootfinder.rs:350, 353, 356. *)
Definition set_valid rf b := mkRootFinder (rf_parameters rf) (rf_initial_guess rf)
  (rf_iters_params rf) (rf_residuals_config rf) (rf_debug rf) (rf_iter rf) (rf_log rf)
  (rf_jacobian rf) (rf_iteratives_step rf) (rf_residuals_step rf)
  (rf_residuals_current rf) b.
(** rootfinder.rs:380-382. *)
Definition set_steps rf s y c := mkRootFinder (rf_parameters rf) (rf_initial_guess rf)
  (rf_iters_params rf) (rf_residuals_config rf) (rf_debug rf) (rf_iter rf) (rf_log rf)
  (rf_jacobian rf) (Some s) (Some y) (Some c) (rf_valid_last rf).

(** solver/rootfinder.rs:59-111 [RootFinder::new] *)
Definition rootfinder_new (p : solver_parameters) (guess : vec F)
  (its : list (iterative F)) (conf : residuals_config) : outcome rootfinder :=
  if negb (Nat.eqb (residuals_config_len conf) (sp_problem_size p)) then Panic PanicDim
  else if negb (Nat.eqb (length guess) (sp_problem_size p)) then Panic PanicDim
  else if negb (Nat.eqb (length its) (sp_problem_size p)) then Panic PanicDim
  else Ret (mkRootFinder p guess its conf false 0 None jacobian_matrix_new
              None None None true).

(** solver/default.rs:63-90 [default_with_guess]; 1e-6 = 1/10^6 *)
Definition default_with_guess (guess : vec F) (its : list (iterative F))
  (conf : residuals_config) (m : resolution_method) (damping : bool)
  : outcome rootfinder :=
  rootfinder_new (mkSolverParameters (length guess) (ndec 1 1000000) 50 m damping)
    guess its conf.

(** solver/rootfinder.rs:144-147 [activate_debug]: the file is created
    (truncated) and the header written. *)
Definition activate_debug (rf : rootfinder) : rootfinder :=
  mkRootFinder (rf_parameters rf) (rf_initial_guess rf)
    (rf_iters_params rf) (rf_residuals_config rf) true (rf_iter rf) (Some [LHeader])
    (rf_jacobian rf) (rf_iteratives_step rf) (rf_residuals_step rf)
    (rf_residuals_current rf) (rf_valid_last rf).

(** One write to the log file: [self.solver_log.as_ref().unwrap().add_...].
    rootfinder.rs:452-497, log.rs:89-92. *)
Definition write_log (rf : rootfinder) (e : log_entry) : outcome rootfinder :=
  l <- unwrap (rf_log rf) ;;
  Ret (set_log rf (Some (l ++ [e]))).

(** [if self.debug { ... }]. rootfinder.rs:195, 224, 259, 317, 328, 362, 411. *)
Definition when_debug (rf : rootfinder) (k : outcome rootfinder) : outcome rootfinder :=
  if rf_debug rf then k else Ret rf.

(** solver/rootfinder.rs:452-458 [parameters_to_log]; the [Display] of
    [Iteratives] (iteratives_base.rs:92-156) reads entry 0 and panics when there
    is none. *)
Definition parameters_to_log (rf : rootfinder) : outcome rootfinder :=
  _ <- unwrap (rf_log rf) ;;
  _ <- index (rf_iters_params rf) 0 ;;
  write_log rf (LParameters (rf_parameters rf) (rf_iters_params rf)
                  (rf_residuals_config rf)).

(** solver/rootfinder.rs:474-478 and 492-497 *)
Definition recompute_jacobian_to_log (rf : rootfinder) : outcome rootfinder :=
  write_log rf LRecompute.
(** solver/rootfinder.rs:492-497. *)
Definition jac_to_log (rf : rootfinder) : outcome rootfinder :=
  write_log rf (LJacobian (rf_jacobian rf)).

Context {St EI EU : Type} (M : Model F St EI EU).

(** solver/rootfinder.rs:460-472 and 480-490 *)
Definition iteration_to_log (rf : rootfinder) (s : St) (errors : vec F)
  : outcome rootfinder :=
  v <- get_residuals M s ;;
  write_log rf (LIteration (rf_iter rf) (get_iteratives M s) v errors).
(** solver/rootfinder.rs:480-490. *)
Definition damping_to_log (rf : rootfinder) (s : St) (errors : vec F)
  : outcome rootfinder :=
  v <- get_residuals M s ;;
  write_log rf (LDamping (get_iteratives M s) v errors).

(** solver/rootfinder.rs:149-156 [evaluate_errors] *)
Definition evaluate_errors (rf : rootfinder) (s : St) : outcome (vec F) :=
  v <- get_residuals M s ;;
  evaluate_stopping_residuals (rf_residuals_config rf) v.

(** solver/rootfinder.rs:158-184 [compute_jac] *)
Definition compute_jac (rf : rootfinder) (s : St)
  : outcome (rootfinder * St * result unit (solver_internal_error EI EU)) :=
  '(j, s1, r) <-
    (if jacobian_provided M s
     then evaluate_jacobian_from_analytical_function M (rf_jacobian rf) s
            (rf_residuals_config rf)
     else evaluate_jacobian_from_finite_difference M (rf_jacobian rf) s
            (rf_iters_params rf) (rf_residuals_config rf)) ;;
  Ret (set_jacobian rf j, s1,
       match r with
       | Ok _ | Err (InvalidJacobianError (InaccurateValuesError _)) => Ok tt
       | Err e => Err e
       end).

(** solver/rootfinder.rs:285-298 [compute_next_from_inv_jac] *)
Definition compute_next_from_inv_jac (rf : rootfinder) (s : St) : outcome (vec F) :=
  v <- get_residuals M s ;;
  residuals <- evaluate_update_residuals (rf_residuals_config rf) v ;;
  inv <- unwrap (jm_inverse (rf_jacobian rf)) ;;
  raw_step <- mat_vec_chk (mat_neg inv) residuals ;;
  step_limitations (rf_iters_params rf) (get_iteratives M s) raw_step.

(** solver/rootfinder.rs:186-202 [compute_newton_raphson_step] *)
Definition compute_newton_raphson_step (rf : rootfinder) (s : St)
  : outcome (rootfinder * St * result (vec F) (solver_internal_error EI EU)) :=
  '(rf1, s1, r) <- compute_jac rf s ;;
  rf2 <- when_debug rf1 (jac_to_log rf1) ;;
  match r with
  | Ok _ => next <- compute_next_from_inv_jac rf2 s1 ;; Ret (rf2, s1, Ok next)
  | Err e => Ret (rf2, s1, Err e)
  end.

(** solver/rootfinder.rs:230-257, the branch without jacobian computation *)
Definition approximate_step (rf : rootfinder) (m : quasi_newton_method)
  : outcome (rootfinder * bool) :=
  match m with
  | StationaryNewton => Ret (rf, true)
  | JacobianUpdate um =>
      s <- unwrap (rf_iteratives_step rf) ;;
      y <- unwrap (rf_residuals_step rf) ;;
      c <- unwrap (rf_residuals_current rf) ;;
      '(j, ok) <- approximate_jacobian (rf_jacobian rf) um s y c ;;
      Ret (set_jacobian rf j, ok)
  | InverseJacobianUpdate um =>
      s <- unwrap (rf_iteratives_step rf) ;;
      y <- unwrap (rf_residuals_step rf) ;;
      c <- unwrap (rf_residuals_current rf) ;;
      j <- approximate_inv_jacobian (rf_jacobian rf) um s y c ;;
      Ret (set_jacobian rf j, true)
  end.

(** solver/rootfinder.rs:210-264 [evaluate_jacobian_quasi_newton_step] *)
Definition evaluate_jacobian_quasi_newton_step (rf : rootfinder) (s : St)
  (m : quasi_newton_method)
  : outcome (rootfinder * St * result unit (solver_internal_error EI EU)) :=
  if jm_compute_at_next (rf_jacobian rf) then
    '(rf1, s1, r) <- compute_jac rf s ;;
    rf2 <- when_debug rf1 (jac_to_log rf1) ;;
    Ret (rf2, s1, r)
  else
    '(rf1, ok) <- approximate_step rf m ;;
    if ok : bool then
      rf2 <- when_debug rf1 (jac_to_log rf1) ;;
      Ret (rf2, s, Ok tt)
    else Ret (rf1, s, Err InvalidJacobianInverseError).

(** solver/rootfinder.rs:266-283 [compute_quasi_newton_step] *)
Definition compute_quasi_newton_step (rf : rootfinder) (s : St)
  (m : quasi_newton_method)
  : outcome (rootfinder * St * result (vec F) (solver_internal_error EI EU)) :=
  '(rf1, s1, r) <- evaluate_jacobian_quasi_newton_step rf s m ;;
  match r with
  | Ok _ => next <- compute_next_from_inv_jac rf1 s1 ;; Ret (rf1, s1, Ok next)
  | Err e => Ret (rf1, s1, Err e)
  end.

(** [method != NewtonRaphson] (rootfinder.rs:313) *)
Definition is_quasi_newton (m : resolution_method) : bool :=
  match m with
  | NewtonRaphson => false
  | QuasiNewton _ => true
  end.

(** The damping factor 1.0 / 2.0 and the damped guess, rootfinder.rs:321-323 *)
Definition damping_factor : F := ndiv n1 n2.
(** rootfinder.rs:322-323. *)
Definition damped_guess (current proposed : vec F) : outcome (vec F) :=
  vadd (vscale current (nsub n1 damping_factor)) (vscale proposed damping_factor).

(** solver/rootfinder.rs:300-333 [damping]; returns the new [errors_next]. *)
Definition damping (rf : rootfinder) (s : St) (max_error : F)
  (current_guess proposed_guess errors_next : vec F)
  : outcome (rootfinder * St * vec F) :=
  if ngtb (amax errors_next) max_error then
    if is_quasi_newton (sp_resolution_method (rf_parameters rf))
       && jm_approximated (rf_jacobian rf) then
      let rf1 := set_jacobian rf (force_jacobian_computation (rf_jacobian rf)) in
      rf2 <- when_debug rf1 (recompute_jacobian_to_log rf1) ;;
      Ret (rf2, s, errors_next)
    else
      damped <- damped_guess current_guess proposed_guess ;;
      '(s1, r) <- evaluate M (set_iteratives M s damped) ;;
      match r with
      | Err _ => Panic PanicUnwrapErr
      | Ok _ =>
          errors <- evaluate_errors rf s1 ;;
          rf1 <- when_debug rf (damping_to_log rf s1 errors) ;;
          Ret (rf1, s1, errors)
      end
  else Ret (rf, s, errors_next).

(** solver/rootfinder.rs:376-384, the placeholders of the quasi-Newton methods *)
Definition store_steps (rf : rootfinder) (s : St) (current_guess errors errors_next : vec F)
  : outcome rootfinder :=
  match sp_resolution_method (rf_parameters rf) with
  | NewtonRaphson => Ret rf
  | QuasiNewton StationaryNewton => Ret rf
  | QuasiNewton _ =>
      ds <- vsub (get_iteratives M s) current_guess ;;
      dy <- vsub errors_next errors ;;
      Ret (set_steps rf ds dy errors_next)
  end.

(** solver/rootfinder.rs:360-386, the end of [update_model] once the proposed
    guess has been evaluated *)
Definition finish_update (rf : rootfinder) (s : St)
  (errors current_guess proposed_guess : vec F)
  : outcome (rootfinder * St * vec F) :=
  errors_next <- evaluate_errors rf s ;;
  rf1 <- when_debug rf (iteration_to_log rf s errors_next) ;;
  '(rf2, s2, errors_next2) <-
    (if sp_damping (rf_parameters rf1)
     then damping rf1 s (amax errors) current_guess proposed_guess errors_next
     else Ret (rf1, s, errors_next)) ;;
  rf3 <- store_steps rf2 s2 current_guess errors errors_next2 ;;
  Ret (rf3, s2, errors_next2).

(** solver/rootfinder.rs:335-387 [update_model] *)
Definition update_model (rf : rootfinder) (s : St) (proposed_guess : vec F)
  : outcome (rootfinder * St * result (vec F) (solver_error EI EU)) :=
  errors <- evaluate_errors rf s ;;
  let current_guess := get_iteratives M s in
  '(s1, r) <- evaluate M (set_iteratives M s proposed_guess) ;;
  match r with
  | Ok _ =>
      '(rf1, s2, e) <- finish_update (set_valid rf true) s1 errors current_guess
                         proposed_guess ;;
      Ret (rf1, s2, Ok e)
  | Err (InaccurateValuesError _) =>
      '(rf1, s2, e) <- finish_update (set_valid rf false) s1 errors current_guess
                         proposed_guess ;;
      Ret (rf1, s2, Ok e)
  | Err (UnusableValuesError e) =>
      Ret (set_valid rf false, s1, Err (ModelEvaluationError (UnusableValuesError e)))
  end.

(** solver/rootfinder.rs:423-428, the proposed guess of an iteration *)
Definition compute_step (rf : rootfinder) (s : St)
  : outcome (rootfinder * St * result (vec F) (solver_internal_error EI EU)) :=
  match sp_resolution_method (rf_parameters rf) with
  | NewtonRaphson => compute_newton_raphson_step rf s
  | QuasiNewton m => compute_quasi_newton_step rf s m
  end.

(** solver/rootfinder.rs:421-438, the body of the loop *)
Definition iteration (rf : rootfinder) (s : St)
  : outcome (rootfinder * St * result (vec F) (solver_error EI EU)) :=
  '(rf1, s1, r) <- compute_step (set_iter rf (S (rf_iter rf))) s ;;
  match r with
  | Ok proposed_guess => update_model rf1 s1 proposed_guess
  | Err e => Ret (rf1, s1, Err (JacobianError e))
  end.

(** solver/rootfinder.rs:418-441, the loop: [max_error] is the current error;
    the returned value is the [max_error] at the exit. *)
Fixpoint iterate (fuel : nat) (rf : rootfinder) (s : St) (max_error : F)
  : outcome (rootfinder * St * result F (solver_error EI EU)) :=
  match fuel with
  | O => Panic PanicFuel
  | S fuel' =>
      if ngtb max_error (sp_tolerance (rf_parameters rf))
         && Nat.ltb (rf_iter rf) (sp_max_iter (rf_parameters rf))
      then
        '(rf1, s1, r) <- iteration rf s ;;
        match r with
        | Ok errors => iterate fuel' rf1 s1 (amax errors)
        | Err e => Ret (rf1, s1, Err e)
        end
      else Ret (rf, s, Ok max_error)
  end.

(** solver/rootfinder.rs:443-449, the verdict *)
Definition verdict (rf : rootfinder) (max_error : F) : result unit (solver_error EI EU) :=
  if ngtb max_error (sp_tolerance (rf_parameters rf)) then Err NonConvergenceError
  else if rf_valid_last rf then Ok tt
  else Err FinalEvaluationError.

(** solver/rootfinder.rs:408-450, [solve] after the initial evaluation. The
    loop runs at most [max_iter] times, so [S max_iter] is enough fuel. *)
Definition solve_from (rf : rootfinder) (s : St)
  : outcome (rootfinder * St * result unit (solver_error EI EU)) :=
  errors <- evaluate_errors rf s ;;
  rf1 <- when_debug rf (rf' <- parameters_to_log rf ;; iteration_to_log rf' s errors) ;;
  '(rf2, s2, r) <- iterate (S (sp_max_iter (rf_parameters rf1))) rf1 s (amax errors) ;;
  Ret (rf2, s2, match r with
                | Ok max_error => verdict rf2 max_error
                | Err e => Err e
                end).

(** solver/rootfinder.rs:390-450 [solve] *)
Definition solve (rf : rootfinder) (s : St)
  : outcome (rootfinder * St * result unit (solver_error EI EU)) :=
  '(s1, r) <- evaluate M (set_iteratives M s (rf_initial_guess rf)) ;;
  match r with
  | Ok _ | Err (InaccurateValuesError _) => solve_from rf s1
  | Err (UnusableValuesError e) =>
      Ret (rf, s1, Err (ModelInitialEvaluationError (show_unusable M e)))
  end.

End Solver.

Arguments solver_parameters F : clear implicits.
Arguments log_entry F : clear implicits.
Arguments rootfinder F : clear implicits.
