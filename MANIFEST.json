{
 "claims": [
  {
   "property": "C01",
   "status": "proved",
   "theorems": [
    "C01_success_within_tolerance"
   ],
   "note": "Every model, method, starting solver state; IEEE doubles."
  },
  {
   "property": "C02",
   "status": "partial",
   "theorems": [
    "C02_nan_never_success_refuted",
    "C01_success_within_tolerance"
   ],
   "note": "REFUTED as stated: a NaN stopping residual is skipped by the max norm and success is reported. With no NaN residual it is C01."
  },
  {
   "property": "C03",
   "status": "partial",
   "theorems": [
    "C03_success_means_valid_evaluation_refuted",
    "C03_success_after_an_iteration"
   ],
   "note": "REFUTED when no iteration is made (the initial evaluation may be inaccurate and success is reported); proved as soon as one iteration has been performed, all models and methods."
  },
  {
   "property": "C04",
   "status": "partial",
   "theorems": [
    "C04_final_evaluation_error_refuted",
    "C04_final_evaluation_error",
    "C04_final_evaluation_error_undamped"
   ],
   "note": "REFUTED with damping (the evaluation of the damped point hides the flag); the criterion is always met and, without damping, the last evaluation was inaccurate."
  },
  {
   "property": "C05",
   "status": "proved",
   "theorems": [
    "C05_nonconvergence",
    "C05_nonconvergence_converse"
   ],
   "note": "NonConvergenceError iff a verdict is reached with the max norm above tolerance."
  },
  {
   "property": "C06",
   "status": "proved",
   "theorems": [
    "C06_terminates",
    "C06_iterations_bounded"
   ],
   "note": "Fresh solver and every later call in its history."
  },
  {
   "property": "C07",
   "status": "partial",
   "theorems": [
    "C07_second_solve_refuted",
    "C07_second_solve_quasi_newton_refuted",
    "C07_second_solve_newton_raphson"
   ],
   "note": "REFUTED as stated: the iteration counter, the jacobian and the validity flag are not reset (two witnesses: budget exhausted; quasi-Newton ends elsewhere). Newton-Raphson with enough budget left: proved."
  },
  {
   "property": "C08",
   "status": "proved",
   "theorems": [
    "C08_left_evaluated",
    "C08_final_state_is_an_evaluation"
   ],
   "note": ""
  },
  {
   "property": "C09",
   "status": "proved",
   "theorems": [
    "C09_zero_iterations"
   ],
   "note": ""
  },
  {
   "property": "C10",
   "status": "proved",
   "theorems": [
    "C10_evaluation_count"
   ],
   "note": ""
  },
  {
   "property": "C11",
   "status": "proved",
   "theorems": [
    "C11_unusable_initial_evaluation",
    "C11_only_then",
    "C11_inaccurate_initial_evaluation"
   ],
   "note": ""
  },
  {
   "property": "C12",
   "status": "partial",
   "theorems": [
    "C12_unusable_recovered_refuted",
    "C12_unusable_aborts"
   ],
   "note": "REFUTED: the resolution aborts; that behaviour is proved for every model."
  },
  {
   "property": "C13",
   "status": "proved",
   "theorems": [
    "C13_inaccuracy_is_harmless_undamped",
    "C13_inaccuracy_is_harmless_or_stops",
    "C13_inaccuracy_is_harmless_refuted"
   ],
   "note": "Proved as stated (damping off) for every model, choice of inaccurate calls and solver state. Beyond the statement, with damping: the run is the same or stops with the panic of the damping (C13_inaccuracy_is_harmless_or_stops); that it never stops is refuted (the evaluation of the damped point may not be inaccurate)."
  },
  {
   "property": "C14",
   "status": "partial",
   "theorems": [
    "C14_inaccurate_is_recoverable_refuted",
    "C14_inaccurate_jacobian_panics"
   ],
   "note": "REFUTED: both cases panic; the panic is proved in general."
  },
  {
   "property": "C15",
   "status": "proved",
   "theorems": [
    "C15_no_panic",
    "C15_no_panic_ready",
    "C15_no_panic_again",
    "C15_adapters",
    "C15_second_resolution_refuted"
   ],
   "note": "A well-formed problem never panics, for every model, method and damping, up to the size zero in debug mode and the recorded non-finite perturbation cases which are explicit hypotheses. C15_second_resolution_refuted shows the limit of the claim: a second solve on the same RootFinder after a model failure in the first iteration panics with a Broyden method."
  },
  {
   "property": "C16",
   "status": "proved",
   "theorems": [
    "C16_new",
    "C16_default"
   ],
   "note": "RootFinder::new returns exactly on consistent lengths; default_with_guess fixes size, tolerance 1e-6 (bit pattern) and 50 iterations."
  },
  {
   "property": "C17",
   "status": "proved",
   "theorems": [
    "C17_not_invertible_is_reported",
    "C17_reported_only_then"
   ],
   "note": "Computed, finite-difference and updated jacobians; inverse updates do not invert."
  },
  {
   "property": "C18",
   "status": "proved",
   "theorems": [
    "C18_step_limitation_in_box",
    "C18_proposed_iterate_in_box"
   ],
   "note": "For all doubles, NaN included; lifted to the iterate proposed by every iteration of every run."
  },
  {
   "property": "C19",
   "status": "partial",
   "theorems": [
    "C19_never_outside_refuted",
    "C19_inside_without_finite_differences",
    "C19_inside_with_damping",
    "C19_finite_differences",
    "C19_excess"
   ],
   "note": "REFUTED as stated: the finite differences evaluate the model beyond max_value. Corrected theorems: with an analytical jacobian all evaluated points are in the box (no damping, or damping and bounds that are infinite on one side at most and otherwise exactly halvable); with finite differences and no damping every point is in the box or is a point of the box with one variable moved by its perturbation; with finite differences and damping no variable goes below its minimum nor further above its maximum than a computed margin (room, reach), for finite bounds."
  },
  {
   "property": "C20",
   "status": "partial",
   "theorems": [
    "C20_limits_respected_refuted",
    "C20_limits_respected",
    "C20_small_steps_kept"
   ],
   "note": "REFUTED at v = +-infinity (v - inf is NaN). Proved for every finite v and every raw step that is not NaN, infinite included."
  },
  {
   "property": "C21",
   "status": "proved",
   "theorems": [
    "C21_default_limits"
   ],
   "note": "Bit-for-bit equality."
  },
  {
   "property": "C22",
   "status": "proved",
   "theorems": [
    "C22_nan_step",
    "C22_never_nan"
   ],
   "note": "With a run whose second evaluation point is -infinity as example."
  },
  {
   "property": "C23",
   "status": "partial",
   "theorems": [
    "C23_constructors_refuted",
    "C23_constructors_accept_nan",
    "C23_new",
    "C23_fd_extend",
    "C23_fd_new"
   ],
   "note": "REFUTED for NaN, which all constructors accept; exact characterisation proved for all other doubles."
  },
  {
   "property": "C24",
   "status": "partial",
   "theorems": [
    "C24_positive_refuted",
    "C24_positive",
    "C24_default_effective"
   ],
   "note": "REFUTED for the sum rule with dx_rel = inf at x = 0 (NaN). Proved: positive for the max rule and for finite dx_rel; the default perturbation is never absorbed, for every finite x."
  },
  {
   "property": "C25",
   "status": "partial",
   "theorems": [
    "C25_pure_rule_refuted",
    "C25_zero_rejected",
    "C25_rule_of_the_formula"
   ],
   "note": "REFUTED: the constructors panic on the documented zero values. The rule itself follows from the formula."
  },
  {
   "property": "C26",
   "status": "proved",
   "theorems": [
    "C26_entries",
    "C26_stored"
   ],
   "note": "Every arithmetic (any instance of the scalar interface), any size. The formula of entry (i,j) involves only column j, so no order of the columns matters."
  },
  {
   "property": "C27",
   "status": "partial",
   "theorems": [
    "C27_computed_jacobian",
    "C27_approximated_jacobian",
    "C27_rounding_refuted"
   ],
   "note": "Proved in exact arithmetic, for analytical, finite-difference and approximated jacobians and every normalization: although finite differences leave the model at x + dx_n e_n, the step proposed from there is x - J^-1 F(x). REFUTED on doubles (C27_rounding_refuted): the proposed point loses x when dx is large."
  },
  {
   "property": "C28",
   "status": "proved",
   "theorems": [
    "C28_derivative",
    "C28_matrix"
   ],
   "note": "Exact real arithmetic; derivative in the sense of the standard library (derivable_pt_lim)."
  },
  {
   "property": "C29",
   "status": "proved",
   "theorems": [
    "C29_affine"
   ],
   "note": "Exact arithmetic, for every model whose left minus right is affine."
  },
  {
   "property": "C30",
   "status": "proved",
   "theorems": [
    "C30_affine",
    "C30_solved_in_one_iteration"
   ],
   "note": "Exact arithmetic, for every model with affine residuals and for the four adapters; all methods, with and without damping."
  },
  {
   "property": "C31",
   "status": "proved",
   "theorems": [
    "C31_jacobian_secant",
    "C31_inverse_secant"
   ],
   "note": "At the level of approximate_jacobian / approximate_inv_jacobian, exact real arithmetic, any size, the four methods, denominator not zero."
  },
  {
   "property": "C32",
   "status": "proved",
   "theorems": [
    "C32_forms_agree",
    "C32_zero_denominator_is_reported"
   ],
   "note": "The jacobian form never fails when both denominators are non-zero and its LU inverse is the matrix of the inverse form; when only the denominator of the inverse form is zero, the jacobian form reports a non-invertible jacobian."
  },
  {
   "property": "C33",
   "status": "proved",
   "theorems": [
    "C33_jacobian_least_change",
    "C33_inverse_least_change",
    "C33_broyden_frobenius"
   ],
   "note": "Direction s, J^T y, J^T c, H y in the jacobian forms and H^T s, y, c, H^T H y in the inverse forms; plus minimality in the Frobenius norm for Broyden 1 (jacobian form) and Broyden 2 (inverse form)."
  },
  {
   "property": "C34",
   "status": "partial",
   "theorems": [
    "C34_documented_pair_refuted",
    "C34_stored_pair"
   ],
   "note": "REFUTED: y is the difference of the absolute stopping residuals, taken from the last perturbed point after a finite-difference jacobian; the pair actually stored is characterised for every model."
  },
  {
   "property": "C35",
   "status": "proved",
   "theorems": [
    "C35_newton_raphson",
    "C35_quasi_newton_undamped",
    "C35_recomputation"
   ],
   "note": ""
  },
  {
   "property": "C36",
   "status": "proved",
   "theorems": [
    "C36_damping",
    "C36_half"
   ],
   "note": "The stationary Newton method also damps in later iterations (see C37)."
  },
  {
   "property": "C37",
   "status": "partial",
   "theorems": [
    "C37_no_damping_without_new_jacobian_refuted",
    "C37_update_methods"
   ],
   "note": "REFUTED for the stationary Newton method; proved for the eight update methods."
  },
  {
   "property": "C38",
   "status": "partial",
   "theorems": [
    "C38_refused_iterate_forgotten_refuted",
    "C38_refused_iterate_kept"
   ],
   "note": "REFUTED: the refused iterate stays in the model; proved for every model."
  },
  {
   "property": "C39",
   "status": "proved",
   "theorems": [
    "C39_between",
    "C39_bounds_kept",
    "C39_halvable",
    "C39_without_condition_refuted"
   ],
   "note": "For exactly halvable doubles as stated, bounds infinite on one side included; the condition is shown necessary (smallest subnormal). Bounds are kept for arbitrary points when only the bounds are halvable."
  },
  {
   "property": "C40",
   "status": "proved",
   "theorems": [
    "C40_debug_changes_nothing"
   ],
   "note": ""
  },
  {
   "property": "C41",
   "status": "proved",
   "theorems": [
    "C41_log"
   ],
   "note": "The contents of the writes; their text is in Display.v."
  },
  {
   "property": "C42",
   "status": "proved",
   "theorems": [
    "C42_abs",
    "C42_adapt",
    "C42_rel",
    "C42_rel_zero",
    "C42_swap"
   ],
   "note": "Stronger than stated: Abs needs no overflow condition, the Adapt quotient never underflows to zero, Rel is zero exactly on non-zero solutions."
  },
  {
   "property": "C43",
   "status": "proved",
   "theorems": [
    "C43_stopping_residuals_are_magnitudes",
    "C43_same_method",
    "C43_swap_members"
   ],
   "note": ""
  },
  {
   "property": "C44",
   "status": "proved",
   "theorems": [
    "C44_sizes"
   ],
   "note": "Exact real arithmetic."
  },
  {
   "property": "C45",
   "status": "partial",
   "theorems": [
    "C45_every_equation_counts_refuted",
    "C45_described_equations_count"
   ],
   "note": "REFUTED for a configuration shorter than the residuals (extra equations ignored); proved when the configuration describes every equation."
  },
  {
   "property": "C46",
   "status": "proved",
   "theorems": [
    "C46_adapters",
    "C46_closures_as_functions"
   ],
   "note": ""
  },
  {
   "property": "C47",
   "status": "proved",
   "theorems": [
    "C47_only_function_and_guess"
   ],
   "note": ""
  },
  {
   "property": "C48",
   "status": "proved",
   "theorems": [
    "C48_finite_differences",
    "C48_jacobian",
    "C48_numbers",
    "C48_finite_differences_text",
    "C48_jacobian_text",
    "read_printed",
    "C48_displayed_numbers"
   ],
   "note": "For every way of writing numbers that parse::<f64> reads back (exact decimal expansions are one: C48_numbers), with all attributes on each child or only those that differ from the section's defaults; on element trees, and on texts through a reader for the part of XML the files use."
  },
  {
   "property": "C49",
   "status": "proved",
   "theorems": [
    "C49_finite_differences",
    "C49_jacobian",
    "fd_document",
    "jac_document"
   ],
   "note": "fd_document/jac_document: the parser returns a configuration exactly when the document says it."
  },
  {
   "property": "C50",
   "status": "partial",
   "theorems": [
    "C50_finite_differences",
    "C50_jacobian",
    "C50_nan_limit_refuted",
    "C50_documented_example",
    "read_writable",
    "read_comment"
   ],
   "note": "Rejected exactly when malformed (iff), where a limit is invalid when it compares as such. REFUTED for limits that are not numbers: C50_nan_limit_refuted. A fourth section and ids such as +0 are accepted; the documentation's own example (resolution_method=\"NewtonRaphson\") is rejected."
  },
  {
   "property": "C51",
   "status": "proved",
   "theorems": [
    "C51_finite_differences",
    "C51_jacobian"
   ],
   "note": ""
  },
  {
   "property": "C52",
   "status": "partial",
   "theorems": [
    "C52_texts",
    "C52_texts_identify",
    "C52_nodes",
    "C52_log_refuted",
    "C52_log_partial",
    "C52_documented_text_refuted"
   ],
   "note": "The accepted texts and the methods are in bijection (proved). REFUTED for the log: the Display text is the same for the update of the jacobian and the update of its inverse; C52_log_partial shows nothing else is lost. The text of the documentation example is not accepted."
  },
  {
   "property": "C53",
   "status": "proved",
   "theorems": [
    "C53_identifies",
    "C53_injective",
    "C53_contains",
    "C53_initial",
    "C53_texts"
   ],
   "note": ""
  },
  {
   "property": "C54",
   "status": "proved",
   "theorems": [
    "C54_restored",
    "C54_same_memory",
    "C54_next_iterate",
    "C54_damped_point_refuted"
   ],
   "note": "The next iterate is covered when the iteration does not damp. C54_damped_point_refuted: a damped point is evaluated from the memory left by the refused point, because memory is not given back in damping()."
  },
  {
   "property": "C55",
   "status": "proved",
   "theorems": [
    "C55_converges",
    "C55_monotone"
   ],
   "note": "With an explicit iteration bound (x0 - r) f'(x0) / tolerance; with and without damping."
  },
  {
   "property": "C56",
   "status": "proved",
   "theorems": [
    "C56_solver1d",
    "C56_solver1d_fd"
   ],
   "note": "Iterates are compared through runs of every budget. Where the derivative vanishes solver1d divides by zero and solve reports the singular jacobian. Also solver1d_fd against finite differences with a constant perturbation."
  },
  {
   "property": "C57",
   "status": "proved",
   "theorems": [
    "C57_cases_5_to_8",
    "C57_case_9",
    "C57_case_10",
    "C57_polynomials"
   ],
   "note": "Exact real arithmetic; cases 5 to 8 for every dimension at least 2; also the two polynomials of polynom.rs."
  },
  {
   "property": "C58",
   "status": "partial",
   "theorems": [
    "C58_nan_tolerance_refuted",
    "C58_nan_tolerance_disables_the_solver"
   ],
   "note": "REFUTED: a NaN tolerance passes the constructor; consequence proved."
  },
  {
   "property": "C59",
   "status": "proved",
   "theorems": [
    "C59_max_norm",
    "C59_max_norm_of_nothing"
   ],
   "note": ""
  },
  {
   "property": "C60",
   "status": "proved",
   "theorems": [
    "C60_inverse",
    "C60_fails_only_on_singular"
   ],
   "note": "Exact real arithmetic; LU with partial pivoting and general size. The LU algorithm of nalgebra (partial pivoting) is transcribed in Linalg.v from knowledge of the library, whose source is not available here."
  },
  {
   "property": "C61",
   "status": "proved",
   "theorems": [
    "C61_solutions_are_roots",
    "C61_case_10_singular"
   ],
   "note": "Exact real arithmetic with the standard library square root."
  },
  {
   "property": "C62",
   "status": "proved",
   "theorems": [
    "C62_newton_method"
   ],
   "note": "Every size; the path of iterates is given by an inductive predicate stated with sums, not with the model's operations."
  },
  {
   "property": "C63",
   "status": "proved",
   "theorems": [
    "C63_new",
    "C63_solve",
    "C63_exact",
    "C63_text"
   ],
   "note": ""
  },
  {
   "property": "C64",
   "status": "partial",
   "theorems": [
    "C64_shown",
    "C64_partial",
    "C64_finite_difference_refuted"
   ],
   "note": "REFUTED with finite differences: when a perturbed evaluation is unusable, Newton-Raphson writes the matrix of the iteration before. Holds for successful steps, analytical jacobians and failed inversions."
  },
  {
   "property": "C65",
   "status": "partial",
   "theorems": [
    "C65_finite_difference_refuted",
    "C65_nan_step_refuted",
    "C65_analytic_partial",
    "C65_damped_partial",
    "C65_box"
   ],
   "note": "REFUTED with finite differences (the limits are taken around the last perturbed point) and for a NaN raw step (the variable goes to min_value). Proved for analytical jacobians, for each variable whose raw step is a number: without damping, and with damping when the current and proposed values are not subnormal."
  },
  {
   "property": "C66",
   "status": "partial",
   "theorems": [
    "C66_own_evaluation_refuted",
    "C66_failure_is_remembered",
    "C66_flag_decides",
    "C66_flag"
   ],
   "note": "REFUTED: the validity flag is only written by iterations and is not reset by solve. After a solve stopped by an unusable evaluation, every later solve that starts at a solution returns FinalEvaluationError; the evaluation of the guess plays no part. Proved: what the flag is, and that it alone decides."
  },
  {
   "property": "C67",
   "status": "proved",
   "theorems": [
    "C67_quadratic_convergence",
    "C67_converges"
   ],
   "note": ""
  },
  {
   "property": "C68",
   "status": "proved",
   "theorems": [
    "C68_linear_convergence"
   ],
   "note": ""
  },
  {
   "property": "C69",
   "status": "proved",
   "theorems": [
    "C69_stationary_newton",
    "C69_stationary_newton_fd"
   ],
   "note": ""
  },
  {
   "property": "C70",
   "status": "proved",
   "theorems": [
    "C70_secant_method",
    "C70_converges"
   ],
   "note": ""
  },
  {
   "property": "C71",
   "status": "partial",
   "theorems": [
    "C71_local_convergence_refuted",
    "C71_moves_away"
   ],
   "note": "REFUTED: the updates use the magnitudes of the residuals (evaluate_stopping_residuals) for the difference of residuals, so where the residuals are negative the secant step has the wrong sign. For every strictly increasing function started below its root each iterate after the Newton step is further from the root than the one before, and the solve returns NonConvergenceError for every budget (C71_moves_away). Where the residuals stay positive: C70."
  },
  {
   "property": "C72",
   "status": "partial",
   "theorems": [
    "C72_same_iterates",
    "C72_same_run",
    "C72_same_run_damped",
    "C72_quasi_newton_refuted"
   ],
   "note": "Proved for Newton-Raphson with the analytical jacobian; with damping for exchanged equations and signs (a combination changes the errors damping compares). REFUTED for the quasi-Newton updates: each solves x^2 = 2 from 2 within 50 iterations but not the same equation written 2 = x^2 (executed on doubles)."
  },
  {
   "property": "C73",
   "status": "proved",
   "theorems": [
    "C73_budget"
   ],
   "note": "Debug off; with debugging the run is the same by C40."
  },
  {
   "property": "C74",
   "status": "partial",
   "theorems": [
    "C74_tolerance",
    "C74_success_refuted"
   ],
   "note": "REFUTED for Ok alone: the larger tolerance may be met first at an iterate whose values were reported inaccurate, which gives FinalEvaluationError. Proved: prefix of the calls, no more iterations, Ok or FinalEvaluationError stays one of these, every other verdict is unchanged."
  },
  {
   "property": "C75",
   "status": "proved",
   "theorems": [
    "C75_resume"
   ],
   "note": "The condition on the model (repeatable) holds of the four adapters (adapters_repeatable)."
  },
  {
   "property": "C76",
   "status": "partial",
   "theorems": [
    "C76_errors_never_increase_refuted",
    "C76_increase_partial"
   ],
   "note": "REFUTED: the step is halved once and the errors of the half step are not compared. Proved: an increase only occurs at such a half step, after an increase at the full step."
  },
  {
   "property": "C77",
   "status": "proved",
   "theorems": [
    "C77_log",
    "C77_same_text"
   ],
   "note": ""
  },
  {
   "property": "C78",
   "status": "partial",
   "theorems": [
    "C78_parameters_refuted",
    "C78_points",
    "C78_variables",
    "C78_variables_fd",
    "C78_residuals",
    "C78_matrices"
   ],
   "note": "REFUTED for the table of the parameters, whose second column is one character too wide whatever the parameters. Proved for all other tables and for the matrices."
  },
  {
   "property": "C79",
   "status": "partial",
   "theorems": [
    "C79_residual_name_refuted",
    "C79_finite_differences",
    "C79_jacobian",
    "C79_text"
   ],
   "note": "REFUTED: a child of residuals with another name than residual is refused with a message asking for residuals, even if it is called residuals. Proved for all other messages."
  },
  {
   "property": "C80",
   "status": "proved",
   "theorems": [
    "C80_layout",
    "C80_same",
    "C80_characters"
   ],
   "note": ""
  },
  {
   "property": "C81",
   "status": "proved",
   "theorems": [
    "C81_numbers",
    "C81_integers"
   ],
   "note": ""
  },
  {
   "property": "C82",
   "status": "proved",
   "theorems": [
    "C82_shortest",
    "C82_others"
   ],
   "note": "On the model of the Rust formatting of f64; agreement of the model with Rust is checked on the reference log only."
  },
  {
   "property": "C83",
   "status": "proved",
   "theorems": [
    "C83_solve",
    "C83_new",
    "C83_told",
    "C83_same_text"
   ],
   "note": ""
  },
  {
   "property": "C84",
   "status": "proved",
   "theorems": [
    "C84_defaults",
    "C84_cannot_converge"
   ],
   "note": "C84_cannot_converge: the example which cannot be solved is never reported as solved, for every function in the place of the cosine."
  },
  {
   "property": "C85",
   "status": "proved",
   "theorems": [
    "C85_newton",
    "C85_quadratic",
    "C85_newton_fd",
    "C85_stationary",
    "C85_stationary_fd"
   ],
   "note": "In exact arithmetic on the reals extended with infinities and NaN."
  },
  {
   "property": "C86",
   "status": "proved",
   "theorems": [
    "C86_residuals",
    "C86_refused"
   ],
   "note": ""
  },
  {
   "property": "C87",
   "status": "partial",
   "theorems": [
    "C87_unconditional_refuted",
    "C87_overflow_refuted",
    "C87_sides_agree",
    "C87_distance",
    "C87_defaults",
    "C87_slopes"
   ],
   "note": "REFUTED for Rel and Adapt when the sum of the two members overflows: the residual is then zero and 3*2^1022 = 2^1023 is accepted as solved. Proved with that sum finite (no condition for Abs), and the distance to the root for Abs, in general and for the documented set-up, and from the slopes (C87_slopes)."
  },
  {
   "property": "C88",
   "status": "proved",
   "theorems": [
    "C88_displacement",
    "C88_slopes"
   ],
   "note": "On doubles; the entry is assumed finite."
  },
  {
   "property": "C89",
   "status": "proved",
   "theorems": [
    "C89_damped_newton"
   ],
   "note": "The step is halved once, and the point half way is kept even if the error is larger there. Cases: exp x - 1 from -3, 1 - exp x from 3."
  },
  {
   "property": "C90",
   "status": "proved",
   "theorems": [
    "C90_any_shape",
    "C90_converges",
    "C90_from_the_left"
   ],
   "note": "The budget for guesses to the right of the root is in C55_converges. Cases: exp x - 1 from -3, 1 - exp x from 3."
  },
  {
   "property": "C91",
   "status": "partial",
   "theorems": [
    "C91_refuted",
    "C91_undamped",
    "C91_damped",
    "C91_excess"
   ],
   "note": "REFUTED with damping and finite differences: damping starts from the last perturbed point, which may be beyond max_value, and Ok is returned at a point beyond it. Proved without damping (analytical jacobians and finite differences, Ok, FinalEvaluationError and NonConvergenceError), and with damping for analytical jacobians when the finite bounds can be halved exactly and are not both infinite. With damping and finite differences the reported point is never below the minimum, and beyond a finite maximum by no more than a computed margin (C91_excess)."
  },
  {
   "property": "C92",
   "status": "proved",
   "theorems": [
    "C92_promises_at_the_guess",
    "C92_converges",
    "C92_one_root",
    "C92_distance"
   ],
   "note": "Semi-local convergence (Newton-Kantorovich) with the constant 1/4, exact arithmetic, analytical jacobian; the existence of the root is part of the conclusion. With damping the error never grows, so no step is halved. C92_one_root and C92_distance: the root is unique in the box and the residual bounds the distance to it."
  },
  {
   "property": "C93",
   "status": "proved",
   "theorems": [
    "C93_lines",
    "C93_identifies",
    "C93_refuted"
   ],
   "note": "For texts of the system without newlines; C93_refuted shows that the condition is needed."
  },
  {
   "property": "C94",
   "status": "proved",
   "theorems": [
    "C94_root",
    "C94_newton",
    "C94_stationary",
    "C94_finite_differences"
   ],
   "note": "Semi-local convergence from the slopes, exact arithmetic; the existence and uniqueness of the root are part of the conclusion."
  },
  {
   "property": "C95",
   "status": "proved",
   "theorems": [
    "C95_root",
    "C95_newton",
    "C95_any_guess",
    "C95_stationary",
    "C95_finite_differences"
   ],
   "note": "Monotone Newton theorem, exact arithmetic, no damping; the existence and uniqueness of the root are part of the conclusion."
  },
  {
   "property": "C96",
   "status": "proved",
   "theorems": [
    "C96_newton",
    "C96_stationary",
    "C96_finite_differences",
    "C96_stationary_differences",
    "C96_distance",
    "C96_one_variable"
   ],
   "note": "f64 arithmetic; the inverse computed by the LU code enters by its residual against the slopes, for one variable it is the rounded 1/j."
  },
  {
   "property": "C97",
   "status": "proved",
   "theorems": [
    "C97_inverse",
    "C97_slopes",
    "C97_dominant",
    "C97_newton",
    "C97_finite_differences",
    "C97_stationary",
    "C97_singular_accepted",
    "C97_regular_refused"
   ],
   "note": "f64 arithmetic, all sizes; products accumulated from left to right as in the model of nalgebra (Linalg)."
  },
  {
   "property": "C98",
   "status": "proved",
   "theorems": [
    "C98_newton",
    "C98_stationary",
    "C98_finite_differences",
    "C98_stationary_differences",
    "C98_well_conditioned"
   ],
   "note": "f64 arithmetic, all sizes; variables without bounds or step limits, as in C96."
  },
  {
   "property": "C99",
   "status": "proved",
   "theorems": [
    "C99_newton",
    "C99_stationary",
    "C99_finite_differences",
    "C99_stationary_differences",
    "C99_frozen",
    "C99_stuck"
   ],
   "note": "f64 arithmetic, all sizes; C99_frozen and C99_stuck show the runs which the condition on the limits excludes."
  },
  {
   "property": "C100",
   "status": "proved",
   "theorems": [
    "C100_newton",
    "C100_finite_differences",
    "C100_well_conditioned",
    "C100_digits"
   ],
   "note": "f64 arithmetic, all sizes, no damping."
  },
  {
   "property": "C101",
   "status": "proved",
   "theorems": [
    "C101_given_jacobian",
    "C101_difference_quotients"
   ],
   "note": "f64 arithmetic, all sizes, absolute residuals, debug off; the reference algorithm uses the elimination of the model (lu_inverse) and its product, whose own properties are C60 and C97."
  },
  {
   "property": "C102",
   "status": "proved",
   "theorems": [
    "C102_given_jacobian",
    "C102_difference_quotients",
    "C102_flipped",
    "C102_flipped_differences"
   ],
   "note": "f64 arithmetic, all sizes, absolute residuals; C72_quasi_newton_refuted shows on doubles that the updating methods do depend on the sign."
  },
  {
   "property": "C103",
   "status": "proved",
   "theorems": [
    "C103_given_jacobian",
    "C103_difference_quotients"
   ],
   "note": "f64 arithmetic, all sizes, absolute residuals, the eight updating methods; the updates are written entry by entry (C104)."
  },
  {
   "property": "C104",
   "status": "proved",
   "theorems": [
    "C104_jacobian_updates",
    "C104_inverse_updates"
   ],
   "note": "Any arithmetic; sums from left to right, as nalgebra does for small sizes (see the trusted base in DESIGN.md)."
  },
  {
   "property": "C105",
   "status": "proved",
   "theorems": [
    "C105_inverse",
    "C105_determined",
    "C105_no_inverse"
   ],
   "note": "f64 arithmetic, all sizes; checks the model of lu().try_inverse() (rows handled with their right-hand sides) against the decomposition it stands for. C105_determined: the description, with the rule for equal pivots and NaN, fits only one decomposition."
  },
  {
   "property": "C106",
   "status": "partial",
   "theorems": [
    "C106_ties_refuted",
    "C106_three_equations_refuted",
    "C106_inverse",
    "C106_two_equations"
   ],
   "note": "REFUTED: with equal entries for a pivot the inverses of the two orders of [1 1; 1 6] differ (C106_ties_refuted), and with three equations the raw steps differ although the inverses agree (C106_three_equations_refuted; the sums go from left to right, see the trusted base). With strict pivots the inverse does not depend on the order, all sizes (C106_inverse), nor does the raw step of two equations (C106_two_equations)."
  }
 ]
}