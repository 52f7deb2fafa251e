# Formal model of newton_rootfinder: design

The target is the Rust crate in `/repo` (read as text, never built or run).
The model and the proofs are in `rocq/theories` (Rocq/Coq 8.16.1).

## 1. Architecture

The code computes on `f64`, calls user code (the `Model` trait) and calls nalgebra.
The model is one set of Gallina functions, generic in three things:

* **Scalars.** `Num F` is a record of scalar operations (+, -, *, /, |.|, signum, comparisons, constants).
  There are two instances.
  * `F64`: IEEE-754 binary64, Flocq `BinarySingleNaN`, round to nearest even. Infinities, NaN, signed zeros, subnormals. Executable.
  * `XR`: exact real arithmetic extended with +inf, -inf and NaN (IEEE rules without rounding, one unsigned zero).
  Theorems about control flow hold for every `Num F`, so also for `f64` with any rounding.
* **User models.** `Model F S` is a record of functions over an arbitrary state type `S`.
  `&mut self` methods return the new state. User methods may panic.
* **Matrix inversion.** nalgebra's LU inverse is a function argument (record field) in the control-flow theorems.
  A concrete model of it (partial pivoting, forward and back substitution) is used for execution and for exact-arithmetic theorems.

A Rust panic is the explicit outcome `Panic reason`; `Result`/`Option` stay data.
The `while` loop is recursion on fuel; running out of fuel is a distinct panic value which is proved unreachable.

Calls on the user model are observed with `traced M`: the model `M` whose state also records the list of
state-changing calls. It is proved that tracing does not change a run. Trace theorems hence speak about every user model.

### Files

Model (in dependency order):

| file | content |
|---|---|
| `Base.v` | panic-carrying results, list helpers |
| `Num.v` | scalar interface and derived operations (f64::min/max) |
| `Linalg.v` | nalgebra operations used (vectors, matrices, amax, LU inverse) |
| `Residuals.v`, `Iteratives.v` | residuals/*.rs, iteratives/*.rs |
| `UserModel.v` | Model trait, errors, the function/closure adapters |
| `Jacobian.v` | solver/jacobian/*.rs and the update formulas of solver/resolution_method.rs |
| `Solver.v` | solver/rootfinder.rs, parameters.rs, default.rs, log events of log.rs |
| `F64.v`, `RNum.v`, `XR.v` | the scalars: binary64, reals, reals with infinities and NaN |
| `TestCases.v`, `Util1d.v` | util/src/test_cases/*.rs, util/src/solver_one_dimensional.rs |
| `Text.v` | std parsing of usize, f64, bool; decimal printing |
| `Xml.v`, `XmlText.v` | xml_parser/*.rs over element trees; a reader of the part of XML used, a writer |
| `Display.v` | Display implementations, `f64::to_string`, the text of the log |
| `LogInfo.v` | the feature additional_log_info: the texts of the system are arbitrary |

Validation of the model against the repository's own tests (all by computation):

| file | content |
|---|---|
| `Validation.v` | numeric tests, and the reference log number by number |
| `ValidationSolver.v` | the solver tests of the repository, run on the binary64 model |
| `ValidationXml.v` | the tests of xml_parser and the files of tests/parser |
| `ValidationLog.v` | tests/log/broyden.rs: configuration file to log text, byte for byte |
| `ValidationDocs.v` | the examples of the documentation comments; tests/errors (the one with the cosine for every function with values between -1 and 1), tests/jacobian, tests/model, tests/user_model, tests/advanced_parametrization |

Vocabulary and tools: `Spec.v`, `Trace.v` (calls recorded), `Samples.v` (scripted models), `Fresh.v`, `Reach.v`
(`loop_head`: the states a run reaches at the head of the loop), `Tactics.v`.

Lemmas: `FlowFacts`, `FlagFacts`, `TraceFacts`, `SimFacts`, `DebugFacts`, `F64Facts`, `F64Arith`, `LimitFacts`,
`ResidualFacts`, `VerdictFacts`, `CountFacts`, `FuelFacts`, `LogFacts`, `StepFacts`, `SafeFacts`, `LuFacts`,
`ExactFacts`, `ExactRun`, `LocalFacts`, `QuasiRun`, `LimitRun`.

Properties (theorems, `Print Assumptions`, examples):

| file | properties |
|---|---|
| `PropsVerdict` | C01, C02, C05, C43, C45, C58, C59 |
| `PropsFlow`, `PropsFlag` | C03, C04, C06, C08-C12, C14, C66 |
| `PropsMethod`, `PropsIteration` | C17, C34-C38, C41 |
| `PropsSim` | C07, C13, C40, C46, C47 |
| `PropsLimits`, `PropsStep`, `PropsNorm` | C16, C18-C25, C39, C42 |
| `PropsPanic` | C15 |
| `PropsDefault` | C84: the documented set-up, end to end |
| `PropsQuasi` | C31-C33, C60 |
| `PropsFD`, `PropsReal` | C26, C28, C44, C54 |
| `PropsCases`, `CasesExact` | C27, C57, C61 |
| `PropsExact`, `Props1d` | C27, C29, C30, C55, C56, C62 |
| `PropsXml`, `PropsXmlText` | C48-C51 |
| `PropsDisplay`, `PropsLogText` | C48, C52, C53, C63, C64 |
| `PropsReading`, `PropsAlign` | C77, C78: an independent reader of the log; the columns of its tables |
| `PropsRefusal`, `PropsLayout`, `PropsNumbers` | C79-C81: messages of refused files, layout, numbers |
| `PropsShortest`, `PropsShown` | C82, C83: the digits of the numbers shown; the log follows the calls on the model |
| `PropsRun`, `PropsPoints` | C19, C65 |
| `PropsLocal`, `PropsStationary`, `PropsSecant`, `PropsAway` | C67-C71 |
| `PropsKept` | C86: residuals measured as configured |
| `DampedRun`, `PropsBasin` | C85: runs drawn to a root, with damping |
| `PropsInvariance` | C72 |
| `PropsBudget` | C73-C75 |
| `PropsDamping` | C76 |
| `PropsAccuracy` | C87: what an accepted point satisfies as real numbers, distance to the root |
| `PropsSlope` | C88: accuracy of the finite-difference jacobian on doubles |
| `PropsHalving` | C89: the damped method in exact arithmetic; C90: convex functions from any guess; C72 with damping |
| `PropsBounds` | C91: the bounds and the result |
| `PropsKantorovich` | C92: what the guess promises |
| `PropsDistance` | C87, C92: where the slopes change little, the residuals tell the distance to the only root |
| `PropsSteady` | C94: slopes which change little promise convergence, also with a wrong jacobian |
| `PropsMonotone` | C95: convex residuals with M-matrix slopes, runs from above go down to the only root |
| `FloatRun` | the points of an undamped run of the adapters in f64, as floating-point expressions (used by C96) |
| `PropsFloat` | C96: convergence in floating point, down to the level of the roundings |
| `LuFloat` | error analysis of the elimination and of the back substitution in f64 (used by C97) |
| `PropsInverse` | C97: the inverse of a well-conditioned matrix in floating point, and the methods that use it |
| `DampedFloat` | runs of the adapters in f64 with damping: the points, as floating-point expressions |
| `PropsSettle` | C98: convergence in floating point when damping is on |
| `PropsWithin` | C99: convergence in floating point with bounds and step limits; variables held at 0 |
| `PropsQuadratic` | C100: quadratic convergence in floating point |
| `PropsTextbook` | C101: the whole run, on doubles, equals a short reference algorithm |
| `SignFacts` | doubles up to signs through the operations and the elimination |
| `PropsSigns` | C102: the signs of the equations and of zeros do not matter on doubles |
| `PropsEntries` | C104: the update formulas entry by entry |
| `PropsSecantRun` | C103: the updating quasi-Newton methods on doubles are a short reference algorithm |
| `PropsFactors` | C105: the inverse is that of the LU decomposition with row exchanges |
| `PropsRowOrder` | C106: the order of the equations and the inverse on doubles |
| `PropsExcess` | C19 and C91 with damping and finite differences: how far beyond the bounds |
| `PropsLogInfo` | C93: the log with additional_log_info |

`MANIFEST.json` names the theorems of each property.

## 2. Properties: what is modelled and how it is proved

| id | approach |
|---|---|
| C01 | invariant of the loop (the error vector is the stopping residuals of the current state) + amax lemma on f64 |
| C02 | refuted by execution on f64 (NaN is lost by the comparison); corrected statement = C01 |
| C03 | loop invariant on the valid flag over traces; refuted at zero iterations, proved for at least one iteration |
| C04 | same invariant; refuted with damping, proved without |
| C05, C06, C09 | induction on the fuel; the fuel-exhausted outcome is proved unreachable |
| C07 | refuted (budget and jacobian are kept); proved for Newton-Raphson up to the remaining budget |
| C08, C10, C35, C54 | trace theorems on `traced M` |
| C11, C12, C17 | symbolic execution of one iteration; C12 is refuted, the actual behaviour is proved |
| C13 | simulation between the run of M and of M with inaccurate reports masked; with damping the two runs agree unless the inaccurate one stops with a panic |
| C14 | refuted by execution |
| C15 | invariant: inverse present unless recomputation is requested, dimensions agree |
| C16 | direct |
| C18, C20-C25, C39, C42, C43 | f64: Flocq comparison and rounding-monotonicity lemmas |
| C19 | refuted by execution (perturbed point above max_value); proved with analytical jacobians; with finite differences the points outside are perturbed points of the box; with damping as well the excess is bounded (`C19_excess`) |
| C26 | induction on columns |
| C27 | refuted by execution for finite differences; the actual base point is proved; proved for analytical jacobians |
| C28 | stdlib `derivable_pt_lim` |
| C29, C30, C60 | exact linear algebra on XR; invariants of elimination |
| C31-C33 | exact linear algebra on XR |
| C34 | refuted by execution; proved under non-negative residuals and equal normalisations |
| C36-C38 | symbolic execution; C37 refuted for the stationary Newton, C38 refuted |
| C40, C41 | simulation between debug and non-debug runs; structure of the event log |
| C44 | real inequalities |
| C45 | refuted by execution; proved when sizes agree (C01) |
| C46, C47 | adapters; simulation |
| C48-C51 | declarative reading of documents, proved equivalent to the parser; f64 texts are modelled (`Text.v`) |
| C52, C53 | finite case analysis / string prefixes |
| C55, C56 | exact analysis of the 1-D iteration on XR |
| C57 | stdlib `derivable_pt_lim` |
| C58 | refuted by execution |
| C59 | fold lemma on f64 |
| C60-C62 | exact linear algebra; exact runs on XR |
| C63, C64 | invariant of the pair matrix/inverse along the run and its log; C64 refuted for finite differences |
| C65 | C20 lifted to the iterates of a run; refuted for finite differences and NaN steps, proved otherwise; moves halved by damping stay within the limits as well |
| C66 | refuted by execution of two solves; the flag is characterised by symbolic execution |
| C67-C69 | mean value theorem coordinate by coordinate; Newton's contraction in the maximum norm; exact runs on XR |
| C70 | the eight formulas on 1x1 matrices; convexity; exact runs on XR |
| C71 | refuted: the secant on magnitudes leaves every root approached from negative residuals; exact runs on XR |
| C72 | Newton paths of the two systems correspond (C62); refuted by execution for the updates |
| C73, C74 | simulation between a solver and the same solver with other limits (`LimitRun`), induction on the loop |
| C75 | the same simulation and the one of C07 (Newton-Raphson forgets its past) |
| C76 | refuted by execution; symbolic execution of an iteration |
| C77 | a reader written without the writer, and injectivity of the texts |
| C78 | refuted for every parameter set; positions of the bars by induction on the rows |
| C79 | refuted by a file; an inductive relation between documents, refusals and messages, written without the parser |
| C80 | a grammar of the texts of a document, induction on its derivations |
| C81 | grammar of the texts of numbers, both directions; correct rounding from Flocq |
| C82 | search for the shortest digits compared with every decimal text of the rounding interval; 17 digits suffice |
| C83 | invariant on the log and on the calls recorded by `traced`; with C77, equal texts mean equal runs |
| C84 | C15, C01, C05, C47 put together for the adapters and the defaults |
| C85 | exact arithmetic: the damped point is half way between two points of the ball; a generic loop lemma on a contracting bound; residuals cannot grow when the condition number times the factor is below one |
| C86 | induction on the list of methods, against the formulas of Spec |
| C87 | error bounds of the rounded sum, difference and quotient (Flocq), monotonicity of rounding |
| C88 | the same, with C26 for the shape of the entries |
| C89 | as C62, with the exact decision of damping (`update_kept`) |
| C90 | the walk on the left of the root advances by a fixed amount, the first point on its right is bounded, then as C55 |
| C91 | C18 and C39 along the loop heads; refuted by execution with damping and finite differences; there the excess over the maximum is bounded (`C91_excess`) |
| C92 | Induction along Newton's points: inverse bounded by (4/3)^k b, step by (3/4)^k (4/9)^(2^k-1) eta; limit by completeness |
| C93 | the header comes first and once (invariant of the log); lines of a text |
| C94 | a chord step halves the residuals; 5/2 b times the residual is the room that remains; limit by completeness |
| C95 | a step with a steeper M-matrix keeps root <= next <= point and residuals >= 0, and lowers the sum of the variables by residual / mu; the limit is the root |
| C96 | error of a computed scalar product 4 n (u W + t); one iteration maps a ball of radius d into q d + eps; geometric series |
| C97 | induction over the elimination: pivots at least 1 / beta, the reduced rows stay bounded below (no exact inverse needed), residuals of the rows add up |
| C98 | a damped iteration ends half way between two points near the root, so the distance still shrinks, by (1 + q) / 2; whether an iteration is damped is left open |
| C99 | limits wider than any step leave the step alone, and clamping between bounds which contain the root brings a point closer to it; a relative limit is 0 at 0, and half way between 0 and 0 is 0 |
| C100 | the contraction factor of C96 is itself proportional to the distance; the recursion of the distances is solved by a maximum of a doubly exponential term and the roundings |
| C101 | the iterations of the solver are followed one by one, the loop invariant says which inverse is remembered; both ends of the loop and a failed inversion give the verdict |
| C102 | a relation (same number up to a sign, zeros of any sign) carried through the elimination (row signs and column signs exchange their roles in the inverse), the products and the limits, then through the algorithm of C101 |
| C103 | an invariant ties what the algorithm knows (matrix, inverse, last move, change of the errors) to the fields of the solver; one lemma per kind of iteration (fresh, fresh without inverse, updated, updated without inverse), then induction on the remaining iterations |
| C104 | matrices as tables of functions: each operation of the linear algebra on a table is a table; used by C103, whose algorithm contains no formula of the model |
| C105 | induction on the elimination: the order and the multipliers of the reduced rows, extended by the exchanged row and its column of multipliers; the substitution unrolled entry by entry; only one decomposition fits: by induction the exchanges, rows and columns so far agree, and two different positions for the next pivot would make one of them NaN |
| C106 | the factors of both orders agree column by column, the strictly greatest entry being the same row; then the two substitutions by induction; ties and the order of the sums computed |

## 3. Trusted base

* The Coq kernel, and the standard-library axioms of the real numbers where listed by `Print Assumptions`
  (`ClassicalDedekindReals.sig_forall_dec`, `ClassicalDedekindReals.sig_not_dec`,
  `FunctionalExtensionality.functional_extensionality_dep`, `Classical_Prop.classic`).
  Flocq needs them as soon as its operations are mentioned. Generic control-flow theorems need none.
* The reading of `/repo` recorded in the comments beside each definition.
* The reading of nalgebra (not available here): `amax`, LU inverse, products. See `Linalg.v`; C105 shows that the LU inverse of the model is the one of the decomposition P A = L U followed by two substitutions, C104 writes the products out.
* The semantics of `f64` operations of Rust: IEEE-754, `min`/`max` ignore NaN, `signum` of a zero has the sign of the zero.

### What `Print Assumptions` lists for each theorem

* **No axiom** (closed under the global context): C03_success_after_an_iteration, C06_terminates, C06_iterations_bounded, C07_second_solve_newton_raphson, C08_left_evaluated, C08_final_state_is_an_evaluation, C10_evaluation_count, C11_unusable_initial_evaluation, C11_only_then, C11_inaccurate_initial_evaluation, C12_unusable_aborts, C13_inaccuracy_is_harmless_undamped, C13_inaccuracy_is_harmless_or_stops, C14_inaccurate_jacobian_panics, C15_no_panic, C15_no_panic_ready, C15_no_panic_again, C16_new, C17_not_invertible_is_reported, C17_reported_only_then, C26_entries, C26_stored, C34_stored_pair, C35_newton_raphson, C35_quasi_newton_undamped, C35_recomputation, C36_damping, C37_update_methods, C38_refused_iterate_kept, C40_debug_changes_nothing, C41_log, C46_adapters, C46_closures_as_functions, C47_only_function_and_guess, read_printed, read_writable, read_comment, C52_texts, C52_texts_identify, C52_nodes, C52_log_refuted, C52_log_partial, C52_documented_text_refuted, C53_identifies, C53_injective, C53_contains, C53_initial, C53_texts, C54_restored, C54_same_memory, C54_next_iterate, C59_max_norm_of_nothing, C63_new, C63_solve, C63_text, C64_shown, C64_partial, C66_failure_is_remembered, C66_flag_decides, C66_flag, C73_budget, C75_resume, C78_residuals, C80_layout, C80_characters, C81_integers, C83_solve, C83_new, C83_told, C86_residuals, C86_refused, C93_refuted, C104_jacobian_updates, C104_inverse_updates.
* **`ClassicalDedekindReals.sig_forall_dec`, `ClassicalDedekindReals.sig_not_dec`, `Classical_Prop.classic`, `FunctionalExtensionality.functional_extensionality_dep`**: C01_success_within_tolerance, C02_nan_never_success_refuted, C03_success_means_valid_evaluation_refuted, C04_final_evaluation_error_refuted, C04_final_evaluation_error, C04_final_evaluation_error_undamped, C05_nonconvergence, C05_nonconvergence_converse, C07_second_solve_refuted, C07_second_solve_quasi_newton_refuted, C09_zero_iterations, C12_unusable_recovered_refuted, C13_inaccuracy_is_harmless_refuted, C14_inaccurate_is_recoverable_refuted, C15_adapters, C15_second_resolution_refuted, C16_default, C18_step_limitation_in_box, C18_proposed_iterate_in_box, C19_never_outside_refuted, C19_inside_without_finite_differences, C19_inside_with_damping, C19_finite_differences, C19_excess, C20_limits_respected_refuted, C20_limits_respected, C20_small_steps_kept, C21_default_limits, C22_nan_step, C22_never_nan, C23_constructors_refuted, C23_constructors_accept_nan, C23_new, C23_fd_extend, C23_fd_new, C24_positive_refuted, C24_positive, C24_default_effective, C25_pure_rule_refuted, C25_zero_rejected, C25_rule_of_the_formula, C27_rounding_refuted, C34_documented_pair_refuted, C36_half, C37_no_damping_without_new_jacobian_refuted, C38_refused_iterate_forgotten_refuted, C39_between, C39_bounds_kept, C39_halvable, C39_without_condition_refuted, C42_abs, C42_adapt, C42_rel, C42_rel_zero, C42_swap, C43_stopping_residuals_are_magnitudes, C43_same_method, C43_swap_members, C45_every_equation_counts_refuted, C45_described_equations_count, C48_finite_differences, C48_jacobian, C48_numbers, C48_finite_differences_text, C48_jacobian_text, C48_displayed_numbers, C49_finite_differences, C49_jacobian, fd_document, jac_document, C50_finite_differences, C50_jacobian, C50_nan_limit_refuted, C50_documented_example, C51_finite_differences, C51_jacobian, C54_damped_point_refuted, C58_nan_tolerance_refuted, C58_nan_tolerance_disables_the_solver, C59_max_norm, C64_finite_difference_refuted, C65_finite_difference_refuted, C65_nan_step_refuted, C65_analytic_partial, C65_damped_partial, C65_box, C66_own_evaluation_refuted, C67_quadratic_convergence, C67_converges, C68_linear_convergence, C69_stationary_newton, C69_stationary_newton_fd, C71_local_convergence_refuted, C72_quasi_newton_refuted, C74_tolerance, C74_success_refuted, C76_errors_never_increase_refuted, C76_increase_partial, C77_log, C77_same_text, C78_parameters_refuted, C78_points, C78_variables, C78_variables_fd, C78_matrices, C79_residual_name_refuted, C79_finite_differences, C79_jacobian, C79_text, C80_same, C81_numbers, C82_shortest, C82_others, C83_same_text, C84_defaults, C84_cannot_converge, C85_newton, C85_quadratic, C85_newton_fd, C85_stationary, C85_stationary_fd, C87_unconditional_refuted, C87_overflow_refuted, C87_sides_agree, C87_distance, C87_defaults, C87_slopes, C88_displacement, C88_slopes, C91_refuted, C91_undamped, C91_damped, C91_excess, C92_promises_at_the_guess, C92_converges, C92_one_root, C92_distance, C93_lines, C93_identifies, C94_root, C94_newton, C94_stationary, C94_finite_differences, C96_newton, C96_stationary, C96_finite_differences, C96_stationary_differences, C96_distance, C96_one_variable, C97_inverse, C97_slopes, C97_dominant, C97_newton, C97_finite_differences, C97_stationary, C97_singular_accepted, C97_regular_refused, C98_newton, C98_stationary, C98_finite_differences, C98_stationary_differences, C98_well_conditioned, C99_newton, C99_stationary, C99_finite_differences, C99_stationary_differences, C99_frozen, C99_stuck, C100_newton, C100_finite_differences, C100_well_conditioned, C101_given_jacobian, C101_difference_quotients, C102_given_jacobian, C102_difference_quotients, C102_flipped, C102_flipped_differences, C103_given_jacobian, C103_difference_quotients, C105_inverse, C105_determined, C105_no_inverse, C106_ties_refuted, C106_three_equations_refuted, C106_inverse, C106_two_equations.
* **`ClassicalDedekindReals.sig_forall_dec`, `ClassicalDedekindReals.sig_not_dec`, `FunctionalExtensionality.functional_extensionality_dep`**: C61_solutions_are_roots, C95_root, C95_newton, C95_any_guess, C95_stationary, C95_finite_differences.
* **`ClassicalDedekindReals.sig_forall_dec`, `Classical_Prop.classic`, `FunctionalExtensionality.functional_extensionality_dep`**: C32_zero_denominator_is_reported.
* **`ClassicalDedekindReals.sig_forall_dec`, `FunctionalExtensionality.functional_extensionality_dep`**: C27_computed_jacobian, C27_approximated_jacobian, C28_derivative, C28_matrix, C29_affine, C30_affine, C30_solved_in_one_iteration, C31_jacobian_secant, C31_inverse_secant, C32_forms_agree, C33_jacobian_least_change, C33_inverse_least_change, C33_broyden_frobenius, C44_sizes, C55_converges, C55_monotone, C56_solver1d, C56_solver1d_fd, C57_cases_5_to_8, C57_case_9, C57_case_10, C57_polynomials, C60_inverse, C60_fails_only_on_singular, C61_case_10_singular, C62_newton_method, C63_exact, C70_secant_method, C70_converges, C71_moves_away, C72_same_iterates, C72_same_run, C72_same_run_damped, C89_damped_newton, C90_any_shape, C90_converges, C90_from_the_left, C100_digits.

### Modelled

All of `residuals/`, `iteratives/`, `model/`, `solver/`, `errors.rs`, `xml_parser/`, the `Display` texts,
`util/src/solver_one_dimensional.rs`, `util/src/test_cases/broyden1965.rs`.

### Not modelled

* minidom beyond the part of XML in `XmlText.v` (declaration, comments, elements, attributes, the five entities);
  file system errors, where the texts of `additional_log_info` come from, `fmt::Debug` outputs, benches.
* Rust's float formatting and parsing are modelled from their documentation (correct rounding; shortest text that
  reads back), not from the standard library's code.
* What a run had written to its log before a panic.
* Summation order inside nalgebra products for sizes above 5 (blocked kernels); only relevant to bit-exact float values,
  not to the theorems that quantify over all scalars nor to exact arithmetic.
* Rust panics inside user code are propagated, the unwinding itself is not modelled.
