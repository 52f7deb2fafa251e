{"id": "C01", "title": "Success means every stopping residual is within the tolerance", "statement": "If `RootFinder::solve` returns `Ok(())` and none of the stopping residuals of the model in its final state is NaN, then every stopping residual |normalization(left_i, right_i, stopping_i)| computed from `model.get_residuals()` after the call is <= the tolerance.", "quantifier": "For every user model (any state type, any behaviour), every solver configuration (method, damping, debug, limits), every starting state of the solver object and of the model, and every IEEE double tolerance that is not NaN.", "why_tests_cant": "A test checks a few models with a few seeds; the claim is about every model, every residual dimension and every path through the iteration loop, including damped and refused iterations.", "anchors": ["src/solver_n_dimensional/solver/rootfinder.rs: solve, update_model, damping, evaluate_errors", "src/solver_n_dimensional/residuals/config.rs: evaluate_stopping_residuals"]}
{"id": "C02", "title": "A NaN residual is never reported as success", "statement": "If `solve` returns `Ok(())` then no stopping residual of the final model state is NaN, and every stopping residual is <= tolerance.", "quantifier": "For every model and configuration, with residual values ranging over all doubles including NaN.", "why_tests_cant": "NaN residuals arise from user code far from the tested region; no sample shows that no NaN pattern can slip through the max-norm comparison.", "anchors": ["src/solver_n_dimensional/solver/rootfinder.rs: solve", "src/solver_n_dimensional/residuals/config.rs: evaluate_stopping_residuals", "src/solver_n_dimensional/solver/parameters.rs: Tolerance doc"]}
{"id": "C03", "title": "Success means the last model evaluation was reported valid", "statement": "If `solve` returns `Ok(())` then the last `Model::evaluate` call made by it returned `Ok(())` (an InaccurateValuesError at the final evaluation must not be reported as success).", "quantifier": "For every model and every configuration, on a freshly constructed solver.", "why_tests_cant": "The last evaluation can be the initial one, an iteration or a damped one, and each can report an inaccurate value; the property quantifies over all interleavings of these.", "anchors": ["src/solver_n_dimensional/solver/rootfinder.rs: solve, update_model, valid_last_model_evaluation", "src/solver_n_dimensional/model/error.rs: ModelError doc", "src/solver_n_dimensional/errors.rs: FinalEvaluationError doc"]}
{"id": "C04", "title": "FinalEvaluationError means: converged, but the last evaluation was inaccurate", "statement": "If `solve` returns `FinalEvaluationError` then the stopping criterion is met at the final state and the last `evaluate` call returned an InaccurateValuesError.", "quantifier": "For every model and every configuration, on a freshly constructed solver.", "why_tests_cant": "Requires reasoning over all orders of accurate and inaccurate evaluations, including the extra evaluation made by damping.", "anchors": ["src/solver_n_dimensional/solver/rootfinder.rs: solve, update_model, damping", "src/solver_n_dimensional/errors.rs: SolverError doc"]}
{"id": "C05", "title": "NonConvergenceError means the whole budget was spent and the error is still too large", "statement": "If `solve` returns `NonConvergenceError`, the iteration counter equals max_iter and the maximum stopping residual of the final state is > tolerance; conversely, whenever the loop ends with the max-norm above the tolerance the verdict is NonConvergenceError.", "quantifier": "For every model, configuration and starting solver state.", "why_tests_cant": "Tests see a handful of non-converging problems; the claim is a characterisation over all runs.", "anchors": ["src/solver_n_dimensional/solver/rootfinder.rs: solve"]}
{"id": "C06", "title": "solve terminates within max_iter iterations", "statement": "`solve` always terminates and performs at most max_iter iterations (updates of the model) over the lifetime of the solver object, whatever the model returns.", "quantifier": "For every model (even adversarial ones returning NaN or changing behaviour at each call), every max_iter.", "why_tests_cant": "Termination for all models is not testable.", "anchors": ["src/solver_n_dimensional/solver/rootfinder.rs: solve", "src/solver_n_dimensional/solver/parameters.rs: Max iteration doc"]}
{"id": "C07", "title": "Calling solve again on the same solver behaves like a fresh solver", "statement": "Calling `solve` a second time on the same RootFinder with an identical model gives the same verdict and the same final model state as the first call.", "quantifier": "For every configuration and every model that is in the same state before both calls.", "why_tests_cant": "Depends on hidden solver state left by an arbitrary first run.", "anchors": ["src/solver_n_dimensional/solver/rootfinder.rs: RootFinder fields iter/jacobian/valid_last_model_evaluation, solve"]}
{"id": "C08", "title": "The solved model needs no re-evaluation", "statement": "When `solve` returns Ok, NonConvergenceError or FinalEvaluationError, the last two state-changing calls on the model were set_iteratives(x) followed by evaluate(); hence the model is left evaluated at x and its latent variables are those of x.", "quantifier": "For every model and configuration.", "why_tests_cant": "It is a statement about the full sequence of calls on every path (finite differences, damping, refused steps).", "anchors": ["src/solver_n_dimensional/solver/rootfinder.rs: solve, update_model, damping", "SPECIFICATIONS.md"]}
{"id": "C09", "title": "A guess that is already a solution costs exactly one evaluation", "statement": "If the stopping residuals at the initial guess have max-norm not above the tolerance, or the budget is 0, `solve` performs exactly set_iteratives(guess) and one evaluate, requests no jacobian, and leaves the iteration counter unchanged.", "quantifier": "For every model, every configuration, every tolerance.", "why_tests_cant": "Covers every model and every tolerance, not just sampled ones.", "anchors": ["src/solver_n_dimensional/solver/rootfinder.rs: solve"]}
{"id": "C10", "title": "Number of model evaluations", "statement": "A run of k iterations that ends with a convergence verdict calls evaluate exactly 1 + k + n*j + d times, where j is the number of finite-difference jacobians (n = len_problem) and d <= k the number of damped steps; without damping d = 0; with Newton-Raphson and finite differences j = k; with an analytical jacobian j = 0.", "quantifier": "For every model with a constant len_problem, every configuration, every k.", "why_tests_cant": "The count must hold on all paths, not only on those exercised by an instrumented test model.", "anchors": ["src/solver_n_dimensional/solver/rootfinder.rs: solve, update_model, damping", "src/solver_n_dimensional/solver/jacobian/jacobian_finite_diff.rs: compute_jacobian_from_finite_difference", "SPECIFICATIONS.md"]}
{"id": "C11", "title": "Unusable initial evaluation", "statement": "If the evaluation at the initial guess returns UnusableValuesError(e), `solve` returns ModelInitialEvaluationError(e.to_string()) after exactly one evaluate call and makes no further call on the model; an InaccurateValuesError there does not stop the resolution.", "quantifier": "For every model, error value and configuration.", "why_tests_cant": "Universal over error payloads and models.", "anchors": ["src/solver_n_dimensional/solver/rootfinder.rs: solve", "src/solver_n_dimensional/errors.rs: ModelInitialEvaluationError"]}
{"id": "C12", "title": "Unusable evaluation during an iteration is recovered", "statement": "Documented: an UnusableValuesError during the iteration phase makes the algorithm forget this iteration and try a new one with slightly changed inputs, instead of aborting.", "quantifier": "For every model and configuration.", "why_tests_cant": "Needs all error schedules of the model.", "anchors": ["src/solver_n_dimensional/model/error.rs: ModelError doc", "src/solver_n_dimensional/solver/rootfinder.rs: update_model", "src/solver_n_dimensional/solver/jacobian/jacobian_finite_diff.rs: compute_jacobian_from_finite_difference"]}
{"id": "C13", "title": "Inaccurate evaluations do not change the computation", "statement": "Reporting InaccurateValuesError instead of Ok from some evaluate calls changes nothing in the sequence of iterates and of calls; only the verdict Ok may become FinalEvaluationError.", "quantifier": "For every model and every schedule of inaccurate reports, damping off.", "why_tests_cant": "Compares two runs for all models and all schedules.", "anchors": ["src/solver_n_dimensional/solver/rootfinder.rs: solve, update_model", "src/solver_n_dimensional/solver/jacobian/jacobian_finite_diff.rs", "src/solver_n_dimensional/model/error.rs: ModelError doc"]}
{"id": "C14", "title": "An inaccurate analytical jacobian or damped evaluation is recoverable", "statement": "`solve` does not panic when Model::get_jacobian or the evaluation made by the damping reports an InaccurateValuesError.", "quantifier": "For every model and configuration.", "why_tests_cant": "Requires every error schedule.", "anchors": ["src/solver_n_dimensional/solver/rootfinder.rs: compute_jac, compute_next_from_inv_jac, damping", "src/solver_n_dimensional/solver/jacobian/jacobian_analytic.rs"]}
{"id": "C15", "title": "No panic on well-formed problems", "statement": "On a freshly built solver whose dimensions match those of the vectors returned by the model, `solve` never panics provided (a) finite-difference parameters are supplied when no jacobian is provided, (b) get_jacobian does not report inaccurate values, (c) with damping, evaluations do not fail.", "quantifier": "For every model, method, dimension and every double value including NaN and infinities.", "why_tests_cant": "Absence of panics (unwrap on None, index out of range, dimension mismatch) over all inputs.", "anchors": ["src/solver_n_dimensional/solver/rootfinder.rs: solve and all helpers", "src/solver_n_dimensional/solver/jacobian/*.rs", "src/solver_n_dimensional/iteratives/iteratives_base.rs"]}
{"id": "C16", "title": "RootFinder::new accepts exactly the consistent configurations", "statement": "RootFinder::new panics iff the residual configuration, the initial guess or the iteratives do not all have length problem_size; otherwise it returns a solver holding exactly the given inputs with debug off and iteration counter 0.", "quantifier": "For all lengths and parameters.", "why_tests_cant": "Universal over all dimension combinations.", "anchors": ["src/solver_n_dimensional/solver/rootfinder.rs: new", "src/solver_n_dimensional/solver/default.rs: default_with_guess"]}
{"id": "C17", "title": "Non-invertible jacobians are reported as such", "statement": "If the jacobian (computed or approximated) used in an iteration has no inverse, `solve` returns JacobianError with the text of a non-invertible jacobian, and the model is not updated in that iteration.", "quantifier": "For every model, method, iteration.", "why_tests_cant": "Must hold at every iteration and every method.", "anchors": ["src/solver_n_dimensional/solver/jacobian/jacobian_struct.rs: update_jacobian", "src/solver_n_dimensional/solver/rootfinder.rs: evaluate_jacobian_quasi_newton_step"]}
{"id": "C18", "title": "Iterates stay within [min_value, max_value]", "statement": "Every value produced by IterativeParams::step_limitation lies in [min_value, max_value] when min_value <= max_value, whatever the current value and the raw step (even NaN or infinite); hence every undamped iterate that solve writes to the model is in the box.", "quantifier": "For all doubles value_current, raw_step, all limits (min_value, max_value not NaN), all models and runs.", "why_tests_cant": "All doubles including NaN, infinities and signed zeros; all runs.", "anchors": ["src/solver_n_dimensional/iteratives/iterative_var.rs: step_limitation", "src/solver_n_dimensional/iteratives/iteratives_base.rs: step_limitations", "src/solver_n_dimensional/solver/rootfinder.rs: compute_next_from_inv_jac"]}
{"id": "C19", "title": "The model is never evaluated outside the bounds", "statement": "Every vector passed to Model::set_iteratives by `solve` has all components within [min_value, max_value] when the initial guess does.", "quantifier": "For every model and configuration, including finite differences.", "why_tests_cant": "Concerns every call of every run.", "anchors": ["src/solver_n_dimensional/iteratives/iteratives_base.rs: Iterative doc", "src/solver_n_dimensional/solver/jacobian/jacobian_finite_diff.rs"]}
{"id": "C20", "title": "Step limits are respected", "statement": "The value returned by step_limitation(v, raw) is between v (-) m and v (+) m (floating-point subtraction and addition), m = min(max_step_abs, max_step_rel*|v|), whenever v is in [min_value, max_value]; the move is in the direction of raw and never larger than raw.", "quantifier": "For all doubles v, raw not NaN and all accepted parameters.", "why_tests_cant": "All doubles; rounding effects are only visible at special values.", "anchors": ["src/solver_n_dimensional/iteratives/iterative_var.rs: step_limitation"]}
{"id": "C21", "title": "Default limits leave the Newton step unchanged", "statement": "With IterativeParams::default(), step_limitation(v, s) = v + s for all v, s such that v + s is not NaN (even at v = 0 where max_step_rel*|v| is inf*0).", "quantifier": "For all pairs of doubles.", "why_tests_cant": "2^128 pairs.", "anchors": ["src/solver_n_dimensional/iteratives/iterative_var.rs: Default, step_limitation"]}
{"id": "C22", "title": "A NaN Newton step sends the iterate to min_value", "statement": "If the raw step is NaN then step_limitation returns min_value (clamped), so with default limits the model is evaluated at -infinity; a NaN iterate is never produced when min_value is not NaN.", "quantifier": "For all doubles.", "why_tests_cant": "Corner-case semantics of f64::max/min over all inputs.", "anchors": ["src/solver_n_dimensional/iteratives/iterative_var.rs: step_limitation"]}
{"id": "C23", "title": "Parameter constructors reject invalid limits", "statement": "IterativeParams::new / IterativeParamsFD::new / extend succeed only if max_step_abs > 0, max_step_rel > 0, dx_abs > 0, dx_rel > 0 and min_value < max_value.", "quantifier": "For all doubles, including NaN.", "why_tests_cant": "All doubles.", "anchors": ["src/solver_n_dimensional/iteratives/iterative_var.rs: new", "src/solver_n_dimensional/iteratives/iterative_var_fd.rs: new, extend"]}
{"id": "C24", "title": "Finite-difference perturbations are strictly positive and effective", "statement": "compute_perturbation(x) > 0 for every x that is not NaN whenever dx_abs > 0, and with the default parameters x + dx differs from x for every finite x for which it does not overflow, so the difference quotient never divides by zero.", "quantifier": "For all doubles x.", "why_tests_cant": "All doubles; absorption x + dx = x only shows at particular magnitudes.", "anchors": ["src/solver_n_dimensional/iteratives/iterative_var_fd.rs: compute_perturbation, Default"]}
{"id": "C25", "title": "dx_abs = 0 or dx_rel = 0 selects a pure perturbation rule", "statement": "Documented: setting dx_abs (resp. dx_rel) to 0 gives dx = dx_rel*|x| (resp. dx = dx_abs).", "quantifier": "For all other parameters.", "why_tests_cant": "Universal over parameters.", "anchors": ["src/solver_n_dimensional/iteratives/iterative_var_fd.rs: compute_perturbation doc, new, extend"]}
{"id": "C26", "title": "Finite-difference jacobian entries", "statement": "For a model whose residuals depend only on its iteratives, entry (i,j) of the computed jacobian is (F_i(x + dx_j e_j) - F_i(x)) / dx_j with F the update residuals, all columns being taken from the same base point x, independently of column order.", "quantifier": "For every such model, every dimension, every perturbation vector.", "why_tests_cant": "All models and dimensions; order independence needs all permutations.", "anchors": ["src/solver_n_dimensional/solver/jacobian/jacobian_finite_diff.rs: compute_jacobian_from_finite_difference"]}
{"id": "C27", "title": "The Newton step starts from the current iterate", "statement": "Documented formula X = X - J^-1*F(X): the next (unlimited) iterate is the current iterate minus the inverse jacobian applied to the residuals of the current iterate.", "quantifier": "For every model, both with analytical and finite-difference jacobians.", "why_tests_cant": "Tests tolerate deviations of the order of the perturbation.", "anchors": ["src/solver_n_dimensional/solver/rootfinder.rs: compute_next_from_inv_jac, update_model", "src/solver_n_dimensional/solver/jacobian/jacobian_finite_diff.rs", "src/solver_n_dimensional/solver/parameters.rs: Damping doc"]}
{"id": "C28", "title": "The analytical normalised jacobian is the derivative of the normalised residuals", "statement": "For differentiable left/right members x(t), y(t) with x+y != 0 (any x,y for Abs), deriv_normalization(x,y,x',y',m) is the derivative of normalization(x(t),y(t),m), for the three methods.", "quantifier": "For all real differentiable functions, in exact arithmetic.", "why_tests_cant": "A statement about limits over all functions.", "anchors": ["src/solver_n_dimensional/residuals/mod.rs: normalization, deriv_normalization", "src/solver_n_dimensional/residuals/values.rs: JacobianValues::normalize"]}
{"id": "C29", "title": "Finite differences are exact on affine problems", "statement": "For an affine residual function with absolute normalization the finite-difference jacobian equals the matrix of the affine map, whatever the perturbations, in exact arithmetic.", "quantifier": "For all matrices, vectors, base points and non-zero perturbations.", "why_tests_cant": "All affine problems of all sizes.", "anchors": ["src/solver_n_dimensional/solver/jacobian/jacobian_finite_diff.rs"]}
{"id": "C30", "title": "Affine systems are solved in one iteration by every method", "statement": "In exact arithmetic, with default limits and absolute residuals, `solve` on F(x) = A x - b (A invertible by the LU inverse) returns Ok after at most one iteration with A x = b exactly, for all resolution methods, with or without damping, with analytical or finite-difference jacobian.", "quantifier": "For all sizes, all invertible A, all b, all initial guesses, all tolerances >= 0, all methods.", "why_tests_cant": "All affine systems.", "anchors": ["src/solver_n_dimensional/solver/rootfinder.rs: solve", "src/solver_n_dimensional/solver/jacobian/*.rs"]}
{"id": "C31", "title": "Quasi-Newton updates satisfy the secant equation", "statement": "Whenever its denominator is non-zero, each Jacobian update formula gives J' with J' s = y and each inverse update gives H' with H' y = s, in exact arithmetic.", "quantifier": "For all n, all matrices and vectors.", "why_tests_cant": "Algebraic identity in all dimensions.", "anchors": ["src/solver_n_dimensional/solver/resolution_method.rs: all update functions"]}
{"id": "C32", "title": "The jacobian form and the inverse form of each quasi-Newton method agree", "statement": "If H is the inverse of J, then after one update with the same s, y, c the updated inverse form is the inverse of the updated jacobian form (Householder / Sherman-Morrison), for Broyden 1, Broyden 2, Greenstadt 1 and Greenstadt 2, in exact arithmetic.", "quantifier": "For all n, invertible J, vectors with non-zero denominators.", "why_tests_cant": "Algebraic identity in all dimensions.", "anchors": ["src/solver_n_dimensional/solver/resolution_method.rs", "src/solver_n_dimensional/solver/jacobian/jacobian_approximation.rs", "src/solver_n_dimensional/solver/jacobian/jacobian_inverse_approximation.rs"]}
{"id": "C33", "title": "Quasi-Newton updates change the matrix as little as stated", "statement": "The update is of rank one and leaves the action of the matrix unchanged on every vector orthogonal to the method's direction (s for Broyden 1 jacobian form, y for Broyden 2 inverse form, c in general); with the secant equation this determines the update uniquely.", "quantifier": "For all n, all matrices and vectors, exact arithmetic.", "why_tests_cant": "All dimensions.", "anchors": ["src/solver_n_dimensional/solver/resolution_method.rs"]}
{"id": "C34", "title": "The secant pair is (x_{i+1}-x_i, F(x_{i+1})-F(x_i))", "statement": "Documented: the vectors s and y used in the quasi-Newton updates are the difference of the iterates and the difference of the residuals F used for the update.", "quantifier": "For every model and configuration.", "why_tests_cant": "Depends on signs and normalisations of all residual values met in a run.", "anchors": ["src/solver_n_dimensional/solver/rootfinder.rs: update_model", "src/solver_n_dimensional/solver/resolution_method.rs: doc of UpdateQuasiNewtonMethod"]}
{"id": "C35", "title": "How often the jacobian is computed", "statement": "Newton-Raphson computes the jacobian exactly once per iteration; the stationary Newton and the other quasi-Newton methods without damping compute it exactly once, at the first iteration; with damping a quasi-Newton jacobian is recomputed exactly after the iterations that increased the error with an approximated jacobian.", "quantifier": "For every model and every number of iterations.", "why_tests_cant": "All runs.", "anchors": ["src/solver_n_dimensional/solver/rootfinder.rs: evaluate_jacobian_quasi_newton_step, damping", "src/solver_n_dimensional/solver/jacobian/jacobian_struct.rs"]}
{"id": "C36", "title": "Damping acts only on deterioration, by halving the step, once", "statement": "With damping on and a jacobian computed in the current iteration, if the max-norm of the stopping residuals increases the model is moved to current*0.5 + proposed*0.5 and evaluated once more; otherwise, and always with damping off, the proposed point is kept.", "quantifier": "For every model and state.", "why_tests_cant": "All runs and all double values.", "anchors": ["src/solver_n_dimensional/solver/rootfinder.rs: damping, update_model", "src/solver_n_dimensional/solver/parameters.rs: Damping doc"]}
{"id": "C37", "title": "Quasi-Newton with damping recomputes the jacobian instead of damping", "statement": "Documented: with a quasi-Newton method, if the jacobian has not been updated (recomputed) at the current iteration and the error increased, damping is not performed but the jacobian is recomputed at the next iteration.", "quantifier": "For every quasi-Newton method including the stationary Newton.", "why_tests_cant": "All methods and runs.", "anchors": ["src/solver_n_dimensional/solver/rootfinder.rs: damping", "src/solver_n_dimensional/solver/parameters.rs: Damping doc"]}
{"id": "C38", "title": "A refused iteration is undone", "statement": "When the log says 'Iteration refused, the jacobian will be recomputed at the next iteration', the next iteration starts from the previous iterate, not from the refused one.", "quantifier": "For every run.", "why_tests_cant": "All runs.", "anchors": ["src/solver_n_dimensional/solver/rootfinder.rs: damping, recompute_jacobian_to_log"]}
{"id": "C39", "title": "Damping keeps the iterate between the two points", "statement": "The damped point lies componentwise between the current and the proposed iterate, so bounds satisfied by both are kept.", "quantifier": "For all doubles (finite, exactly halvable) and all vectors.", "why_tests_cant": "All doubles; subnormal halving rounds.", "anchors": ["src/solver_n_dimensional/solver/rootfinder.rs: damping"]}
{"id": "C40", "title": "Debugging does not change the resolution", "statement": "Activating the debug log changes neither the verdict, nor the sequence of calls on the model, nor the final state of the model and solver (log apart).", "quantifier": "For every model, configuration with at least one iterative variable, and every run.", "why_tests_cant": "A two-run property over all models.", "anchors": ["src/solver_n_dimensional/solver/rootfinder.rs: activate_debug, solve and log helpers", "src/solver_n_dimensional/solver/log.rs", "src/solver_n_dimensional/iteratives/iteratives_base.rs: Display"]}
{"id": "C41", "title": "The log records each iteration faithfully", "statement": "With debug on, the log consists of the header, the parameters, then the record of iteration 0 and one record per performed model update in increasing order, each holding the iteratives, residuals and stopping residuals of the model at that moment.", "quantifier": "For every run.", "why_tests_cant": "All runs.", "anchors": ["src/solver_n_dimensional/solver/log.rs", "src/solver_n_dimensional/solver/rootfinder.rs: iteration_to_log, jac_to_log, damping_to_log"]}
{"id": "C42", "title": "Normalised residuals vanish exactly on solutions", "statement": "For finite x, y whose sum and difference do not overflow: normalization(x,y,Abs)=0 iff x=y; for Adapt likewise up to underflow of the quotient; for Rel the value at x=y=0 is NaN (never 0), and swapping left and right only flips the sign.", "quantifier": "For all doubles.", "why_tests_cant": "All doubles including zeros, subnormals, infinities.", "anchors": ["src/solver_n_dimensional/residuals/mod.rs: normalization"]}
{"id": "C43", "title": "Stopping residuals are magnitudes", "statement": "Every component of evaluate_stopping_residuals is NaN or >= 0, and when stopping and update methods coincide it is the absolute value of the corresponding update residual; swapping the two members of an equation does not change it.", "quantifier": "For all residual values and configurations.", "why_tests_cant": "All doubles and sizes.", "anchors": ["src/solver_n_dimensional/residuals/config.rs: evaluate_stopping_residuals, evaluate_update_residuals"]}
{"id": "C44", "title": "Size of the normalised residuals", "statement": "In exact arithmetic |Adapt| <= |Abs|, |Adapt| <= |Rel| where defined, and |Rel| <= 2, |Adapt| < 2 when both members have the same sign.", "quantifier": "For all reals.", "why_tests_cant": "Real inequality.", "anchors": ["src/solver_n_dimensional/residuals/mod.rs: normalization doc"]}
{"id": "C45", "title": "Every equation of the model counts in the verdict", "statement": "If `solve` returns Ok then every equation returned by get_residuals is satisfied within the tolerance, even when the model returns more equations than the residual configuration describes.", "quantifier": "For all models with run-time dimensions.", "why_tests_cant": "All dimension combinations.", "anchors": ["src/solver_n_dimensional/residuals/config.rs: evaluate_stopping_residuals", "src/solver_n_dimensional/solver/rootfinder.rs: solve, new"]}
{"id": "C46", "title": "Function and closure adapters are faithful models", "statement": "For the four UserModelFrom... adapters: get_iteratives returns the last set value, evaluate never fails, after evaluate the residuals are (f(inputs), 0), get_jacobian is (jac(inputs), 0), the memory is empty; function and closure adapters built from the same functions behave identically under solve.", "quantifier": "For all functions, all operation sequences.", "why_tests_cant": "All functions and sequences.", "anchors": ["src/solver_n_dimensional/model/model_from_func.rs", "src/solver_n_dimensional/model/model_from_closure.rs"]}
{"id": "C47", "title": "Solving a function model depends only on the function and the guess", "statement": "The verdict and the final iteratives and residuals of `solve` on a function adapter do not depend on the state the adapter was in; no model-evaluation error can be returned.", "quantifier": "For all functions, all previous adapter states, all configurations.", "why_tests_cant": "Two-run property.", "anchors": ["src/solver_n_dimensional/model/model_from_func.rs", "src/solver_n_dimensional/solver/rootfinder.rs: solve"]}
{"id": "C48", "title": "Configuration files round-trip", "statement": "Writing a valid configuration as an XML tree in the documented format and parsing it returns exactly the same solver parameters, iteratives and residuals.", "quantifier": "For all configurations of all sizes.", "why_tests_cant": "All configurations.", "anchors": ["src/solver_n_dimensional/xml_parser/*.rs"]}
{"id": "C49", "title": "XML defaults and overrides", "statement": "For each iterative/residual child node, each attribute present on the child is used, each missing one is taken from the parent node's default; the damping attribute defaults to false.", "quantifier": "For all trees.", "why_tests_cant": "All combinations of present/missing attributes.", "anchors": ["src/solver_n_dimensional/xml_parser/node_iterative.rs", "src/solver_n_dimensional/xml_parser/node_iterative_fd.rs", "src/solver_n_dimensional/xml_parser/node_residual.rs", "src/solver_n_dimensional/xml_parser/node_solver.rs"]}
{"id": "C50", "title": "Malformed configuration files are rejected", "statement": "Parsing panics if a node name is wrong or the three sections are not in order, ids are not 0..n-1 in order, the number of iteratives or residuals differs from problem_size, a required attribute is missing or not parsable, a method name is unknown or a limit is invalid; it never returns a configuration in these cases.", "quantifier": "For all trees.", "why_tests_cant": "All malformed trees.", "anchors": ["src/solver_n_dimensional/xml_parser/util.rs", "src/solver_n_dimensional/xml_parser/xml_file_fd.rs", "src/solver_n_dimensional/xml_parser/xml_file_jac.rs"]}
{"id": "C51", "title": "A parsed configuration always fits the solver", "statement": "If parsing succeeds, RootFinder::new with the parsed parameters and a guess of the parsed size does not panic.", "quantifier": "For all trees.", "why_tests_cant": "All trees.", "anchors": ["src/solver_n_dimensional/xml_parser/xml_file_fd.rs", "src/solver_n_dimensional/xml_parser/xml_file_jac.rs", "src/solver_n_dimensional/solver/rootfinder.rs: new"]}
{"id": "C52", "title": "Method names identify methods", "statement": "Each accepted resolution_method text denotes a distinct method and every method has a text; the text shown in the log for a method identifies it.", "quantifier": "For all methods and texts.", "why_tests_cant": "All strings.", "anchors": ["src/solver_n_dimensional/xml_parser/node_solver.rs", "src/solver_n_dimensional/solver/resolution_method.rs: Display"]}
{"id": "C53", "title": "Error texts identify the error class", "statement": "The Display text of a SolverError identifies its variant, and contains the text of the wrapped model error.", "quantifier": "For all error values and payload texts.", "why_tests_cant": "All payload strings.", "anchors": ["src/solver_n_dimensional/errors.rs: Display", "src/solver_n_dimensional/model/error.rs: Display"]}
{"id": "C54", "title": "Finite differences restore the memory of the model", "statement": "During a finite-difference jacobian, set_memory is called after every perturbed evaluation with the memory read before the first one; a model that saves and restores its memory therefore evaluates every column, and the next iterate, from the same memory.", "quantifier": "For every model.", "why_tests_cant": "All models and dimensions.", "anchors": ["src/solver_n_dimensional/solver/jacobian/jacobian_finite_diff.rs", "src/solver_n_dimensional/model/model_definition.rs: get_memory/set_memory"]}
{"id": "C55", "title": "Newton-Raphson converges on convex increasing functions", "statement": "In exact arithmetic, for a differentiable, convex, strictly increasing function of one variable with a root below the initial guess, `solve` with an analytical jacobian returns Ok for every tolerance > 0 when max_iter is large enough, and iterates decrease monotonically towards the root.", "quantifier": "For all such functions, guesses and tolerances.", "why_tests_cant": "Convergence for all functions.", "anchors": ["src/solver_n_dimensional/solver/rootfinder.rs: solve"]}
{"id": "C56", "title": "The n-dimensional solver agrees with the reference one-dimensional solver", "statement": "In exact arithmetic, in dimension 1 with an analytical derivative, default limits and Newton-Raphson, `solve` produces the same iterates as the crate's reference function solver1d.", "quantifier": "For all functions, derivatives, guesses, tolerances and budgets.", "why_tests_cant": "All functions.", "anchors": ["util/src/solver_one_dimensional.rs: solver1d", "src/solver_n_dimensional/solver/rootfinder.rs: solve"]}
{"id": "C57", "title": "Jacobians shipped with the Broyden 1965 test problems are the derivatives of the test functions", "statement": "Each jacobian function of the test cases is the matrix of partial derivatives of the corresponding function.", "quantifier": "At all real points.", "why_tests_cant": "A statement about derivatives at all points.", "anchors": ["util/src/test_cases/broyden1965.rs"]}
{"id": "C58", "title": "A tolerance that is NaN does not disable the solver", "statement": "solve with a NaN tolerance never reports success for a model whose residuals are not small.", "quantifier": "For all models.", "why_tests_cant": "Comparison semantics for all residual values.", "anchors": ["src/solver_n_dimensional/solver/rootfinder.rs: solve", "src/solver_n_dimensional/solver/parameters.rs"]}
{"id": "C59", "title": "The max-norm used for the verdict", "statement": "The scalar compared with the tolerance is the largest stopping residual when none is NaN, 0 for an empty vector.", "quantifier": "For all vectors of doubles.", "why_tests_cant": "All vectors; NaN propagation.", "anchors": ["src/solver_n_dimensional/solver/rootfinder.rs: solve (amax)"]}
{"id": "C60", "title": "The inverse used in the Newton step is a true inverse", "statement": "In exact arithmetic, whenever the LU inversion of a square matrix succeeds, the result H satisfies J*H = I and H*J = I, and it fails only on singular matrices.", "quantifier": "For all sizes and real matrices.", "why_tests_cant": "All matrices.", "anchors": ["src/solver_n_dimensional/solver/jacobian/jacobian_struct.rs: compute_inverse"]}
{"id": "C61", "title": "The documented solutions of the Broyden 1965 problems are exact roots", "statement": "The solution vectors shipped with cases 5 to 10 are roots of the corresponding functions in exact arithmetic, and the jacobian of case 10 is singular exactly where the documentation says.", "quantifier": "For the six cases; for all points in the singularity claim.", "why_tests_cant": "The tests compare doubles with a tolerance; exact roots involve nested square roots.", "anchors": ["util/src/test_cases/broyden1965.rs: solution_broyden1965_case5..10"]}
{"id": "C62", "title": "Newton-Raphson is Newton's method", "statement": "In exact arithmetic, Newton-Raphson without damping on an analytical jacobian with default limits and absolute residuals performs Newton's method x' = x - J(x)^-1 F(x): `solve` returns Ok at the first iterate whose largest absolute residual is at most the tolerance, NonConvergenceError after max_iter steps if there is none, and JacobianError at the first iterate above the tolerance with a singular jacobian.", "quantifier": "For all sizes, functions, jacobians, guesses, tolerances and budgets.", "why_tests_cant": "All functions and all sizes.", "anchors": ["src/solver_n_dimensional/solver/rootfinder.rs: solve", "src/solver_n_dimensional/solver/jacobian/jacobian_analytic.rs"]}
{"id": "C63", "title": "What the log says of the jacobian is true", "statement": "Whenever the debugging log shows a jacobian as up to date with its inverse, the inverse shown beside it is the inverse computed from that very matrix; in exact arithmetic it is its inverse.", "quantifier": "For every model, method and sequence of solves of a new solver.", "why_tests_cant": "Concerns every jacobian written in every run.", "anchors": ["src/solver_n_dimensional/solver/jacobian/jacobian_struct.rs: Display", "src/solver_n_dimensional/solver/rootfinder.rs: jac_to_log"]}
{"id": "C64", "title": "The jacobian shown in the log belongs to the iteration", "statement": "The jacobian shown for an iteration whose step succeeds is the one whose inverse gave the step; when the jacobian of an iteration fails, the log shows no matrix for it.", "quantifier": "For every model, method and iteration.", "why_tests_cant": "Failures at every call of every run.", "anchors": ["src/solver_n_dimensional/solver/rootfinder.rs: compute_newton_raphson_step, evaluate_jacobian_quasi_newton_step", "src/solver_n_dimensional/solver/jacobian/jacobian_finite_diff.rs"]}
{"id": "C65", "title": "Step limits hold between successive iterates", "statement": "From one iterate of `solve` to the next, each variable moves by at most min(max_step_abs, max_step_rel*|v|) from its current value v.", "quantifier": "For every model that keeps its iteratives, every configuration and every iteration.", "why_tests_cant": "Concerns every iteration of every run.", "anchors": ["src/solver_n_dimensional/solver/rootfinder.rs: compute_next_from_inv_jac", "src/solver_n_dimensional/iteratives/iterative_var.rs: step_limitation", "src/solver_n_dimensional/solver/jacobian/jacobian_finite_diff.rs"]}
{"id": "C66", "title": "The verdict on an initial guess rests on its own evaluation", "statement": "When the initial guess meets the criterion, so that no iteration is done, solve returns Ok iff the evaluation of that guess succeeded and FinalEvaluationError iff it was inaccurate, whatever the solver was used for before.", "quantifier": "For all models, configurations and histories of earlier solves with the same solver.", "why_tests_cant": "Concerns a solver used again after a failed solve, for all models.", "anchors": ["src/solver_n_dimensional/solver/rootfinder.rs: solve", "src/solver_n_dimensional/solver/rootfinder.rs: update_model"]}
{"id": "C67", "title": "Newton-Raphson converges quadratically near a regular root", "statement": "In exact arithmetic, Newton-Raphson without damping on an analytical jacobian, started close enough to a root where the jacobian is regular and Lipschitz, never returns a jacobian error; its distance to the root after k iterations is at most q^(2^k-1) times the initial radius with q < 1; it returns Ok once that bound forces the residuals within the tolerance.", "quantifier": "For all sizes, functions with Lipschitz partial derivatives, regular roots, starting points in the ball, tolerances and budgets.", "why_tests_cant": "Concerns all smooth systems and all starting points; the rate cannot be observed on a few runs.", "anchors": ["src/solver_n_dimensional/solver/rootfinder.rs: solve, compute_newton_raphson_step", "src/solver_n_dimensional/mod.rs"]}
{"id": "C68", "title": "With finite differences the convergence is linear", "statement": "In exact arithmetic, Newton-Raphson with finite differences whose perturbations are at most delta in the ball, started close enough to a regular root, never returns a jacobian error; its distance to the root after k iterations is at most q^k times the initial radius with q < 1; it returns Ok once that bound forces the residuals within the tolerance.", "quantifier": "For all sizes, functions, regular roots, perturbation parameters, starting points, tolerances and budgets.", "why_tests_cant": "Concerns all smooth systems, starting points and perturbations.", "anchors": ["src/solver_n_dimensional/solver/jacobian/jacobian_finite_diff.rs", "src/solver_n_dimensional/iteratives/iterative_var_fd.rs: compute_perturbation"]}
{"id": "C69", "title": "The stationary Newton method converges linearly near a regular root", "statement": "In exact arithmetic, the stationary Newton method (jacobian of the initial guess kept, analytical or by finite differences) started close enough to a regular root never returns a jacobian error; its distance to the root after k iterations is at most q^k times the initial radius with q < 1; it returns Ok once that bound forces the residuals within the tolerance.", "quantifier": "For all sizes, functions, regular roots, starting points, tolerances and budgets.", "why_tests_cant": "Concerns all smooth systems and starting points.", "anchors": ["src/solver_n_dimensional/solver/rootfinder.rs: evaluate_jacobian_quasi_newton_step", "src/solver_n_dimensional/solver/resolution_method.rs: QuasiNewtonMethod"]}
{"id": "C70", "title": "In one variable every update is the secant method", "statement": "In exact arithmetic, on a convex increasing function of one variable started above its root with the analytical derivative, each of the eight quasi-Newton updates (Broyden or Greenstadt, first or second, jacobian or inverse), with and without damping, visits exactly the iterates of the secant method after one Newton step; they decrease and stay above the root, and a budget of (x0-r) f'(x0)/tolerance iterations is enough for Ok.", "quantifier": "For all convex increasing differentiable functions, starting points above the root, positive tolerances, budgets, the eight updates, with and without damping.", "why_tests_cant": "Concerns all functions and starting points; equality of eight formulas along all runs.", "anchors": ["src/solver_n_dimensional/solver/jacobian/jacobian_approximation.rs", "src/solver_n_dimensional/solver/jacobian/jacobian_inverse_approximation.rs", "src/solver_n_dimensional/solver/rootfinder.rs: evaluate_jacobian_quasi_newton_step"]}
{"id": "C71", "title": "The quasi-Newton updates converge locally", "statement": "In exact arithmetic, for each of the eight quasi-Newton updates, a solve of one equation started close enough to a regular root (continuous non-zero derivative) with the analytical derivative returns Ok for every positive tolerance with a large enough budget.", "quantifier": "For all functions of one variable, regular roots, nearby starting points, tolerances, and the eight updates.", "why_tests_cant": "Concerns all functions and starting points; the tests only start where the residual keeps a positive sign.", "anchors": ["src/solver_n_dimensional/solver/rootfinder.rs: evaluate_jacobian_quasi_newton_step", "src/solver_n_dimensional/residuals/config.rs: evaluate_stopping_residuals"]}
{"id": "C72", "title": "The way a system is written does not matter", "statement": "In exact arithmetic, combining the equations by an invertible matrix and changing the unknowns by an invertible affine map leaves the iterates unchanged, up to that map; exchanging equations or the signs of equations also leaves the verdict and the number of iterations unchanged. This holds for Newton-Raphson and for the quasi-Newton updates.", "quantifier": "For all sizes, functions, jacobians, invertible matrices, affine maps, starting points, tolerances and budgets.", "why_tests_cant": "Relates all pairs of equivalent systems.", "anchors": ["src/solver_n_dimensional/solver/rootfinder.rs: evaluate_jacobian_newton_step", "src/solver_n_dimensional/solver/rootfinder.rs: evaluate_jacobian_quasi_newton_step"]}
{"id": "C73", "title": "A larger iteration budget only continues the run", "statement": "If a solve with budget m' returns anything other than NonConvergenceError (or panics), the same solve with any larger budget returns the same, with the same calls of the model and the same state. If it returns NonConvergenceError, the calls it made are the first calls of the solve with the larger budget, and the iteration count does not decrease.", "quantifier": "For all models, arithmetics, solvers (fresh or used, debug off), tolerances and budgets m' <= m.", "why_tests_cant": "Relates pairs of runs for all models and budgets.", "anchors": ["src/solver_n_dimensional/solver/rootfinder.rs: solve"]}
{"id": "C74", "title": "A larger tolerance never makes a run worse", "statement": "With a larger tolerance a solve makes a prefix of the calls it makes with the smaller one and no more iterations; if the smaller tolerance gives Ok so does the larger one; any other verdict is unchanged.", "quantifier": "For all models on doubles, solvers (debug off), budgets and tolerances tol <= tol'.", "why_tests_cant": "Relates pairs of runs for all models and tolerances.", "anchors": ["src/solver_n_dimensional/solver/rootfinder.rs: solve"]}
{"id": "C75", "title": "An interrupted Newton-Raphson solve can be resumed", "statement": "When a Newton-Raphson solve stops with NonConvergenceError after its budget m1, a new solver with the same settings, started at the point where it stopped with budget m2, ends with the verdict and the state of a single solve with budget m1 + m2; the iteration counts add up.", "quantifier": "For all models that give the same values when evaluated twice at the same point (all four adapters), arithmetics, analytical or finite-difference jacobians, with and without damping, tolerances and budgets.", "why_tests_cant": "Relates triples of runs for all models and budgets.", "anchors": ["src/solver_n_dimensional/solver/rootfinder.rs: solve", "src/solver_n_dimensional/solver/rootfinder.rs: new"]}
{"id": "C76", "title": "With damping the largest error never increases", "statement": "With damping, the largest stopping residual of an iterate is never above that of the iterate before.", "quantifier": "For all functions with analytical jacobians, Newton-Raphson with damping, all iterations of all runs on doubles.", "why_tests_cant": "Concerns all functions and iterations.", "anchors": ["src/solver_n_dimensional/solver/rootfinder.rs: damping"]}
{"id": "C77", "title": "The text of the log can be read back", "statement": "Reading the written log line by line, cutting lines at spaces, bars and equal signs and skipping the rules of the tables, gives back exactly the words of what was recorded: version, parameters, limits of every variable, normalizations, and for every iteration its number, largest error, variables, both members of every equation, errors and matrices, in order. Two logs with the same text recorded the same parameters, numbers, matrices and order of events, up to the sign bit of NaN and to what the texts of the methods do not distinguish.", "quantifier": "For all logs of well-formed entries, on all doubles, with analytical and finite-difference variables.", "why_tests_cant": "A test compares one log with one reference; whether two different runs can leave the same log concerns all pairs of logs.", "anchors": ["src/solver_n_dimensional/solver/log.rs", "src/solver_n_dimensional/solver/parameters.rs: Display", "src/solver_n_dimensional/iteratives/iteratives_base.rs: Display", "src/solver_n_dimensional/residuals/config.rs: Display", "src/solver_n_dimensional/solver/jacobian_struct.rs: Display"]}
{"id": "C78", "title": "The columns of the tables of the log are aligned", "statement": "In every table of the log the bars stand at the same places in all rows, titles and rules, as long as the texts fit the columns; in the tables of points the equal signs do too; the lines of a matrix have the same length and the entries of a column end at the same place.", "quantifier": "For all parameters, variables, residual configurations, points and non-empty rectangular matrices of doubles.", "why_tests_cant": "The reference log of the tests has the misplaced bar itself, and shows few of the widths.", "anchors": ["src/solver_n_dimensional/solver/parameters.rs:93-134", "src/solver_n_dimensional/solver/log.rs:10-12, 136-174", "src/solver_n_dimensional/iteratives/iteratives_base.rs:92-156", "src/solver_n_dimensional/residuals/config.rs:146-185", "src/solver_n_dimensional/solver/jacobian_struct.rs:131-164"]}
{"id": "C79", "title": "The message of a refused configuration describes its fault", "statement": "When a configuration file is refused, the error message names a fault the file really has: the section that is missing or repeated, the attribute that is missing or is not a number, the word that is not among the choices listed, the name that is not the one expected, or the rule the values break; the name, attribute and value quoted are those of the file.", "quantifier": "For all documents, with finite differences and with a jacobian.", "why_tests_cant": "Tests of the parser expect a panic without looking at its text, and each has one fault; the wrong message is only seen by reading it.", "anchors": ["src/solver_n_dimensional/xml_parser/node_residual.rs:17-22", "src/solver_n_dimensional/xml_parser/node_solver.rs", "src/solver_n_dimensional/xml_parser/node_iterative.rs", "src/solver_n_dimensional/xml_parser/node_iterative_fd.rs", "src/solver_n_dimensional/xml_parser/node_iterative_jac.rs", "src/solver_n_dimensional/xml_parser/parser.rs", "src/solver_n_dimensional/xml_parser/util.rs"]}
{"id": "C80", "title": "The layout of a configuration file does not matter", "statement": "Two XML texts of the same elements and attributes are read as the same configuration, or refused with the same error, whatever their white space, quotes, entities, comments, declaration and the way empty elements are closed.", "quantifier": "For all documents and all texts of them generated by a grammar written apart from the reader.", "why_tests_cant": "There are infinitely many layouts of each document; the tests have one.", "anchors": ["src/solver_n_dimensional/xml_parser/parser.rs", "src/solver_n_dimensional/xml_parser/xml_file_fd.rs", "src/solver_n_dimensional/xml_parser/xml_file_jac.rs"]}
{"id": "C81", "title": "The numbers of a configuration file are read as written", "statement": "An attribute is read as a number exactly if it is a decimal number with optional sign, point and exponent in e or E, or inf, infinity or nan in any case; the number read is the double nearest to the one written, ties to even, with its sign, infinite if it is too large. A count is read exactly if it is made of digits with an optional plus sign and is below 2^64.", "quantifier": "For all texts and all doubles.", "why_tests_cant": "Tests read few literals; the nearest double is a statement on all decimal numbers, and the refused texts are infinitely many.", "anchors": ["src/solver_n_dimensional/xml_parser/util.rs:3-42"]}
{"id": "C82", "title": "Numbers are shown with the fewest digits that identify them", "statement": "A finite nonzero double is shown as an optional minus sign, digits, and if needed a point and digits, without superfluous zeros and without exponent. At most 17 digits are significant. No decimal text that is read as the same double has fewer significant digits, and none with as many is nearer to it. Zeros are shown as 0 or -0, infinities as inf or -inf, the others as NaN.", "quantifier": "For all doubles, all decimal texts with any sign and exponent.", "why_tests_cant": "Shortness is a statement on all other texts of the number, and there are 2^64 numbers.", "anchors": ["src/solver_n_dimensional/iteratives/iterative_var.rs:124-149", "src/solver_n_dimensional/solver/log.rs"]}
{"id": "C83", "title": "The log tells the evaluations of the model", "statement": "Every point in the log, with its values and errors, is the state of the model just after an evaluation that was not unusable, and the parameters are those of the solver, whatever the result of the run. The log of a run that ends with a verdict follows the calls made on the model: the guess; then for each iteration the calls of its jacobian, the evaluation of the proposed point and, if it is damped, of the damped one, each line read after the calls so far. Two runs that wrote the same text went through the same points with the same values, errors and matrices.", "quantifier": "For all models, solvers, numbers of iterations and inversion routines; the last sentence for models with as many equations as variables, on doubles.", "why_tests_cant": "Tests compare one log with a reference file; that nothing is shown which the model did not compute concerns every run.", "anchors": ["src/solver_n_dimensional/solver/rootfinder.rs:335-497", "src/solver_n_dimensional/solver/log.rs"]}
{"id": "C84", "title": "The documented set-up works from the guess to the result", "statement": "With the default residuals and iteratives of the size of the guess and default_with_guess, the solver is built, the resolution does not panic and takes at most 50 iterations. It ends either successfully at a point where all values of the function are below 1e-6 in magnitude unless one is NaN, or after 50 iterations at a point where some value is not below, or because a jacobian was not invertible.", "quantifier": "For all sizes, guesses, functions (with or without jacobian, given as functions or closures), methods, with or without damping.", "why_tests_cant": "Tests run a few functions; this is for every function between vectors of the right size.", "anchors": ["src/lib.rs:240-300", "src/solver_n_dimensional/solver/default.rs:63-90", "src/solver_n_dimensional/residuals/mod.rs:145-147", "src/solver_n_dimensional/iteratives/default.rs"]}
{"id": "C85", "title": "Near a root the methods converge with damping too", "statement": "Near a regular root, Newton-Raphson and stationary Newton bring the variables closer to the root by a fixed factor at each iteration, whether or not damping is asked for: with q the factor of the undamped method, (1 + q) / 2. A run reports success at a point within tolerance or spends all its iterations, and succeeds within any number of iterations for which the bound on the residuals is below the tolerance. With finite differences, where damping starts from the last perturbed point, the distance is bounded up to the size of the perturbations divided by 1 - q. When the conditioning of the jacobian allows it, damping never steps in and the convergence of Newton-Raphson is quadratic.", "quantifier": "For all dimensions, functions with Lipschitz partial derivatives around a root with invertible jacobian, guesses in the ball, tolerances, budgets, with or without damping; in exact arithmetic.", "why_tests_cant": "Tests run a few starting points; this is for a whole ball around every such root, in every dimension, whichever iterations are damped.", "anchors": ["src/solver_n_dimensional/solver/rootfinder.rs:300-387", "src/solver_n_dimensional/solver/rootfinder.rs:408-450"]}
{"id": "C86", "title": "Every residual is measured as it was configured", "statement": "The vectors made by convert_into_vecs are accepted by ResidualsConfig::new; for the values of a model with as many equations, the stopping residual of equation i is the magnitude of the difference of its members by the stopping method of configuration i, and its update residual the difference by the update method of configuration i; get_values(i) returns its two members. ResidualsConfig::new, ResidualsValues::new and JacobianValues::new keep what they are given if the sizes agree (square matrices of the same size for the last) and panic otherwise.", "quantifier": "For all numbers of equations, configurations, values and matrices.", "why_tests_cant": "Tests use a few vectors, mostly with the same method everywhere; this is for every mix of methods and every size.", "anchors": ["src/solver_n_dimensional/residuals/config.rs:24-135", "src/solver_n_dimensional/residuals/values.rs:29-63", "src/solver_n_dimensional/residuals/values.rs:105-123"]}
{"id": "C87", "title": "An accepted point satisfies the equations as real numbers and is close to the root", "statement": "When solve returns Ok or FinalEvaluationError with a finite tolerance tol that is a normal double, and no stopping residual is NaN, the two members l and r of every equation are finite and |l - r| <= tol * (1 + 2^-50) * size, as real numbers, where size is 1 (Abs), |l + r| / 2 (Rel, plus half the smallest double) or 1 + |l + r| / 2 (Adapt). Hence, if the model computes real equations to within eps and a point which satisfies them to within d is within beta * d of the root, the point found is within beta * (tol * (1 + 2^-50) + eps) of the root. In a box in which the slopes are within e of a matrix whose inverse is bounded by b, with b n e < 1, this holds with beta = b / (1 - b n e).", "quantifier": "For all models, methods, damping, tolerances, numbers of equations and finite members.", "why_tests_cant": "Rounding in the residual itself: tests compare a few results with known roots, this bounds the error for all doubles.", "anchors": ["src/solver_n_dimensional/solver/rootfinder.rs:389-451", "src/solver_n_dimensional/residuals/mod.rs:87-93", "src/solver_n_dimensional/residuals/config.rs:119-135"]}
{"id": "C88", "title": "With the default perturbations, finite differences give the slopes", "statement": "For a variable x of magnitude at most 2^1022 with the default parameters, the perturbation d is finite, at least 2^-25, and the displacement fl(x + d) - x actually made is d to within one part in 2^27. If the residuals of the model are real functions evaluated to within eps, with slope a and curvature bounded by K, every finite entry of the finite-difference jacobian computed on doubles is within 2^-26 |a| + (1 + 2^-24) (K d + 2 eps / d) + 2^-1075 of the slope.", "quantifier": "For all models whose residuals depend on the point only, numbers of variables, normalization methods, points and doubles.", "why_tests_cant": "The error depends on the rounding of x + d, of the difference and of the quotient, for every double; tests sample a few points of a few functions.", "anchors": ["src/solver_n_dimensional/solver/jacobian/jacobian_finite_diff.rs", "src/solver_n_dimensional/iteratives/iterative_var_fd.rs:38-47", "src/solver_n_dimensional/iteratives/iterative_var_fd.rs:180-185"]}
{"id": "C89", "title": "With damping, Newton-Raphson is the documented damped algorithm", "statement": "In exact arithmetic, with the analytical jacobian, damping on, absolute residuals and unlimited steps: every iteration starts at a point whose error exceeds the tolerance and leads to the end of Newton's step if the error is not larger there, and exactly half way to it otherwise, whatever the error is at that point. solve returns Ok when it reaches a point within the tolerance, NonConvergenceError after exactly max_iter iterations otherwise, and the error of the jacobian exactly at a point above the tolerance with a singular jacobian.", "quantifier": "For all sizes, functions, jacobians, guesses, tolerances and budgets.", "why_tests_cant": "Tests compare a few final results; this is the whole sequence of points for all problems.", "anchors": ["src/solver_n_dimensional/solver/rootfinder.rs: damping", "src/solver_n_dimensional/solver/rootfinder.rs: update_model"]}
{"id": "C90", "title": "Newton-Raphson converges on convex or concave, strictly monotone functions from any guess, damping or not", "statement": "In exact arithmetic, for a differentiable, convex or concave, strictly increasing or decreasing function of one variable with a root r, solve with the analytical derivative returns Ok for every guess and tolerance > 0 when max_iter is large enough, with and without damping. For a convex increasing function and x0 < r a budget above (2 (r - x0) f'(r) + (X - r) f'(X)) / tolerance + 1 is enough, where X = r - f(x0) / f'(x0).", "quantifier": "For all such functions, guesses, tolerances and damping settings.", "why_tests_cant": "Convergence for all functions and guesses; halving the step could stall or oscillate.", "anchors": ["src/solver_n_dimensional/solver/rootfinder.rs: damping", "src/solver_n_dimensional/solver/rootfinder.rs: solve"]}
{"id": "C91", "title": "The reported solution lies within the bounds", "statement": "When solve returns Ok from an initial guess within [min_value, max_value], the point it leaves in the model lies within [min_value, max_value].", "quantifier": "For all models that keep the point they are given, accepted limits, methods, damping settings, analytical jacobians and finite differences.", "why_tests_cant": "Concerns all runs; the tests have no bounded case with damping and finite differences.", "anchors": ["src/solver_n_dimensional/iteratives/iterative_var.rs: step_limitation", "src/solver_n_dimensional/solver/rootfinder.rs: damping"]}
{"id": "C92", "title": "The values and slopes at the guess can promise convergence", "statement": "In exact arithmetic, let b bound the inverse of the jacobian at the initial guess, eta the first step, and ell the rate of change of the entries of the jacobian within 3/2 eta of the guess, with n unknowns. If b n ell eta <= 1/4, there is a root within 3/2 eta of the guess; Newton-Raphson with the analytical jacobian never fails, stays within 3/2 eta, is within 3/2 (3/4)^k (4/9)^(2^k-1) eta of that root after k iterations, and returns Ok for every tolerance > 0 when max_iter is large enough, with and without damping. That root is the only one within 3/2 eta of the guess, and a point accepted with the tolerance tol is within 8/5 b tol of it.", "quantifier": "For all sizes, functions with such slopes, guesses, tolerances, max_iter and damping settings.", "why_tests_cant": "The existence of a root and the convergence to it follow from the guess for a whole class of functions.", "anchors": ["src/solver_n_dimensional/solver/rootfinder.rs: solve", "src/solver_n_dimensional/solver/rootfinder.rs: compute_newton_raphson_step", "src/solver_n_dimensional/solver/rootfinder.rs: compute_next_from_inv_jac"]}
{"id": "C93", "title": "The feature additional_log_info only adds lines, which identify the runner", "statement": "Built with the feature additional_log_info, the log of any run differs from the log written without it by seven lines: the operating system, the host, the user and the version of rustc before the version of the crate, and the start time (title, UTC, local) after it. When the texts given by the system are single lines, two logs with the same text were written for the same system, host, user, rustc and times, and are the same without the feature.", "quantifier": "every model, solver, run (whatever its result), crate version and texts of the system without newlines (a counterexample shows that newlines must be excluded)", "why_tests_cant": "The test of the log skips these lines, since they depend on the machine; it is run for one model and one method.", "anchors": ["src/solver_n_dimensional/solver/log.rs: SolverLog::new", "src/solver_n_dimensional/solver/log.rs: write_user_infos", "src/solver_n_dimensional/solver/log.rs: write_rustc_info", "src/solver_n_dimensional/solver/log.rs: write_time"]}
{"id": "C94", "title": "Slopes that change little around the guess promise convergence, also with finite differences, a fixed matrix or a wrong jacobian", "statement": "In exact arithmetic, let the partial derivatives within rho of the guess be within e of the entries of a matrix A whose inverse is bounded by b, with n unknowns, b n e <= 1/5, and let F be the largest residual at the guess, with 5/2 b F <= r <= rho. Then there is exactly one root within rho of the guess, and it is within r. Newton-Raphson and the stationary method, with any user jacobian whose entries are within e of those of A, or with finite differences whose perturbations are at most delta <= rho - r, with and without damping (with damping and finite differences, for tolerances of at least 2 (|A_ij| + e) delta), never fail otherwise than by NonConvergenceError after max_iter iterations, stay within r of the guess, at least halve the largest residual at every iteration, end within 5/4 b times the final residual of the root, and return Ok after at most k iterations when F / 2^k <= tol and k <= max_iter.", "quantifier": "For all sizes, functions with such slopes, guesses, jacobians and perturbations within these bounds, tolerances, max_iter and damping settings.", "why_tests_cant": "It is a promise for a whole class of functions, of wrong jacobians and of perturbations, including the existence of the root.", "anchors": ["src/solver_n_dimensional/solver/rootfinder.rs: solve", "src/solver_n_dimensional/solver/rootfinder.rs: compute_newton_raphson_step", "src/solver_n_dimensional/solver/rootfinder.rs: compute_quasi_newton_step", "src/solver_n_dimensional/solver/rootfinder.rs: compute_next_from_inv_jac", "src/solver_n_dimensional/solver/jacobian/jacobian_finite_diff.rs: compute_jacobian_from_finite_difference"]}
{"id": "C95", "title": "From above, runs on convex systems with M-matrix slopes go down to the only root, however far the guess", "statement": "In exact arithmetic and without damping, let the residuals be convex on a domain (f(y) - f(x) >= J(x)(y - x) in every component), let every J(x) have no positive entry outside the diagonal and satisfy J(x) u >= c > 0 for one positive vector u, let f(lo) <= 0 and f(x0) >= 0, and let mu bound the entries of the matrices used. Then the domain holds exactly one root xs, and it is above lo. Newton-Raphson from x0 with the jacobian, with any user jacobian at least as steep, or with finite differences with positive perturbations, and the stationary method when the matrix at the guess is at least as steep as those below, never fail otherwise than by NonConvergenceError after max_iter iterations; every run ends at a y with xs <= y <= x0, residuals not negative and y_i - xs_i <= (largest residual / c) u_i; the number of iterations times tol is at most mu times the decrease of the sum of the variables, so the run returns Ok whenever max_iter * tol > mu * sum(x0 - xs). With the right jacobian the guess may be anywhere in the domain, provided that the point after it is in the domain: that point is above the root.", "quantifier": "For all sizes, convex functions with such slopes, guesses (no nearness is asked), jacobians steep enough, positive perturbations, tolerances and max_iter.", "why_tests_cant": "It is global convergence for a whole class of systems, with a bound on the number of iterations; runs show single systems and guesses.", "anchors": ["src/solver_n_dimensional/solver/rootfinder.rs: solve", "src/solver_n_dimensional/solver/rootfinder.rs: compute_newton_raphson_step", "src/solver_n_dimensional/solver/rootfinder.rs: compute_quasi_newton_step", "src/solver_n_dimensional/solver/rootfinder.rs: compute_next_from_inv_jac", "src/solver_n_dimensional/solver/jacobian/jacobian_finite_diff.rs: compute_jacobian_from_finite_difference"]}
{"id": "C96", "title": "Near a root the methods converge in floating point too, down to the level of the roundings", "statement": "In f64, without damping and without limits on the steps, let the computed residuals within r of xs be finite and equal, up to e, to slopes S(x) applied to x - xs, with row sums of |S(x)| at most sigma; let the floating-point inverse H in use be finite, with row sums of |H| at most b and of |I - H S(x)| at most q < 1; let eps = b e + 4 n (u b phi + t) + u B + t, where u = 2^-53, t = 2^-1075, phi = sigma r + e and B bounds the coordinates, and let q r + eps <= r. Then Newton-Raphson with a jacobian, Newton-Raphson with finite differences (which displace the point by delta; r becomes r + delta on the left), and the stationary method with either source never panic and never fail otherwise than by NonConvergenceError after max_iter iterations; after k iterations the point is within q^k r + (q delta + eps) / (1 - q) of xs; the run returns Ok within m <= max_iter iterations as soon as sigma (q^m r + (q delta + eps) / (1 - q)) + e <= tol; and on Ok the point is within b (tol + e) / (1 - q) of xs. For one variable the inverse is 1 / j rounded and the conditions are on j alone.", "quantifier": "For all sizes n (n u <= 1/8), functions and jacobians given as computations on f64, guesses in the ball, tolerances that are not NaN, max_iter.", "why_tests_cant": "It bounds the effect of every rounding of every run; a test shows one sequence of roundings. Already the example x^2 - 2 covers about 10^15 guesses.", "anchors": ["src/solver_n_dimensional/solver/rootfinder.rs: solve", "src/solver_n_dimensional/solver/rootfinder.rs: compute_newton_raphson_step", "src/solver_n_dimensional/solver/rootfinder.rs: compute_quasi_newton_step", "src/solver_n_dimensional/solver/rootfinder.rs: compute_next_from_inv_jac", "src/solver_n_dimensional/solver/rootfinder.rs: update_model", "src/solver_n_dimensional/solver/jacobian/jacobian_finite_diff.rs: compute_jacobian_from_finite_difference", "src/solver_n_dimensional/solver/jacobian/jacobian_analytic.rs: evaluate_jacobian_from_analytical_function"]}
{"id": "C97", "title": "In floating point the inverse of every well-conditioned jacobian is computed, and is accurate", "statement": "For every n x n matrix A of finite doubles of magnitude at most M that shortens no vector (maximum norm) by more than a factor beta (for example a matrix whose diagonal dominates its rows by 1 / beta), as soon as 20 n^2 u (1 + 4 n g M beta) <= 1 with u = 2^-53 and g = (9/4)^n, the inversion succeeds, no entry overflows, and every entry of A H - I is at most 20 n^2 u g (1 + 4 n g M beta). If the exact inverse inverts slopes S up to q, the computed one does up to q + beta rho ||S|| with rho = n times that error, so that Newton-Raphson with a jacobian or finite differences and the stationary method converge in floating point (as in C96) under conditions on the jacobian alone. Outside this range a refusal says nothing: some singular matrices are inverted and some regular ones refused.", "quantifier": "For all n >= 1, all such matrices, functions, guesses, tolerances, max_iter.", "why_tests_cant": "It bounds the roundings of the elimination for every matrix, pivot order and size.", "anchors": ["src/solver_n_dimensional/solver/jacobian/jacobian_struct.rs: compute_inverse", "src/solver_n_dimensional/solver/jacobian/jacobian_struct.rs: update_jacobian_with_exact_value", "src/solver_n_dimensional/solver/rootfinder.rs: solve", "src/solver_n_dimensional/solver/rootfinder.rs: compute_newton_raphson_step"]}
{"id": "C98", "title": "In floating point damping does not prevent convergence near a root", "statement": "In the situation of C96 (computed values within e of slopes times the distance from xs, computed inverses that invert the slopes up to q < 1 and have norm at most b) but with damping on, whichever iterations are damped: if f r + a <= r with f = (1 + q) / 2 and a = f delta + roundings (those of C96 plus 3 u B + 6 * 2^-1075 for the point half way), a run from within r of xs never panics, stays within r, and after k iterations is within f^k r + a / (1 - f) of xs; it ends Ok with errors within the tolerance or with NonConvergenceError after exactly max_iter iterations; and it ends Ok within m <= max_iter iterations for every m with sigma (f^m r + a / (1 - f)) + e <= tolerance. Holds for Newton-Raphson and the stationary method, with a jacobian (delta = 0) or finite differences.", "quantifier": "For all n, functions on doubles, jacobians, guesses within r, tolerances, max_iter, damped or undamped outcome of every iteration.", "why_tests_cant": "Damping depends on comparisons of rounded errors; the statement covers every pattern of damped iterations, every function and every size.", "anchors": ["src/solver_n_dimensional/solver/rootfinder.rs: damping", "src/solver_n_dimensional/solver/rootfinder.rs: update_model", "src/solver_n_dimensional/solver/rootfinder.rs: solve"]}
{"id": "C99", "title": "Bounds around the root and wide step limits do not prevent convergence in floating point; a relative limit holds a variable at 0", "statement": "In the situation of C96 or C98 (damping off or on) the variables may have bounds and step limits: if the bounds of every variable contain the root, the bounds may be equal to it, and every limit on a step from a point within r + delta of the root exceeds 2 (r + delta), then a run from within r of the root, even from outside of the bounds, never panics, stays within r, contracts as without limits, ends Ok or with NonConvergenceError after exactly max_iter iterations, and ends Ok within m <= max_iter iterations for every m with sigma (f^m r + a / (1 - f)) + e <= tolerance. Holds for Newton-Raphson and the stationary method, with a jacobian or finite differences. The condition on the limits cannot be dropped: a finite max_step_rel gives the limit 0 at 0, so a variable at 0 stays at 0 whatever the (not NaN) step; a variable with minimum 0 and a finite max_step_rel that starts from 0 is 0 at the end of every run with a jacobian from the user, for every model, method, damping and number of iterations.", "quantifier": "For all n, functions on doubles, jacobians, limits, guesses within r, tolerances, max_iter, damping; for the variable at 0: all models which keep the iteratives.", "why_tests_cant": "The clamping and the minima of limits interact with rounding at every step of every run; tests run a few systems, mostly without limits, and never start a limited variable from 0.", "anchors": ["src/solver_n_dimensional/iteratives/iterative_var.rs: step_limitation", "src/solver_n_dimensional/iteratives/iterative_var_fd.rs: step_limitation", "src/solver_n_dimensional/solver/rootfinder.rs: compute_next_from_inv_jac", "src/solver_n_dimensional/solver/rootfinder.rs: solve"]}
{"id": "C100", "title": "Newton-Raphson converges quadratically in floating point, down to the level of the roundings", "statement": "In the situation of C96 without damping, with bounds and step limits as in C99: let the computed inverse of the jacobian at every double point x within d <= r of the root invert the slopes between x and the root up to c d + q (c from the Lipschitz constant of the jacobian, q from the errors of the inversion). Then a run from within r never panics and after k iterations is within D_k of the root, where D_0 = r and D_(k+1) = (c D_k + q) (D_k + delta) + a, a the roundings of one iteration; it ends Ok with errors within the tolerance, within m <= max_iter iterations for every m with sigma D_m + e <= tolerance, or with NonConvergenceError after exactly max_iter iterations. Moreover D_k <= max((2 c r)^(2^k) / (2 c), 2 A) with A = c r delta + q (r + delta) + a: the correct digits double with each iteration until twice the errors of one iteration are reached. With a jacobian (delta = 0) or finite differences; for well-conditioned jacobians the conditions are on the jacobian alone.", "quantifier": "For all n, functions on doubles, jacobians, limits, guesses within r, tolerances, max_iter, k.", "why_tests_cant": "Tests see the number of iterations of a few runs; the rate for all functions, sizes and guesses, with every rounding of the evaluation, the elimination, the product and the clamping counted, is a statement about infinitely many runs.", "anchors": ["src/solver_n_dimensional/solver/rootfinder.rs: solve", "src/solver_n_dimensional/solver/rootfinder.rs: compute_next_from_inv_jac", "src/solver_n_dimensional/iteratives/iterative_var.rs: step_limitation"]}
{"id": "C101", "title": "On doubles, Newton-Raphson and stationary Newton are bit for bit the algorithm of the textbooks", "statement": "For every system given by a function on doubles with values of the right length, with its jacobian or through finite differences, with any limits and bounds of the variables, any guess, tolerance and max_iter, damped or not: solve does not panic and ends with the verdict, the number of iterations and the point (every bit of it) of this short algorithm. While the largest |f_i(x)| exceeds the tolerance: stop with NonConvergenceError when max_iter iterations are spent; invert the matrix of slopes at x (stationary Newton: only the first time), ending with JacobianError(InvalidJacobianInverseError), counted as one more iteration, when that fails; propose z - H f(z), each step shortened to its limits and the values clamped to their bounds, where z is x, or the last perturbed point when finite differences were taken; keep the proposal, or with damping and when it is worse than z the point half way. Otherwise end with Ok. The model is left with the values of f at that point.", "quantifier": "For all n (n >= 1 for finite differences), functions, jacobians, limits, guesses, tolerances (NaN included), max_iter, damped or not, both methods.", "why_tests_cant": "Tests compare the result of a few runs with known roots up to a tolerance; here the whole run, its failures included, is equal to the one of an independent program for all functions and all doubles, NaN and infinities included.", "anchors": ["src/solver_n_dimensional/solver/rootfinder.rs: solve", "src/solver_n_dimensional/solver/rootfinder.rs: compute_next_from_inv_jac", "src/solver_n_dimensional/solver/rootfinder.rs: damping", "src/solver_n_dimensional/solver/jacobian/jacobian_finite_diff.rs: compute_jacobian_from_finite_difference", "src/solver_n_dimensional/iteratives/iterative_var.rs: step_limitation"]}
{"id": "C102", "title": "On doubles, the sign of the equations and of zeros does not matter to Newton-Raphson and stationary Newton", "statement": "Let a second system have, at the same point, the values of the first one with the sign of some equations changed (f'_i = s_i f_i, s_i = 1 or -1, and the rows of the jacobian accordingly), zeros being allowed to differ in their sign, in the values as in the points. Then solve, from the same guess up to the signs of zeros, ends with the same verdict, after the same number of iterations, at the same numbers, for Newton-Raphson and stationary Newton, with the jacobian or finite differences, with or without damping, with any bounds and positive step limits: every rounding of the elimination, the products and the limits commutes with the signs, overflows and NaN included, and the pivots are the same. For the other quasi-Newton methods it is false (C72).", "quantifier": "For all n, systems (functions whose values do not depend on the sign of zeros), signs of the equations, guesses, limits, tolerances, max_iter.", "why_tests_cant": "Tests compare a run with a known root; this compares all pairs of runs, and the roundings must agree bit for bit up to the sign.", "anchors": ["src/solver_n_dimensional/solver/rootfinder.rs: solve", "src/solver_n_dimensional/solver/rootfinder.rs: compute_next_from_inv_jac", "src/solver_n_dimensional/solver/jacobian/jacobian_struct.rs: compute_inverse", "src/solver_n_dimensional/solver/jacobian/jacobian_finite_diff.rs: compute_jacobian_from_finite_difference", "src/solver_n_dimensional/iteratives/iterative_var.rs: step_limitation"]}
{"id": "C103", "title": "On doubles, the updating quasi-Newton methods are bit for bit a short reference algorithm", "statement": "With absolute residuals, solve with Broyden's or Greenstadt's first or second method, updating the jacobian or its inverse, does exactly this: as long as the largest error exceeds the tolerance and iterations remain, the first iteration computes and inverts the jacobian (given or by difference quotients), every later one updates the matrix (or the inverse) with the last move and the change of the absolute values of the equations; the point is moved by the limited step; with damping, an error that grew puts the point half way if the matrix was computed in this iteration, and otherwise keeps the point and makes the next iteration compute the matrix again. The verdict, the iteration count, the point and the values left in the model are those of this algorithm, also when a computed or updated matrix has no inverse: the run ends there, at the point where it was tried.", "quantifier": "For all n, systems of doubles, the eight updating methods, guesses, bounds, step limits, tolerances, max_iter, with or without damping, jacobian given or not.", "why_tests_cant": "Tests check that a root is reached; a wrong pair, a forgotten recomputation or a stale inverse still converges on most systems. This fixes every bit of every run.", "anchors": ["src/solver_n_dimensional/solver/rootfinder.rs: solve", "src/solver_n_dimensional/solver/rootfinder.rs: evaluate_jacobian_quasi_newton_step", "src/solver_n_dimensional/solver/rootfinder.rs: compute_quasi_newton_step", "src/solver_n_dimensional/solver/rootfinder.rs: damping", "src/solver_n_dimensional/solver/rootfinder.rs: update_model", "src/solver_n_dimensional/solver/jacobian/jacobian_approximation.rs: approximate_jacobian", "src/solver_n_dimensional/solver/jacobian/jacobian_inverse_approximation.rs: approximate_inv_jacobian", "src/solver_n_dimensional/solver/jacobian/jacobian_struct.rs: update_inverse"]}
{"id": "C104", "title": "The update formulas, entry by entry, with the order of their operations", "statement": "With the defect g = A s - y (sums from left to right), the update of a matrix A along c is a_ij - (g_i c_j) / (c.s), or, for the methods which multiply by the matrix, a_ij - (sum_k (g_i c_k) a_kj) / ((cA).s), and c is: for the jacobian the move s (Broyden first), the change y of the errors (Broyden second, through the matrix), the errors (Greenstadt first, through the matrix), H y (Greenstadt second); for the inverse, with s and y exchanged in the formula, s (Broyden first, through the matrix), y (Broyden second), the errors (Greenstadt first), (H^T H) y (Greenstadt second). approximate_jacobian and approximate_inv_jacobian compute exactly these expressions, operation by operation, and never panic on vectors and matrices of the same size; the result is square.", "quantifier": "For all sizes, matrices, vectors, and for any arithmetic (no law used), hence bit for bit on doubles.", "why_tests_cant": "A change of the order of the operations, or of a vector by another one which is equal on the test systems, passes the convergence tests.", "anchors": ["src/solver_n_dimensional/solver/resolution_method.rs: broyden_first_method_udpate_jac", "src/solver_n_dimensional/solver/resolution_method.rs: broyden_first_method_udpate_inv_jac", "src/solver_n_dimensional/solver/resolution_method.rs: broyden_second_method_udpate_jac", "src/solver_n_dimensional/solver/resolution_method.rs: broyden_second_method_udpate_inv_jac", "src/solver_n_dimensional/solver/resolution_method.rs: quasi_method_update_jac", "src/solver_n_dimensional/solver/resolution_method.rs: quasi_method_update_inv_jac", "src/solver_n_dimensional/solver/resolution_method.rs: greenstadt_second_method_udpate_jac", "src/solver_n_dimensional/solver/jacobian/jacobian_approximation.rs: approximate_jacobian", "src/solver_n_dimensional/solver/jacobian/jacobian_inverse_approximation.rs: approximate_inv_jacobian"]}
{"id": "C105", "title": "On doubles, the inverse is that of the LU decomposition with row exchanges, operation by operation, and a failure means a column without pivot", "statement": "When compute_inverse finds an inverse H of a square matrix A, there are an order p of the rows, an upper table U and multipliers L with, operation by operation and in this order: u_kj = a_(p k)j - l_k0 u_0j - ... - l_k(k-1) u_(k-1)j, l_ik = (a_(p i)k - l_i0 u_0k - ... ) * (1 / u_kk), no u_kk is 0 and no entry left in the column is larger than the pivot; of several largest entries the pivot is the one in the first position, the rows being arranged by the exchanges made so far, and a NaN is the pivot when and only when it is in the first position. This leaves only one p, L and U. Further, y = the same forward substitution on the rows of the identity in the order p, and h_kc = (y_kc - u_k(n-1) h_(n-1)c - ... - u_k(k+1) h_(k+1)c) / u_kk. When it finds none, the same holds up to some column where all entries left are 0 or NaN: nothing else is refused, in particular no small pivot.", "quantifier": "For all sizes and square matrices of doubles, infinities and NaN included.", "why_tests_cant": "Tests see few matrices; the roundings and the choice of the pivots decide the last bits of every run.", "anchors": ["src/solver_n_dimensional/solver/jacobian/jacobian_struct.rs: compute_inverse", "src/solver_n_dimensional/solver/jacobian/jacobian_struct.rs: update_jacobian"]}
{"id": "C106", "title": "On doubles, the order of the equations does not matter to the Newton step", "statement": "Writing the same equations in another order (rows of the jacobian and residuals rearranged alike) gives the same inverse with its columns rearranged, and the same raw step - H * residuals, bit for bit. Refuted as such: equal entries competing for a pivot change the inverse, and with three equations the sums are rounded in another order. What holds: when every pivot is greater than the entries left below it, an inverse is found for every order and is the same but for the order of its columns; with two equations the raw step is then the same.", "quantifier": "For all sizes, square matrices of doubles and orders of the rows; the product for two equations.", "why_tests_cant": "It compares all orders of all systems, bit by bit; equal pivots and the order of the sums make differences that a test with a tolerance does not see.", "anchors": ["src/solver_n_dimensional/solver/jacobian/jacobian_struct.rs: compute_inverse", "src/solver_n_dimensional/solver/rootfinder.rs: compute_next_from_inv_jac"]}
