(** The examples of the documentation comments, and the tests of tests/errors,
    tests/jacobian, tests/model, tests/user_model and
    tests/advanced_parametrization, run on the binary64 model. *)
From Coq Require Import Ascii.
From Coq Require Import Reals Lra.
From Flocq Require Import Core BinarySingleNaN.
From Verif Require Import Base Num Linalg Residuals Iteratives UserModel Jacobian Solver F64 Trace Samples TestCases
  Text Xml XmlText Display ValidationSolver ValidationLog F64Facts F64Arith LimitFacts PropsNorm PropsSim PropsPanic PropsDefault.
Open Scope string_scope.
Open Scope list_scope.

(** A literal of the documentation, and equality of values. *)
Definition lit (t : string) : f64 := match parse_f64 t with Some x => x | None => nnan end.
Definition is_lit (x : f64) (t : string) : bool := neqb x (lit t).
Definition lit_vec (x : vec f64) (t : list string) : bool :=
  Nat.eqb (length x) (length t) && forallb (fun xt => is_lit (fst xt) (snd xt)) (combine x t).

(** *** model/model_from_func.rs:13-30 and 90-117, model_from_closure.rs:12-29 and 89-117 *)
Definition square (x : vec f64) : vec f64 := match x with [a] => [nmul a a] | _ => [] end.
Definition square_jac (x : vec f64) : mat f64 := match x with [a] => [[nmul n2 a]] | _ => [] end.
Definition doc_model (M : Model f64 (user_model f64) Empty_set Empty_set) (jac : bool) : bool :=
  let s := set_iteratives M (user_model_new 1) [lit "2.0"] in
  match evaluate M s with
  | Ret (s, _) =>
      Nat.eqb (len_problem M s) 1 && lit_vec (get_iteratives M s) ["2.0"] &&
      Bool.eqb (jacobian_provided M s) jac &&
      match get_residuals M s with
      | Ret v => match get_values v 0 with
                 | Ret (l, r) => is_lit l "4.0" && is_lit r "0.0"
                 | _ => false
                 end
      | _ => false
      end &&
      (negb jac ||
       match get_jacobian M s with
       | Ret (_, Ok j) => match jv_left j, jv_right j with
                          | [[l]], [[r]] => is_lit l "4.0" && is_lit r "0.0"
                          | _, _ => false
                          end
       | _ => false
       end)
  | _ => false
  end.
Example documented_models :
  doc_model (model_from_function square) false && doc_model (model_from_closure square) false &&
  doc_model (model_from_function_and_jacobian square square_jac) true &&
  doc_model (model_from_closure_and_jacobian square square_jac) true = true.
Proof. vm_compute. reflexivity. Qed.

(** *** iteratives/iterative_var.rs:93-106 *)
Definition limited (abs rel value step result : string) : bool :=
  match iterative_params_new (lit abs) (lit rel) nneginf ninf with
  | Ret p => is_lit (step_limitation p (lit value) (lit step)) result
  | _ => false
  end.
Example documented_limits :
  limited "1.0" "1.0" "1.0" "1.0" "2.0" && limited "1.0" "1.0" "1.0" "3.0" "2.0" &&
  limited "0.1" "0.5" "1.5" "0.5" "1.6" && limited "0.1" "0.5" "0.1" "3.0" "0.15000000000000002" = true.
Proof. vm_compute. reflexivity. Qed.

(** *** iteratives/default.rs:4-16 and 24-39 *)
Definition default_limits (p : iterative_params f64) : bool :=
  neqb (min_value p) nneginf && neqb (max_value p) ninf && neqb (max_step_abs p) ninf.
Example documented_defaults :
  Nat.eqb (length (default_vec_iteratives (F := f64) 2)) 2 &&
  forallb default_limits (default_vec_iteratives 2) &&
  Nat.eqb (length (default_vec_iteratives_fd (F := f64) 2)) 2 &&
  forallb (fun p => default_limits (fd_params p) && is_lit (fd_dx_abs p) "5e-8" && is_lit (fd_dx_rel p) "5e-8" &&
                    match fd_method p with PMax => true | _ => false end) (default_vec_iteratives_fd 2) = true.
Proof. vm_compute. reflexivity. Qed.

(** *** residuals/mod.rs:64-86: within two ulps, here the ulps below the magnitude
    of the literal are [2^-52] of it at most *)
Definition normalized (x y : string) (m : norm_method) (result : string) : bool :=
  let n := normalization (lit x) (lit y) m in
  nleb (nabs (nsub n (lit result))) (nmul (nabs (lit result)) (ndec 1 4503599627370496)).
Example documented_normalizations :
  normalized "0.1" "-0.15" Abs "0.25" && normalized "0.1" "-0.15" Rel "10.0" &&
  normalized "0.1" "-0.15" Adapt "0.24390243902439027" &&
  normalized "101.1" "101.25" Abs "-0.15000000000000568" &&
  normalized "101.1" "101.25" Rel "-0.0014825796886583217" &&
  normalized "101.1" "101.25" Adapt "-0.0014680694886225172" = true.
Proof. vm_compute. reflexivity. Qed.

(** residuals/mod.rs:127-141 *)
Example documented_residuals :
  default_vec_residuals 3 = [mkResidualConfig Abs Abs; mkResidualConfig Abs Abs; mkResidualConfig Abs Abs].
Proof. reflexivity. Qed.

(** *** errors.rs:23-127 and tests/errors/inaccurate_values.rs: a model of
    [x^2 = 2] that always reports inaccurate values *)
Definition square_minus_2 (x : vec f64) : vec f64 :=
  match x with [a] => [nsub (nmul a a) (lit "2.0")] | _ => [] end.
Definition dummy_model : Model f64 (user_model f64) unit unit :=
  mkModel (fun _ => 1%nat) um_set_iteratives um_inputs
    (fun s => match um_evaluate square_minus_2 s with
              | Ret (s', _) => Ret (s', Err (InaccurateValuesError tt))
              | Panic p => Panic p
              end)
    um_get_residuals default_jacobian_provided (default_get_jacobian um_inputs)
    default_get_memory default_set_memory (fun _ => "Not a good value"%string) (fun _ => "Not a good value"%string).
Definition run_default {St EI EU} (M : Model f64 St EI EU) (s : St) (n : nat) (init : vec f64)
  : outcome (vec f64 * result unit (solver_error EI EU)) :=
  rf <- default_with_guess init (map iterative_of_params_fd (default_vec_iteratives_fd n))
          (mkResidualsConfig (repeat Abs n) (repeat Abs n)) NewtonRaphson false ;;
  '(_, s', r) <- solve M rf s ;;
  Ret (get_iteratives M s', r).
Definition error_text {St EI EU} (M : Model f64 St EI EU) (r : result unit (solver_error EI EU)) : string :=
  match r with Ok _ => "" | Err e => display_solver_error (show_inaccurate M) (show_unusable M) e end.
Example inaccurate_values :
  match run_default dummy_model (user_model_new 1) 1 [lit "1.0"] with
  | Ret (x, r) => String.eqb (error_text dummy_model r)
                    (display_solver_error show_infallible show_infallible FinalEvaluationError) &&
                  all_close x [f64_sqrt (lit "2.0")]
  | _ => false
  end = true.
Proof. vm_compute. reflexivity. Qed.

(** *** tests/errors/non_invertible_jacobian.rs *)
Definition constant_problem (x : vec f64) : vec f64 := map (fun _ => lit "10.0") x.
Example non_invertible_jacobian :
  match run_default (model_from_function constant_problem) (user_model_new 5) 5 (vzeros 5) with
  | Ret (_, r) => String.eqb (error_text (model_from_function constant_problem) r)
                    "Jacobian error: Non invertible jacobian"
  | _ => false
  end = true.
Proof. vm_compute. reflexivity. Qed.

(** *** tests/model/static_model.rs, tests/user_model/closure.rs; solver/mod.rs:18-48,
    lib.rs and README.md print the same number (Validation.v) *)
Example square_root_of_2 :
  match run_default (model_from_closure square_minus_2) (user_model_new 1) 1 [lit "1.0"] with
  | Ret (x, Ok _) => all_close x [f64_sqrt (lit "2.0")] && lit_vec x ["1.4142135623747443"]
  | _ => false
  end &&
  match default_with_guess [lit "1.0"] (map iterative_of_params (default_vec_iteratives 1))
          (mkResidualsConfig [Abs] [Abs]) NewtonRaphson false with
  | Ret rf => match solve (model_from_closure_and_jacobian square_minus_2 square_jac) rf (user_model_new 1) with
              | Ret (_, s, Ok _) => all_close (um_inputs s) [f64_sqrt (lit "2.0")]
              | _ => false
              end
  | _ => false
  end = true.
Proof. vm_compute. reflexivity. Qed.

(** *** tests/jacobian/broyden.rs: finite differences against the analytical
    jacobians; tests/user_model/broyden.rs: the jacobians of the adapters *)
Definition matrix_close (a b : mat f64) : bool :=
  Nat.eqb (length a) (length b) && forallb (fun rs => all_close (fst rs) (snd rs)) (combine a b).
Definition jacobian_test (p : problem) : bool :=
  let n := problem_size p in
  let x := problem_init p in
  let reference := returned (problem_jacobian p x) in
  let M := model_from_function (fun x => returned (problem_function p x)) in
  let M' := model_from_function_and_jacobian (fun x => returned (problem_function p x))
              (fun x => returned (problem_jacobian p x)) in
  match evaluate M (set_iteratives M (user_model_new n) x),
        evaluate M' (set_iteratives M' (user_model_new n) x) with
  | Ret (s, Ok _), Ret (s', Ok _) =>
      match compute_jacobian_from_finite_difference M s (repeat (lit "5e-8") n)
              (mkResidualsConfig (repeat Abs n) (repeat Abs n)), get_jacobian M' s' with
      | Ret (_, Ok m), Ret (_, Ok j) =>
          Nat.eqb (length reference) n && matrix_close m reference && matrix_close (jv_left j) reference &&
          matrix_close (jv_right j) (repeat (vzeros n) n)
      | _, _ => false
      end
  | _, _ => false
  end.
Example jacobian_tests : forallb jacobian_test [P5; P6; P7; P8; P9; P10] = true.
Proof. vm_compute. reflexivity. Qed.

(** *** tests/advanced_parametrization/broyden.rs; its configuration file is that
    of tests/log *)
Definition parametrized : outcome (vec f64 * result unit (solver_error Empty_set Empty_set)) :=
  match from_xml_finite_diff broyden_case10_xml with
  | None | Some (Refused _) => Panic PanicParam
  | Some (Parsed c) =>
      conf <- residuals_config_new (cf_stopping c) (cf_update c) ;;
      rf <- rootfinder_new (cf_parameters c) (problem_init P10) (map iterative_of_params_fd (cf_iteratives c)) conf ;;
      '(_, s, r) <- solve (model_from_function (fun x => returned (problem_function P10 x))) rf
                      (user_model_new (sp_problem_size (cf_parameters c))) ;;
      Ret (um_inputs s, r)
  end.
Example advanced_parametrization :
  match parametrized with Ret (x, Ok _) => all_close x (problem_solution P10) | _ => false end = true.
Proof. vm_compute. reflexivity. Qed.

(** *** tests/errors/non_convergence.rs, for every function [cos] whose values lie
    between -1 and 1: never solved *)
Definition cannot_converge (cos : f64 -> f64) (x : vec f64) : vec f64 :=
  map (fun a => nadd (cos a) (lit "10.0")) x.
Lemma literal t s m e : match parse_f64 t with Some x => B2SF x = SpecFloat.S754_finite s m e | None => False end ->
  isfin (lit t) = true /\ key (lit t) = F2R (Float radix2 (cond_Zopp s (Zpos m)) e).
Proof.
  unfold lit; destruct (parse_f64 t) as [x|]; [intros E|contradiction].
  split; [destruct x; try discriminate E; reflexivity|apply key_sf; exact E].
Qed.
Lemma literals : isfin (lit "-1.0") = true /\ isfin (lit "1.0") = true /\ isfin (lit "10.0") = true /\
  key (lit "-1.0") = (-1)%R /\ key (lit "1.0") = 1%R /\ key (lit "10.0") = 10%R.
Proof.
  destruct (literal "-1.0" true 4503599627370496 (-52)) as [F1 K1]; [vm_compute; reflexivity|].
  destruct (literal "1.0" false 4503599627370496 (-52)) as [F2 K2]; [vm_compute; reflexivity|].
  destruct (literal "10.0" false 5629499534213120 (-49)) as [F3 K3]; [vm_compute; reflexivity|].
  rewrite K1, K2, K3; unfold F2R; cbn [Fnum Fexp cond_Zopp]; cbn [bpow].
  repeat (split; [assumption|]); repeat split; cbn; lra.
Qed.
Lemma nine : isfin (lit "9.0") = true /\ B2R (lit "9.0") = 9%R.
Proof.
  destruct (literal "9.0" false 5066549580791808 (-49)) as [F K]; [vm_compute; reflexivity|].
  split; [exact F|]; rewrite <- key_fin by exact F; rewrite K; unfold F2R; cbn; lra.
Qed.
Lemma eleven : isfin (lit "11.0") = true /\ B2R (lit "11.0") = 11%R.
Proof.
  destruct (literal "11.0" false 6192449487634432 (-49)) as [F K]; [vm_compute; reflexivity|].
  split; [exact F|]; rewrite <- key_fin by exact F; rewrite K; unfold F2R; cbn; lra.
Qed.
Lemma far_from_0 (c : f64) : nleb (lit "-1.0") c = true -> nleb c (lit "1.0") = true ->
  isfin (nadd c (lit "10.0")) = true /\ (9 <= B2R (nadd c (lit "10.0")))%R.
Proof.
  intros L U; apply leb_true_inv in L, U; destruct L as (_ & Nc & L), U as (_ & _ & U).
  destruct literals as (F1 & F2 & F3 & K1 & K2 & K3); rewrite K1 in L; rewrite K2 in U.
  assert (B : (1024 <= big)%R).
  { change 1024%R with (bpow radix2 10); apply bpow_le; lia. }
  assert (Fc : isfin c = true) by (apply key_finite; [exact Nc|apply Rabs_def1; lra]).
  destruct (add_fin c (lit "10.0") Fc F3) as [NS KS]; rewrite K3 in KS.
  assert (R9 : rnd 9 = 9%R) by (rewrite <- (proj2 nine); apply rnd_fin).
  assert (R11 : rnd 11 = 11%R) by (rewrite <- (proj2 eleven); apply rnd_fin).
  assert (R1 := rnd_le 9 (key c + 10) ltac:(lra)); assert (R2 := rnd_le (key c + 10) 11 ltac:(lra)).
  rewrite R9 in R1; rewrite R11 in R2.
  rewrite sat_id in KS by (apply Rabs_le; lra).
  assert (FS : isfin (nadd c (lit "10.0")) = true) by (apply key_finite; [exact NS|rewrite KS; apply Rabs_def1; lra]).
  split; [exact FS|]; rewrite <- (key_fin _ FS), KS; exact R1.
Qed.
Theorem C84_cannot_converge cos m damped guess n : length guess = S n ->
  (forall x, nleb (lit "-1.0") (cos x) = true /\ nleb (cos x) (lit "1.0") = true) ->
  exists conf rf rf' s' r,
    residuals_config_new (fst (convert_into_vecs (default_vec_residuals (S n))))
      (snd (convert_into_vecs (default_vec_residuals (S n)))) = Ret conf /\
    default_with_guess guess (map iterative_of_params_fd (default_vec_iteratives_fd (S n))) conf m damped = Ret rf /\
    solve (model_from_function (cannot_converge cos)) rf (user_model_new (S n)) = Ret (rf', s', r) /\
    (r = Err NonConvergenceError /\ rf_iter rf' = 50%nat \/ r = Err (JacobianError InvalidJacobianInverseError)).
Proof.
  intros LG HC.
  assert (LF : forall x : vec f64, length x = S n -> length (cannot_converge cos x) = S n)
    by (intros x Lx; unfold cannot_converge; rewrite map_length; exact Lx).
  destruct (C84_defaults (cannot_converge cos) None (model_from_function (cannot_converge cos)) (S n) guess m damped
    (adapter_function _) LF I LG) as (conf & rf & rf' & s' & r & E1 & E2 & E3 & _ & Lx & OUT).
  exists conf, rf, rf', s', r; split; [exact E1|]; split; [exact E2|]; split; [exact E3|].
  destruct OUT as [(_ & _ & OUT)|[(-> & E & _)| ->]]; [exfalso|left; auto|right; reflexivity].
  destruct (get_iteratives (model_from_function (cannot_converge cos)) s') as [|a x]; [discriminate Lx|].
  destruct OUT as [(b & Hb & Nb)|OUT].
  - unfold cannot_converge in Hb; apply in_map_iff in Hb; destruct Hb as (d & <- & _).
    destruct (HC d) as [H1 H2]; destruct (far_from_0 _ H1 H2) as [Fb _].
    destruct (nadd (cos d) (lit "10.0")); discriminate.
  - destruct (HC a) as [H1 H2]; destruct (far_from_0 _ H1 H2) as [Fb Gb].
    destruct (OUT (nadd (cos a) (lit "10.0")) (or_introl eq_refl)) as [_ L].
    unfold Rabs in L; destruct Rcase_abs; lra.
Qed.
Print Assumptions C84_cannot_converge.
(** Both outcomes occur; [cosine] is the beginning of the series, with the formula
    for twice the angle ten times. *)
Fixpoint double_angle (k : nat) (c : f64) : f64 :=
  match k with O => c | S k' => double_angle k' (nsub (nmul n2 (nmul c c)) n1) end.
Definition cosine (x : f64) : f64 :=
  let y := ndiv x (Fz 1024) in
  let q := nmul y y in
  nmin (nmax (double_angle 10 (nadd (nsub n1 (ndiv q n2)) (ndiv (nmul q q) (Fz 24)))) (lit "-1.0")) (lit "1.0").
Lemma cosine_between x : nleb (lit "-1.0") (cosine x) = true /\ nleb (cosine x) (lit "1.0") = true.
Proof.
  destruct literals as (F1 & F2 & _ & K1 & K2 & _).
  assert (N1 := fin_not_nan _ F1); assert (N2 := fin_not_nan _ F2).
  unfold cosine; cbv zeta; set (a := double_angle 10 _).
  destruct (clamp_box a (lit "-1.0") (lit "1.0") N1 N2 ltac:(lra)) as (Nc & L & U).
  split; apply leb_key; assumption.
Qed.
Example C84_cannot_converge_case :
  match run_default (model_from_function (cannot_converge cosine)) (user_model_new 2) 2 [lit "0.5"; lit "-0.25"],
        run_default (model_from_function (cannot_converge (fun _ => lit "1.0"))) (user_model_new 2) 2 (vzeros 2) with
  | Ret (_, Err NonConvergenceError), Ret (_, Err (JacobianError InvalidJacobianInverseError)) => true
  | _, _ => false
  end = true.
Proof. vm_compute. reflexivity. Qed.
