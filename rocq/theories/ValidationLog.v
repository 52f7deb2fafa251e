(** The test tests/log/broyden.rs, from the configuration file to the text of the
    log: generated from the files of the repository. *)
From Verif Require Import Base Num Linalg Residuals Iteratives UserModel Jacobian Solver F64 Validation
  Text Xml XmlText Display.
Open Scope string_scope.

(** tests/log/broyden_case10.xml *)
Definition broyden_case10_xml : string :=
"<?xml version=""1.0"" encoding=""UTF-8"" standalone=""no"" ?>
<nrf>
  <solver problem_size=""2"" max_iter=""60"" tolerance=""1e-6"" damping=""false"" resolution_method=""NR""/>
  <iteratives min_value=""-inf""  max_value=""inf"" max_step_abs=""inf"" max_step_rel=""inf"" dx_abs=""5e-8"" dx_rel=""5e-8"" perturbation_method=""Max"">
    <iterative id=""0"" min_value=""1"" max_value=""15"" max_step_abs=""5"" max_step_rel=""2""/>
    <iterative id=""1"" min_value=""3"" max_value=""10"" max_step_abs=""5""/>
  </iteratives>
  <residuals stopping_criteria=""Abs"" update_method=""Abs"">
    <residual id=""0"" stopping_criteria=""Abs"" update_method=""Abs""/>
    <residual id=""1"" stopping_criteria=""Abs"" update_method=""Abs""/>
  </residuals>
</nrf>
".

(** tests/log/log_ref_without_additional_infos.txt *)
Definition log_ref : string :=
"Runner informations
===================

newton_rootfinder version: 0.6.0

Solver parameters
=================

+----------------+-----------------+-----------------+--------------------+---------------------+
|  Problem size  |  Max iteration  |    Tolerance    |  Damping activated |  Resolution Method  |
+----------------+-----------------+-----------------+--------------------+---------------------+
| 2              | 60               | 0.000001       | false              | Newton-Raphson      |
+----------------+-----------------+-----------------+--------------------+---------------------+

Iteratives parameters
=====================

+-----------+--------------+--------------+--------------+--------------+-----------------+--------------+--------------+
| Iterative | max_step_abs | max_step_rel | min_value    | max_value    | perturbation    | dx_abs       | dx_rel       |
+-----------+--------------+--------------+--------------+--------------+-----------------+--------------+--------------+
| 0         | 5            | 2            | 1            | 15           | Max             | 0.00000005   | 0.00000005   |
+-----------+--------------+--------------+--------------+--------------+-----------------+--------------+--------------+
| 1         | 5            | inf          | 3            | 10           | Max             | 0.00000005   | 0.00000005   |
+-----------+--------------+--------------+--------------+--------------+-----------------+--------------+--------------+

Residuals configuration
=======================

+-------------------+--------------------------+--------------------------+
| Residual number   | Stopping criteria        | Update method            |
+-------------------+--------------------------+--------------------------+
| 0                 | Absolute Normalization   | Absolute Normalization   |
| 1                 | Absolute Normalization   | Absolute Normalization   |
+-------------------+--------------------------+--------------------------+

=========================

Iteration: 0

Max error: 34

+-------+-------------------------------+----------------------------------------------------------------+---------------------------------+
| Id    |           Iteratives          |        Left                    =                Right          |         Stopping criteria       |
+-------+-------------------------------+----------------------------------------------------------------+---------------------------------+
| 0     | 15                            | 34                             =                              0| 34                              |
+-------+-------------------------------+----------------------------------------------------------------+---------------------------------+
| 1     | -2                            | 10                             =                              0| 10                              |
+-------+-------------------------------+----------------------------------------------------------------+---------------------------------+

Jacobian matrix
=================

Jacobian up to date with its inverse

Jacobian:

  ┌                                       ┐
  │ 0.9999999974752427 -33.99999897624184 │
  │ 0.9999999998437185 -6.000000531969363 │
  └                                       ┘

Inverse of the jacobian Matrix:

  ┌                                           ┐
  │  -0.2142857451154321    1.214285744764183 │
  │ -0.03571428768050606  0.03571428759591764 │
  └                                           ┘


=========================

Iteration: 1

Max error: 24.85714211371714

+-------+-------------------------------+----------------------------------------------------------------+---------------------------------+
| Id    |           Iteratives          |        Left                    =                Right          |         Stopping criteria       |
+-------+-------------------------------+----------------------------------------------------------------+---------------------------------+
| 0     | 10.142857886282862            | 9.142857886282862              =                              0| 9.142857886282862               |
+-------+-------------------------------+----------------------------------------------------------------+---------------------------------+
| 1     | 3                             | -24.85714211371714             =                              0| 24.85714211371714               |
+-------+-------------------------------+----------------------------------------------------------------+---------------------------------+

Jacobian matrix
=================

Jacobian up to date with its inverse

Jacobian:

  ┌                                       ┐
  │   1.00000000093838  0.999999407724772 │
  │ 0.9999999974357048 19.000001501012775 │
  └                                       ┘

Inverse of the jacobian Matrix:

  ┌                                             ┐
  │    1.0555555149946996 -0.055555516127672455 │
  │ -0.055555548889387095  0.055555549083980145 │
  └                                             ┘


=========================

Iteration: 2

Max error: 48.450113151230106

+-------+-------------------------------+----------------------------------------------------------------+---------------------------------+
| Id    |           Iteratives          |        Left                    =                Right          |         Stopping criteria       |
+-------+-------------------------------+----------------------------------------------------------------+---------------------------------+
| 0     | 5.142857886282862             | -14.979221657487486            =                              0| 14.979221657487486              |
+-------+-------------------------------+----------------------------------------------------------------+---------------------------------+
| 1     | 4.888888667076188             | 48.450113151230106             =                              0| 48.450113151230106              |
+-------+-------------------------------+----------------------------------------------------------------+---------------------------------+

Jacobian matrix
=================

Jacobian up to date with its inverse

Jacobian:

  ┌                                         ┐
  │  1.0000000043053185 -24.814812916718388 │
  │  0.9999999973972652   67.48147842203488 │
  └                                         ┘

Inverse of the jacobian Matrix:

  ┌                                             ┐
  │    0.7311396512040027   0.26886034634798034 │
  │ -0.010834671474273737  0.010834671549120226 │
  └                                             ┘


=========================

Iteration: 3

Max error: 7.074687554008303

+-------+-------------------------------+----------------------------------------------------------------+---------------------------------+
| Id    |           Iteratives          |        Left                    =                Right          |         Stopping criteria       |
+-------+-------------------------------+----------------------------------------------------------------+---------------------------------+
| 0     | 3.068446581807141             | -4.240926534284125             =                              0| 4.240926534284125               |
+-------+-------------------------------+----------------------------------------------------------------+---------------------------------+
| 1     | 4.201652658965696             | 7.074687554008303              =                              0| 7.074687554008303               |
+-------+-------------------------------+----------------------------------------------------------------+---------------------------------+

Jacobian matrix
=================

Jacobian up to date with its inverse

Jacobian:

  ┌                                         ┐
  │  0.9999999998239452 -12.945130217775892 │
  │   1.000000011402161   47.36496342632479 │
  └                                         ┘

Inverse of the jacobian Matrix:

  ┌                                             ┐
  │    0.7853571509349857   0.21464284675588785 │
  │ -0.016580972581375704  0.016580972389397628 │
  └                                             ┘


=========================

Iteration: 4

Max error: 0.4723272129726013

+-------+-------------------------------+----------------------------------------------------------------+---------------------------------+
| Id    |           Iteratives          |        Left                    =                Right          |         Stopping criteria       |
+-------+-------------------------------+----------------------------------------------------------------+---------------------------------+
| 0     | 4.880557485596313             | -0.2611106545807056            =                              0| 0.2611106545807056              |
+-------+-------------------------------+----------------------------------------------------------------+---------------------------------+
| 1     | 4.014028773384476             | 0.4723272129726013             =                              0| 0.4723272129726013              |
+-------+-------------------------------+----------------------------------------------------------------+---------------------------------+

Jacobian matrix
=================

Jacobian up to date with its inverse

Jacobian:

  ┌                                         ┐
  │  0.9999999966564339 -10.196994653994318 │
  │  0.9999999966564339   42.36534118690014 │
  └                                         ┘

Inverse of the jacobian Matrix:

  ┌                                           ┐
  │   0.8060018766439684  0.19399812669959765 │
  │ -0.01902502969097469  0.01902502969097469 │
  └                                           ┘


=========================

Iteration: 5

Max error: 0.0025366814743996713

+-------+-------------------------------+----------------------------------------------------------------+---------------------------------+
| Id    |           Iteratives          |        Left                    =                Right          |         Stopping criteria       |
+-------+-------------------------------+----------------------------------------------------------------+---------------------------------+
| 0     | 4.99938256869417              | -0.0013684325601968084         =                              0| 0.0013684325601968084           |
+-------+-------------------------------+----------------------------------------------------------------+---------------------------------+
| 1     | 4.000075096177789             | 0.0025366814743996713          =                              0| 0.0025366814743996713           |
+-------+-------------------------------+----------------------------------------------------------------+---------------------------------+

Jacobian matrix
=================

Jacobian up to date with its inverse

Jacobian:

  ┌                                         ┐
  │  0.9999999985141775 -10.001052768869158 │
  │  1.0000000056204823   42.00195513658344 │
  └                                         ┘

Inverse of the jacobian Matrix:

  ┌                                           ┐
  │    0.807683186671678  0.19231681344748253 │
  │ -0.01922965701441265 0.019229656877760844 │
  └                                           ┘


=========================

Iteration: 6

Max error: 0.00000007350246278292616

+-------+-------------------------------+----------------------------------------------------------------+---------------------------------+
| Id    |           Iteratives          |        Left                    =                Right          |         Stopping criteria       |
+-------+-------------------------------+----------------------------------------------------------------+---------------------------------+
| 0     | 4.999999982167247             | -0.000000039579234112352424    =                              0| 0.000000039579234112352424      |
+-------+-------------------------------+----------------------------------------------------------------+---------------------------------+
| 1     | 4.000000002174648             | 0.00000007350246278292616      =                              0| 0.00000007350246278292616       |
+-------+-------------------------------+----------------------------------------------------------------+---------------------------------+

".

(** tests/log/broyden.rs:8-31 *)
Definition logged : outcome (result unit (solver_error Empty_set Empty_set) * string) :=
  match from_xml_finite_diff broyden_case10_xml with
  | None | Some (Refused _) => Panic PanicParam
  | Some (Parsed c) =>
      iteratives <- display_iteratives (fun p => it_with_finite_diff (iterative_of_params_fd p)) (display_limits_fd display_f64) (cf_iteratives c) ;;
      conf <- residuals_config_new (cf_stopping c) (cf_update c) ;;
      rf <- rootfinder_new (cf_parameters c) [Fz 15; Fz (-2)]
              (map iterative_of_params_fd (cf_iteratives c)) conf ;;
      '(rf1, s, r) <- solve (model_from_function broyden1965_case10_f64) (activate_debug rf)
                        (user_model_new (sp_problem_size (cf_parameters c))) ;;
      l <- unwrap (rf_log rf1) ;;
      t <- display_log display_f64 "0.6.0" iteratives l ;;
      Ret (r, t)
  end.

(** The reference was written by version 0.6.0; the test skips that line. *)
Example log_is_the_reference :
  match logged with
  | Ret (Ok tt, t) => String.eqb t log_ref
  | _ => false
  end = true.
Proof. vm_compute. reflexivity. Qed.

(** [f64::to_string], values of the Rust documentation and edge cases. *)
Definition shows (t u : string) : bool :=
  match parse_f64 t with Some x => String.eqb (display_f64 x) u | None => false end.
Example display_cases :
  forallb (fun tu => shows (fst tu) (snd tu))
    [("1e-6", "0.000001"); ("0.1", "0.1"); ("0.30000000000000004", "0.30000000000000004");
     ("1e21", "1000000000000000000000"); ("-12.50", "-12.5"); ("5e-324", "0.000000000000000000000000000000000000000000000000000000000000000000000000000000000000000000000000000000000000000000000000000000000000000000000000000000000000000000000000000000000000000000000000000000000000000000000000000000000000000000000000000000000000000000000000000000000000000000000000000000000000000000000000000000000005");
     ("inf", "inf"); ("-inf", "-inf"); ("nan", "NaN"); ("-0", "-0"); ("0", "0");
     ("123456789012345680", "123456789012345680"); ("9007199254740993", "9007199254740992")] = true.
Proof. vm_compute. reflexivity. Qed.
