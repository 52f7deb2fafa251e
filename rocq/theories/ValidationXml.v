(** Validation of the configuration files: the tests of xml_parser/ and of
    tests/parser, on the same texts. *)
From Verif Require Import Base Num Residuals Iteratives Jacobian Solver F64 Text Xml XmlText.
Open Scope string_scope.

(** [assert_eq!] *)
Definition eq_limits (p q : iterative_params f64) : bool :=
  neqb (max_step_abs p) (max_step_abs q) && neqb (max_step_rel p) (max_step_rel q) &&
  neqb (min_value p) (min_value q) && neqb (max_value p) (max_value q).
Definition eq_perturbation (p q : perturbation_method) : bool :=
  match p, q with PMax, PMax | PSum, PSum => true | _, _ => false end.
Definition eq_limits_fd (p q : iterative_params_fd f64) : bool :=
  eq_limits (fd_params p) (fd_params q) && eq_perturbation (fd_method p) (fd_method q) &&
  neqb (fd_dx_abs p) (fd_dx_abs q) && neqb (fd_dx_rel p) (fd_dx_rel q).
Definition eq_norm (p q : norm_method) : bool :=
  match p, q with Abs, Abs | Rel, Rel | Adapt, Adapt => true | _, _ => false end.
Definition eq_update (p q : update_method) : bool :=
  match p, q with
  | BroydenFirstMethod, BroydenFirstMethod | BroydenSecondMethod, BroydenSecondMethod
  | GreenstadtFirstMethod, GreenstadtFirstMethod | GreenstadtSecondMethod, GreenstadtSecondMethod => true
  | _, _ => false
  end.
Definition eq_method (p q : resolution_method) : bool :=
  match p, q with
  | NewtonRaphson, NewtonRaphson => true
  | QuasiNewton StationaryNewton, QuasiNewton StationaryNewton => true
  | QuasiNewton (JacobianUpdate a), QuasiNewton (JacobianUpdate b) => eq_update a b
  | QuasiNewton (InverseJacobianUpdate a), QuasiNewton (InverseJacobianUpdate b) => eq_update a b
  | _, _ => false
  end.
Definition eq_parameters (p q : solver_parameters f64) : bool :=
  Nat.eqb (sp_problem_size p) (sp_problem_size q) && neqb (sp_tolerance p) (sp_tolerance q) &&
  Nat.eqb (sp_max_iter p) (sp_max_iter q) && eq_method (sp_resolution_method p) (sp_resolution_method q) &&
  Bool.eqb (sp_damping p) (sp_damping q).
Fixpoint eq_list {A} (eq : A -> A -> bool) (p q : list A) : bool :=
  match p, q with
  | [], [] => true
  | a :: p', b :: q' => eq a b && eq_list eq p' q'
  | _, _ => false
  end.
Definition eq_residual (p q : residual_config) : bool :=
  eq_norm (rc_stopping p) (rc_stopping q) && eq_norm (rc_update p) (rc_update q).
Definition eq_configuration {A} (eq : A -> A -> bool) (p q : configuration A) : bool :=
  eq_parameters (cf_parameters p) (cf_parameters q) && eq_list eq (cf_iteratives p) (cf_iteratives q) &&
  eq_list eq_norm (cf_stopping p) (cf_stopping q) && eq_list eq_norm (cf_update p) (cf_update q).

(** The text is read and [f] returns a value equal to [a]. *)
Definition returns {A} (text : string) (f : element -> parsed A) (eq : A -> A -> bool) (a : A) : bool :=
  match read_document text with
  | Some e => match f e with Parsed b => eq b a | Refused _ => false end
  | None => false
  end.
(** [#[should_panic(expected = ...)]]: the message contains the text. *)
Fixpoint contains (needle s : string) : bool :=
  String.prefix needle s || match s with String _ s' => contains needle s' | EmptyString => false end.
Definition panics {A} (text : string) (f : element -> parsed A) (message : string) : bool :=
  match read_document text with
  | Some e => match f e with
              | Refused r => match refusal_text r with Some m => contains message m | None => false end
              | Parsed _ => false
              end
  | None => false
  end.

Definition pinf : f64 := match parse_f64 "inf" with Some x => x | None => n0 end.
Definition ninf : f64 := nneg pinf.
Definition dec (a b : Z) : f64 := ndec a b.
Definition free : iterative_params f64 := mkIterativeParams pinf pinf ninf pinf.

(** parsing_iterative_node_1, _2 and _5 of node_iterative_jac.rs are left out: their
    texts have a comma between two attributes, which is not XML. *)

(** node_solver.rs:54 *)
Example parsing_solver_node_1 : returns
"<solver problem_size=""3"" max_iter=""60"" tolerance=""1e-6"" damping=""true"" resolution_method=""NR""/>"
  parse_solver_node eq_parameters
  (mkSolverParameters 3 (dec 1 1000000) 60 NewtonRaphson true) = true.
Proof. vm_compute; reflexivity. Qed.

(** node_solver.rs:69 *)
Example parsing_solver_node_resolution_method_1 : returns
"<solver problem_size=""3"" max_iter=""60"" tolerance=""1e-6"" damping=""true"" resolution_method=""SN""/>"
  parse_solver_node eq_parameters
  (mkSolverParameters 3 (dec 1 1000000) 60 (QuasiNewton StationaryNewton) true) = true.
Proof. vm_compute; reflexivity. Qed.

(** node_solver.rs:84 *)
Example parsing_solver_node_resolution_method_2 : returns
"<solver problem_size=""3"" max_iter=""60"" tolerance=""1e-6"" damping=""true"" resolution_method=""BROY1""/>"
  parse_solver_node eq_parameters
  (mkSolverParameters 3 (dec 1 1000000) 60 (QuasiNewton (JacobianUpdate BroydenFirstMethod)) true) = true.
Proof. vm_compute; reflexivity. Qed.

(** node_solver.rs:101 *)
Example parsing_solver_node_resolution_method_3 : returns
"<solver problem_size=""3"" max_iter=""60"" tolerance=""1e-6"" damping=""true"" resolution_method=""BROY2""/>"
  parse_solver_node eq_parameters
  (mkSolverParameters 3 (dec 1 1000000) 60 (QuasiNewton (JacobianUpdate BroydenSecondMethod)) true) = true.
Proof. vm_compute; reflexivity. Qed.

(** node_solver.rs:118 *)
Example parsing_solver_node_resolution_method_4 : returns
"<solver problem_size=""3"" max_iter=""60"" tolerance=""1e-6"" damping=""true"" resolution_method=""BROY1_INV""/>"
  parse_solver_node eq_parameters
  (mkSolverParameters 3 (dec 1 1000000) 60 (QuasiNewton (InverseJacobianUpdate BroydenFirstMethod)) true) = true.
Proof. vm_compute; reflexivity. Qed.

(** node_solver.rs:135 *)
Example parsing_solver_node_resolution_method_5 : returns
"<solver problem_size=""3"" max_iter=""60"" tolerance=""1e-6"" damping=""true"" resolution_method=""BROY2_INV""/>"
  parse_solver_node eq_parameters
  (mkSolverParameters 3 (dec 1 1000000) 60 (QuasiNewton (InverseJacobianUpdate BroydenSecondMethod)) true) = true.
Proof. vm_compute; reflexivity. Qed.

(** node_solver.rs:153 *)
Example parsing_solver_node_2 : panics
"<solver problem_Size=""3"" max_iter=""60"" tolerance=""1e-6"" damping=""true"" resolution_method=""NR""/>"
  parse_solver_node
  "The attribute ""problem_size"" is missing in the solver node" = true.
Proof. vm_compute; reflexivity. Qed.

(** node_solver.rs:160 *)
Example parsing_solver_node_3 : panics
"<solver problem_size=""3.0"" max_iter=""60"" tolerance=""1e-6"" damping=""true"" resolution_method=""NR""/>"
  parse_solver_node
  "The attribute ""problem_size"" is not a valid positive integer" = true.
Proof. vm_compute; reflexivity. Qed.

(** node_solver.rs:167 *)
Example parsing_solver_node_4 : panics
"<solver problem_size=""-3"" max_iter=""60"" tolerance=""1e-6"" damping=""true"" resolution_method=""NR""/>"
  parse_solver_node
  "The attribute ""problem_size"" is not a valid positive integer" = true.
Proof. vm_compute; reflexivity. Qed.

(** node_solver.rs:173 *)
Example parsing_solver_node_5 : returns
"<solver problem_size=""3"" max_iter=""60"" tolerance=""1e-6"" resolution_method=""SN""/>"
  parse_solver_node eq_parameters
  (mkSolverParameters 3 (dec 1 1000000) 60 (QuasiNewton StationaryNewton) false) = true.
Proof. vm_compute; reflexivity. Qed.

(** node_iterative_jac.rs:116 *)
Example parsing_iterative_node_3 : panics
"<iterative id=""0""/>"
  (fun e => parse_iterative_jac_node e "iterative node id = 0")
  "The attribute ""min_value"" is missing in the iterative node id = 0" = true.
Proof. vm_compute; reflexivity. Qed.

(** node_iterative_jac.rs:128 *)
Example parsing_iterative_node_4 : returns
"<iterative id=""0""/>"
  (fun e => parse_iterative_jac_node_with_default e (mkIterativeParams (dec 10 1) (dec 5 10) ninf pinf) "iterative node id = 0") eq_limits
  (mkIterativeParams (dec 10 1) (dec 5 10) ninf pinf) = true.
Proof. vm_compute; reflexivity. Qed.

(** node_iterative_jac.rs:159 *)
Example parsing_iteratives_node_1 : returns
"
            <iteratives max_step_abs=""inf"" max_step_rel=""inf"" min_value=""-inf"" max_value=""inf"">
                <iterative id=""0""/>
                <iterative id=""1""/>
                <iterative id=""2""/>
            </iteratives>"
  parse_iteratives_jac_node (eq_list eq_limits)
  [free; free; free] = true.
Proof. vm_compute; reflexivity. Qed.

(** node_iterative_jac.rs:181 *)
Example parsing_iteratives_node_2 : returns
"
            <iteratives max_step_abs=""inf"" max_step_rel=""inf"" min_value=""-inf"" max_value=""inf"">
                <iterative id=""0""/>
                <iterative id=""1"" max_step_rel=""0.5""/>
                <iterative id=""2""/>
            </iteratives>"
  parse_iteratives_jac_node (eq_list eq_limits)
  [free; mkIterativeParams pinf (dec 5 10) ninf pinf; free] = true.
Proof. vm_compute; reflexivity. Qed.

(** node_iterative_jac.rs:208 *)
Example parsing_iteratives_node_3 : panics
"
            <iteratives max_step_abs=""inf"" max_step_rel=""inf"" min_value=""-inf"" max_value=""inf"">
                <iterative id=""0""/>
                <iterative id=""1"" max_step_rel=""0.5""/>
                <iterative id=""4""/>
            </iteratives>"
  parse_iteratives_jac_node
  "The ids must be in order starting from 0, got id 4 when the expected one was 2" = true.
Proof. vm_compute; reflexivity. Qed.

(** node_iterative_fd.rs:83 *)
Example parsing_iterative_fd_node_1 : returns
"<iterative id=""0"" max_step_abs=""10"" max_step_rel=""0.4"" min_value=""-inf"" max_value=""inf"" dx_abs=""0.1"" dx_rel=""0.2"" perturbation_method=""Max""/>"
  (fun e => parse_iterative_fd_node e "iterative node id = 0") eq_limits_fd
  (mkIterativeParamsFD (mkIterativeParams (dec 10 1) (dec 4 10) ninf pinf) PMax (dec 1 10) (dec 2 10)) = true.
Proof. vm_compute; reflexivity. Qed.

(** node_iterative_fd.rs:102 *)
Example parsing_iterative_fd_node_2 : returns
"<iterative id=""0"" max_step_abs=""10"" max_step_rel=""0.4"" min_value=""-inf"" max_value=""inf"" dx_abs=""0.1"" dx_rel=""0.2"" perturbation_method=""Max""/>"
  (fun e => parse_iterative_fd_node_with_default e (mkIterativeParamsFD free PMax (dec 5 100000000) (dec 5 100000000)) "iterative node id = 0") eq_limits_fd
  (mkIterativeParamsFD (mkIterativeParams (dec 10 1) (dec 4 10) ninf pinf) PMax (dec 1 10) (dec 2 10)) = true.
Proof. vm_compute; reflexivity. Qed.

(** node_iterative_fd.rs:131 *)
Example parsing_iterative_fd_node_3 : returns
"<iterative id=""0"" max_step_abs=""10"" max_step_rel=""0.4"" min_value=""-inf"" max_value=""inf"" dx_abs=""0.1"" dx_rel=""0.2"" perturbation_method=""Sum""/>"
  (fun e => parse_iterative_fd_node e "iterative node id = 0") eq_limits_fd
  (mkIterativeParamsFD (mkIterativeParams (dec 10 1) (dec 4 10) ninf pinf) PSum (dec 1 10) (dec 2 10)) = true.
Proof. vm_compute; reflexivity. Qed.

(** node_iterative_fd.rs:150 *)
Example parsing_iterative_fd_node_4 : returns
"<iterative id=""0"" max_step_abs=""10"" max_step_rel=""0.4"" min_value=""-inf"" max_value=""inf"" dx_abs=""0.1"" dx_rel=""0.2"" perturbation_method=""Sum""/>"
  (fun e => parse_iterative_fd_node_with_default e (mkIterativeParamsFD free PMax (dec 5 100000000) (dec 5 100000000)) "iterative node id = 0") eq_limits_fd
  (mkIterativeParamsFD (mkIterativeParams (dec 10 1) (dec 4 10) ninf pinf) PSum (dec 1 10) (dec 2 10)) = true.
Proof. vm_compute; reflexivity. Qed.

(** node_iterative_fd.rs:179 *)
Example parsing_iterative_fd_node_5 : returns
"<iterative id=""0""/>"
  (fun e => parse_iterative_fd_node_with_default e (mkIterativeParamsFD free PMax (dec 5 100000000) (dec 5 100000000)) "iterative node id = 0") eq_limits_fd
  (mkIterativeParamsFD free PMax (dec 5 100000000) (dec 5 100000000)) = true.
Proof. vm_compute; reflexivity. Qed.

(** node_iterative_fd.rs:198 *)
Example parsing_iterative_fd_node_6 : returns
"<iterative id=""0"" max_step_abs=""10"" max_step_rel=""0.4"" perturbation_method=""Sum""/>"
  (fun e => parse_iterative_fd_node_with_default e (mkIterativeParamsFD free PMax (dec 5 100000000) (dec 5 100000000)) "iterative node id = 0") eq_limits_fd
  (mkIterativeParamsFD (mkIterativeParams (dec 10 1) (dec 4 10) ninf pinf) PSum (dec 5 100000000) (dec 5 100000000)) = true.
Proof. vm_compute; reflexivity. Qed.

(** node_iterative_fd.rs:231 *)
Example parsing_iterative_fd_node_7 : panics
"<iterative id=""0"" max_step_abs=""10"" max_step_rel=""0.4"" min_value=""-inf"" max_value=""inf"" dx_abs=""0.1"" dx_rel=""0.2"" perturbation_method=""max""/>"
  (fun e => parse_iterative_fd_node e "iterative node id = 0")
  "The attribute ""perturbation_method"" at the iterative node id = 0 has an improper values, valid values are ""Sum"" and ""Max""" = true.
Proof. vm_compute; reflexivity. Qed.

(** node_iterative_fd.rs:242 *)
Example parsing_iterative_fd_node_8 : panics
"<iterative id=""0"" max_step_abs=""10"" max_step_rel=""0.4"" min_value=""-inf"" max_value=""inf"" dx_abs=""0.1"" dx_rel=""0.2"" perturbation_method=""max""/>"
  (fun e => parse_iterative_fd_node_with_default e (mkIterativeParamsFD free PMax (dec 5 100000000) (dec 5 100000000)) "iterative node id = 0")
  "The attribute ""perturbation_method"" at the iterative node id = 0 has an improper values, valid values are ""Sum"" and ""Max""" = true.
Proof. vm_compute; reflexivity. Qed.

(** node_iterative_fd.rs:261 *)
Example parsing_iteratives_fd_node_1 : returns
"
            <iteratives max_step_abs=""inf"" max_step_rel=""inf"" min_value=""-inf"" max_value=""inf"" dx_abs=""5e-8"" dx_rel=""5e-8"" perturbation_method=""Max"">
                <iterative id=""0""/>
                <iterative id=""1""/>
                <iterative id=""2""/>
            </iteratives>"
  parse_iteratives_fd_node (eq_list eq_limits_fd)
  [(mkIterativeParamsFD free PMax (dec 5 100000000) (dec 5 100000000)); (mkIterativeParamsFD free PMax (dec 5 100000000) (dec 5 100000000)); (mkIterativeParamsFD free PMax (dec 5 100000000) (dec 5 100000000))] = true.
Proof. vm_compute; reflexivity. Qed.

(** node_iterative_fd.rs:286 *)
Example parsing_iteratives_fd_node_2 : returns
"
            <iteratives max_step_abs=""inf"" max_step_rel=""inf"" min_value=""-inf"" max_value=""inf"" dx_abs=""5e-8"" dx_rel=""5e-8"" perturbation_method=""Max"">
                <iterative id=""0"" max_step_abs=""10"" max_step_rel=""0.5"" min_value=""10"" max_value=""100"" dx_abs=""3e-8"" dx_rel=""8e-8"" perturbation_method=""Max""/>
                <iterative id=""1"" max_value=""0"" dx_abs=""1.5e-8"" dx_rel=""2e-8"" perturbation_method=""Sum""/>
                <iterative id=""2"" max_value=""inf"" dx_abs=""1.5e-8"" dx_rel=""2e-8"" perturbation_method=""Sum""/>
            </iteratives>"
  parse_iteratives_fd_node (eq_list eq_limits_fd)
  [mkIterativeParamsFD (mkIterativeParams (dec 10 1) (dec 5 10) (dec 10 1) (dec 100 1)) PMax (dec 3 100000000) (dec 8 100000000);
     mkIterativeParamsFD (mkIterativeParams pinf pinf ninf (dec 0 1)) PSum (dec 15 1000000000) (dec 2 100000000);
     mkIterativeParamsFD free PSum (dec 15 1000000000) (dec 2 100000000)] = true.
Proof. vm_compute; reflexivity. Qed.

(** node_residual.rs:107 *)
Example parsing_residual_node_1 : returns
"<residual id=""0"" stopping_criteria=""Adapt"" update_method=""Abs""/>"
  (fun e => parse_residual_node e "residual node id = 0") eq_residual
  (mkResidualConfig Adapt Abs) = true.
Proof. vm_compute; reflexivity. Qed.

(** node_residual.rs:122 *)
Example parsing_residual_node_2 : returns
"<residual id=""0"" stopping_criteria=""Adapt"" update_method=""Abs""/>"
  (fun e => parse_residual_node_with_default e (mkResidualConfig Rel Rel) "residual node id = 0") eq_residual
  (mkResidualConfig Adapt Abs) = true.
Proof. vm_compute; reflexivity. Qed.

(** node_residual.rs:145 *)
Example parsing_residual_node_3 : panics
"<residual id=""0""/>"
  (fun e => parse_residual_node e "residual node id = 0")
  "The attribute ""stopping_criteria"" is missing in residual node id = 0" = true.
Proof. vm_compute; reflexivity. Qed.

(** node_residual.rs:159 *)
Example parsing_residual_node_4 : returns
"<residual id=""0""/>"
  (fun e => parse_residual_node_with_default e (mkResidualConfig Rel Rel) "residual node id = 0") eq_residual
  (mkResidualConfig Rel Rel) = true.
Proof. vm_compute; reflexivity. Qed.

(** node_residual.rs:181 *)
Example parsing_residual_node_5 : panics
"<residual id=""0"" stopping_criteria=""adapt"" update_method=""Abs""/>"
  (fun e => parse_residual_node e "residual node id = 0")
  "The attribute ""stopping_criteria"" at residual node id = 0 has an improper values, valid values are ""Abs"", ""Rel"" and ""Adapt""" = true.
Proof. vm_compute; reflexivity. Qed.

(** node_residual.rs:193 *)
Example parsing_residual_node_6 : panics
"<residual id=""0"" stopping_criteria=""adapt"" update_method=""Abs""/>"
  (fun e => parse_residual_node_with_default e (mkResidualConfig Rel Rel) "residual node id = 0")
  "The attribute ""stopping_criteria"" at residual node id = 0 has an improper values, valid values are ""Abs"", ""Rel"" and ""Adapt""" = true.
Proof. vm_compute; reflexivity. Qed.

(** node_residual.rs:207 *)
Example parsing_residuals_node_1 : returns
"
            <residuals stopping_criteria=""Adapt"" update_method=""Abs"">
                <residual id=""0""/>
                <residual id=""1""/>
                <residual id=""2""/>
            </residuals>"
  parse_residuals_node (fun p q => eq_list eq_norm (fst p) (fst q) && eq_list eq_norm (snd p) (snd q))
  ([Adapt; Adapt; Adapt], [Abs; Abs; Abs]) = true.
Proof. vm_compute; reflexivity. Qed.

(** node_residual.rs:225 *)
Example parsing_residuals_node_2 : returns
"
            <residuals stopping_criteria=""Adapt"" update_method=""Abs"">
                <residual id=""0"" stopping_criteria=""Rel""/>
                <residual id=""1""/>
                <residual id=""2""/>
            </residuals>"
  parse_residuals_node (fun p q => eq_list eq_norm (fst p) (fst q) && eq_list eq_norm (snd p) (snd q))
  ([Rel; Adapt; Adapt], [Abs; Abs; Abs]) = true.
Proof. vm_compute; reflexivity. Qed.

(** node_residual.rs:247 *)
Example parsing_residuals_node_3 : panics
"
            <residuals stopping_criteria=""Adapt"" update_method=""Abs"">
                <residual id=""0""/>
                <residual id=""2""/>
                <residual id=""1""/>
            </residuals>"
  parse_residuals_node
  "The ids must be in order starting from 0, got id 2 when the expected one was 1" = true.
Proof. vm_compute; reflexivity. Qed.

(** node_residual.rs:262 *)
Example parsing_residuals_node_4 : panics
"
            <residuals stopping_criteria=""Adapt"" update_method=""Abs"">
                <residual id=""0""/>
                <residual id=""1""/>
                <residual id=""1""/>
            </residuals>"
  parse_residuals_node
  "The ids must be in order starting from 0, got id 1 when the expected one was 2" = true.
Proof. vm_compute; reflexivity. Qed.

(** node_residual.rs:277 *)
Example parsing_residuals_node_5 : panics
"
            <residuals stopping_criteria=""Adapt"" update_method=""Abs"">
                <residual id=""0""/>
                <residual id=""1""/>
                <residual id=""3""/>
            </residuals>"
  parse_residuals_node
  "The ids must be in order starting from 0, got id 3 when the expected one was 2" = true.
Proof. vm_compute; reflexivity. Qed.

(** node_residual.rs:290 *)
Example parsing_residuals_node_6 : panics
"
            <residuals stopping_criteria=""Adapt"" update_method=""Abs"">
                <residual id=""-1""/>
                <residual id=""0""/>
                <residual id=""1""/>
            </residuals>"
  parse_residuals_node
  "The attribute ""id"" is not a valid positive integer" = true.
Proof. vm_compute; reflexivity. Qed.

(** xml_file_fd.rs:100 *)
Example parsing_root_fd_1 : returns
"
            <nrf>
                <solver problem_size=""3"" max_iter=""60"" tolerance=""1e-6"" damping=""true"" resolution_method=""NR""/>
                <iteratives max_step_abs=""inf"" max_step_rel=""inf"" min_value=""-inf"" max_value=""inf"" dx_abs=""5e-8"" dx_rel=""5e-9"" perturbation_method=""Max"">
                    <iterative id=""0""/>
                    <iterative id=""1""/>
                    <iterative id=""2""/>
                </iteratives>
                <residuals stopping_criteria=""Abs"" update_method=""Abs"">
                    <residual id=""0"" stopping_criteria=""Adapt"" update_method=""Abs""/>
                    <residual id=""1"" stopping_criteria=""Rel""   update_method=""Abs""/>
                    <residual id=""2"" stopping_criteria=""Adapt"" update_method=""Rel""/>
                </residuals>
            </nrf>"
  parse_root_node_fd (eq_configuration eq_limits_fd)
  (mkConfiguration (mkSolverParameters 3 (dec 1 1000000) 60 NewtonRaphson true)
     (repeat (mkIterativeParamsFD free PMax (dec 5 100000000) (dec 5 1000000000)) 3)
     [Adapt; Rel; Adapt] [Abs; Abs; Rel]) = true.
Proof. vm_compute; reflexivity. Qed.

(** xml_file_fd.rs:160 *)
Example parsing_root_fd_2 : panics
"
            <nrf>
                <solver problem_size=""4"" max_iter=""60"" tolerance=""1e-6"" damping=""true"" resolution_method=""SN""/>
                <iteratives max_step_abs=""inf"" max_step_rel=""inf"" min_value=""-inf"" max_value=""inf"" dx_abs=""5e-8"" dx_rel=""5e-9"" perturbation_method=""Max"">
                    <iterative id=""0""/>
                    <iterative id=""1""/>
                    <iterative id=""2""/>
                </iteratives>
                <residuals stopping_criteria=""Abs"" update_method=""Abs"">
                    <residual id=""0"" stopping_criteria=""Adapt"" update_method=""Abs""/>
                    <residual id=""1"" stopping_criteria=""Rel""   update_method=""Abs""/>
                    <residual id=""2"" stopping_criteria=""Adapt"" update_method=""Rel""/>
                </residuals>
            </nrf>"
  parse_root_node_fd
  "Dimension mismatch, got problem_size = 4 and the number of iteratives variables is 3" = true.
Proof. vm_compute; reflexivity. Qed.

(** xml_file_fd.rs:181 *)
Example parsing_root_fd_3 : panics
"
            <nrf>
                <solver problem_size=""3"" max_iter=""60"" tolerance=""1e-6"" damping=""true""/>
                <iteratives max_step_abs=""inf"" max_step_rel=""inf"" min_value=""-inf"" max_value=""inf"" dx_abs=""5e-8"" dx_rel=""5e-9"" perturbation_method=""Max"">
                    <iterative id=""0""/>
                    <iterative id=""1""/>
                    <iterative id=""2""/>
                </iteratives>
                <residuals stopping_criteria=""Abs"" update_method=""Abs"">
                    <residual id=""0"" stopping_criteria=""Adapt"" update_method=""Abs""/>
                    <residual id=""1"" stopping_criteria=""Rel""   update_method=""Abs""/>
                    <residual id=""2"" stopping_criteria=""Adapt"" update_method=""Rel""/>
                </residuals>
            </nrf>"
  parse_root_node_fd
  "The attribute ""resolution_method"" is missing in solver node" = true.
Proof. vm_compute; reflexivity. Qed.

(** xml_file_fd.rs:204 *)
Example parsing_root_fd_4 : panics
"
            <nrf>
                <solver problem_size=""3"" max_iter=""60"" tolerance=""1e-6"" damping=""true"" resolution_method=""SR""/>
                <iteratives max_step_abs=""inf"" max_step_rel=""inf"" min_value=""-inf"" max_value=""inf"" dx_abs=""5e-8"" dx_rel=""5e-9"" perturbation_method=""Max"">
                    <iterative id=""0""/>
                    <iterative id=""1""/>
                    <iterative id=""2""/>
                </iteratives>
                <residuals stopping_criteria=""Abs"" update_method=""Abs"">
                    <residual id=""0"" stopping_criteria=""Adapt"" update_method=""Abs""/>
                    <residual id=""1"" stopping_criteria=""Rel""   update_method=""Abs""/>
                    <residual id=""2"" stopping_criteria=""Adapt"" update_method=""Rel""/>
                </residuals>
            </nrf>"
  parse_root_node_fd
  "The attribute ""resolution_method"" at the solver node has an improper values, valid values are ""NR"", ""SN"", ""BROY1"", ""BROY1_INV"", ""BROY2"", ""BROY2_INV"", ""GRST1"", ""GRST1_INV"", ""GRST2"", ""GRST2_INV""" = true.
Proof. vm_compute; reflexivity. Qed.

(** xml_file_jac.rs:200 *)
Example parsing_root_1 : returns
"
            <nrf>
                <solver problem_size=""3"" max_iter=""60"" tolerance=""1e-6"" damping=""true"" resolution_method=""NR""/>
                <iteratives max_step_abs=""inf"" max_step_rel=""inf"" min_value=""-inf"" max_value=""inf"">
                    <iterative id=""0""/>
                    <iterative id=""1""/>
                    <iterative id=""2""/>
                </iteratives>
                <residuals stopping_criteria=""Abs"" update_method=""Abs"">
                    <residual id=""0"" stopping_criteria=""Adapt"" update_method=""Abs""/>
                    <residual id=""1"" stopping_criteria=""Rel""   update_method=""Abs""/>
                    <residual id=""2"" stopping_criteria=""Adapt"" update_method=""Rel""/>
                </residuals>
            </nrf>"
  parse_root_node_jac (eq_configuration eq_limits)
  (mkConfiguration (mkSolverParameters 3 (dec 1 1000000) 60 NewtonRaphson true)
     [free; free; free] [Adapt; Rel; Adapt] [Abs; Abs; Rel]) = true.
Proof. vm_compute; reflexivity. Qed.

(** xml_file_jac.rs:257 *)
Example parsing_root_2 : panics
"
            <nrf>
                <solver problem_size=""4"" max_iter=""60"" tolerance=""1e-6"" damping=""true"" resolution_method=""NR""/>
                <iteratives max_step_abs=""inf"" max_step_rel=""inf"" min_value=""-inf"" max_value=""inf"">
                    <iterative id=""0""/>
                    <iterative id=""1""/>
                    <iterative id=""2""/>
                </iteratives>
                <residuals stopping_criteria=""Abs"" update_method=""Abs"">
                    <residual id=""0"" stopping_criteria=""Adapt"" update_method=""Abs""/>
                    <residual id=""1"" stopping_criteria=""Rel""   update_method=""Abs""/>
                    <residual id=""2"" stopping_criteria=""Adapt"" update_method=""Rel""/>
                </residuals>
            </nrf>"
  parse_root_node_jac
  "Dimension mismatch, got problem_size = 4 and the number of iteratives variables is 3" = true.
Proof. vm_compute; reflexivity. Qed.

(** tests/parser/data_fd.xml *)
Definition data_fd : string :=
"<?xml version=""1.0"" encoding=""UTF-8"" standalone=""no"" ?>
<nrf>
  <solver problem_size=""3"" max_iter=""60"" tolerance=""1e-6"" damping=""true"" resolution_method=""NR""/>
  <iteratives min_value=""-inf""  max_value=""inf"" max_step_abs=""inf"" max_step_rel=""inf"" dx_abs=""5e-8"" dx_rel=""5e-9"" perturbation_method=""Sum"">
    <iterative id=""0"" min_value=""-inf""  max_value=""inf"" max_step_abs=""100"" max_step_rel=""0.5""/>
    <iterative id=""1"" min_value=""0""     max_value=""inf"" max_step_abs=""inf"" max_step_rel=""0.5""/>
    <iterative id=""2"" min_value=""-inf""  max_value=""12""  max_step_abs=""100"" max_step_rel=""inf""/>
  </iteratives>
  <residuals stopping_criteria=""Abs"" update_method=""Abs"">
    <residual id=""0"" stopping_criteria=""Adapt""     update_method=""Abs""/>
    <residual id=""1"" stopping_criteria=""Rel""       update_method=""Abs""/>
    <residual id=""2"" stopping_criteria=""Adapt""     update_method=""Rel""/>
  </residuals>
</nrf>
".

(** tests/parser/data_jac.xml *)
Definition data_jac : string :=
"<?xml version=""1.0"" encoding=""UTF-8"" standalone=""no"" ?>
<nrf>
  <solver problem_size=""3"" max_iter=""60"" tolerance=""1e-6"" damping=""true"" resolution_method=""SN""/>
  <iteratives min_value=""-inf""  max_value=""inf"" max_step_abs=""inf"" max_step_rel=""inf"">
    <iterative id=""0"" min_value=""-inf""  max_value=""inf"" max_step_abs=""100"" max_step_rel=""0.5""/>
    <iterative id=""1"" min_value=""0""     max_value=""inf"" max_step_abs=""inf"" max_step_rel=""0.5""/>
    <iterative id=""2"" min_value=""-inf""  max_value=""12""  max_step_abs=""100"" max_step_rel=""inf""/>
  </iteratives>
  <residuals stopping_criteria=""Abs"" update_method=""Abs"">
    <residual id=""0"" stopping_criteria=""Adapt""     update_method=""Abs""/>
    <residual id=""1"" stopping_criteria=""Rel""       update_method=""Abs""/>
    <residual id=""2"" stopping_criteria=""Adapt""     update_method=""Rel""/>
  </residuals>
</nrf>
".

(** tests/parser/parser_fd.rs *)
Example parse_file_fd : returns data_fd parse_root_node_fd (eq_configuration eq_limits_fd)
  (mkConfiguration (mkSolverParameters 3 (dec 1 1000000) 60 NewtonRaphson true)
     (map (fun p => mkIterativeParamsFD p PSum (dec 5 100000000) (dec 5 1000000000))
        [mkIterativeParams (dec 100 1) (dec 5 10) ninf pinf;
         mkIterativeParams pinf (dec 5 10) (dec 0 1) pinf;
         mkIterativeParams (dec 100 1) pinf ninf (dec 12 1)])
     [Adapt; Rel; Adapt] [Abs; Abs; Rel]) = true.
Proof. vm_compute; reflexivity. Qed.
(** tests/parser/parser_jac.rs *)
Example parse_file_jac : returns data_jac parse_root_node_jac (eq_configuration eq_limits)
  (mkConfiguration (mkSolverParameters 3 (dec 1 1000000) 60 (QuasiNewton StationaryNewton) true)
     [mkIterativeParams (dec 100 1) (dec 5 10) ninf pinf;
      mkIterativeParams pinf (dec 5 10) (dec 0 1) pinf;
      mkIterativeParams (dec 100 1) pinf ninf (dec 12 1)]
     [Adapt; Rel; Adapt] [Abs; Abs; Rel]) = true.
Proof. vm_compute; reflexivity. Qed.
