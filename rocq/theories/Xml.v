(** The configuration files of xml_parser/: from an element tree, as built by the
    XML library (minidom), to the parameters of the solver. *)
From Coq Require Import Ascii.
From Verif Require Import Base Num Residuals Iteratives Jacobian Solver F64 Text.
Open Scope string_scope.

(** minidom's [Element], restricted to what the parser looks at: the name, the
    attributes, and the element children ([children()] skips text and comments).
    The attribute names of an element are distinct in an XML document. minidom, used
    in all files of xml_parser/, e.g. util.rs:1-4. *)
Inductive element := Element (name : string) (attributes : list (string * string))
                             (children : list element).
(** [Element::name], util.rs:45. *)
Definition el_name (e : element) : string := let 'Element n _ _ := e in n.
(** Read by [Element::attr], util.rs:4. *)
Definition el_attributes (e : element) : list (string * string) := let 'Element _ a _ := e in a.
(** [Element::children], xml_file_fd.rs:64, node_iterative_fd.rs:9. *)
Definition el_children (e : element) : list element := let 'Element _ _ c := e in c.

(** [Element::attr]. minidom, used in util.rs:4, 22, 35. *)
Fixpoint assoc (l : list (string * string)) (k : string) : option string :=
  match l with
  | [] => None
  | (k', v) :: l' => if string_dec k' k then Some v else assoc l' k
  end.
(** minidom, used in util.rs:4, 22, 35. *)
Definition attr (e : element) (k : string) : option string := assoc (el_attributes e) k.

(** Why the parser panicked. The lines are given with each case. *)
Inductive refusal :=
| MissingInThe (attribute info : string)        (* util.rs:5-10, 23 *)
| MissingIn (attribute info : string)           (* node_solver.rs:32, node_iterative.rs:10, node_residual.rs:74 *)
| NotPositiveInteger (attribute : string)       (* util.rs:12-17 *)
| NotFloat (attribute : string)                 (* util.rs:25 *)
| NotFloatOn (attribute info : string)          (* util.rs:39 *)
| NotBoolean                                    (* node_solver.rs:16 *)
| BadResolutionMethod (info : string)           (* node_solver.rs:43 *)
| BadPerturbationMethod (info : string)         (* node_iterative.rs:13, 28 *)
| BadNormalization (attribute info : string)    (* node_residual.rs:78, 95 *)
| WrongNode (expected got : string)             (* util.rs:45-51 *)
| WrongRoot (got : string)                      (* xml_file_fd.rs:60-62 *)
| WrongIterativeNode (got : string)             (* node_iterative_fd.rs:10-15 *)
| WrongResidualNode (got : string)              (* node_residual.rs:17-22 *)
| IdOutOfOrder (got expected : nat)             (* util.rs:56-61 *)
| MissingNode                                   (* [tree.next().unwrap()] *)
| SizeIteratives (size found : nat)             (* xml_file_fd.rs:78-80 *)
| SizeResiduals (size found : nat)              (* xml_file_fd.rs:82-88 *)
| BadParameter (p : panic).                     (* IterativeParams::new, IterativeParamsFD::extend *)

(** The panic messages; those of [BadParameter] contain printed doubles, those
    of [NotBoolean] and [MissingNode] come from [expect] and [unwrap]. Here the
    escaped quotes of the messages, e.g. util.rs:7. *)
Definition dq : string := String (ascii_of_nat 34) EmptyString.
(** util.rs:7, 14, 23, 25, 39, 47. *)
Definition quoted (s : string) : string := dq ++ s ++ dq.
(** The lines are given with each case of [refusal]. *)
Definition refusal_text (r : refusal) : option string :=
  match r with
  | MissingInThe a i => Some ("The attribute " ++ quoted a ++ " is missing in the " ++ i)
  | MissingIn a i => Some ("The attribute " ++ quoted a ++ " is missing in " ++ i)
  | NotPositiveInteger a => Some ("The attribute " ++ quoted a ++ " is not a valid positive integer")
  | NotFloat a => Some ("The attribute " ++ quoted a ++
      " is not a valid float, for infinity, the valid values are " ++ quoted "-inf" ++ " and " ++
      quoted "inf" ++ " ")
  | NotFloatOn a i => Some ("The attribute " ++ quoted a ++ " on node " ++ i ++
      " is not a valid float, for infinity, the valid values are " ++ quoted "-inf" ++ " and " ++
      quoted "inf" ++ " ")
  | BadResolutionMethod i => Some ("The attribute " ++ quoted "resolution_method" ++ " at the " ++ i ++
      " has an improper values, valid values are " ++ quoted "NR" ++ ", " ++ quoted "SN" ++ ", " ++
      quoted "BROY1" ++ ", " ++ quoted "BROY1_INV" ++ ", " ++ quoted "BROY2" ++ ", " ++
      quoted "BROY2_INV" ++ ", " ++ quoted "GRST1" ++ ", " ++ quoted "GRST1_INV" ++ ", " ++
      quoted "GRST2" ++ ", " ++ quoted "GRST2_INV")
  | BadPerturbationMethod i => Some ("The attribute " ++ quoted "perturbation_method" ++ " at the " ++
      i ++ " has an improper values, valid values are " ++ quoted "Sum" ++ " and " ++ quoted "Max")
  | BadNormalization a i => Some ("The attribute " ++ quoted a ++ " at " ++ i ++
      " has an improper values, valid values are " ++ quoted "Abs" ++ ", " ++ quoted "Rel" ++ " and " ++
      quoted "Adapt")
  | WrongNode x g => Some ("The node is expected to be " ++ quoted x ++ ", got " ++ g)
  | WrongRoot g => Some ("Expected the first node to be " ++ quoted "nrf" ++ ", got " ++ g)
  | WrongIterativeNode g =>
      Some ("Node below iteratives are expected to be " ++ quoted "iterative" ++ ", got " ++ g)
  | WrongResidualNode g =>
      Some ("Node below residuals are expected to be " ++ quoted "residuals" ++ ", got " ++ g)
  | IdOutOfOrder g x => Some ("The ids must be in order starting from 0, got id " ++ show_usize g ++
      " when the expected one was " ++ show_usize x)
  | SizeIteratives n l => Some ("Dimension mismatch, got problem_size = " ++ show_usize n ++
      " and the number of iteratives variables is " ++ show_usize l)
  | SizeResiduals n l => Some ("Dimension mismatch, got problem_size = " ++ show_usize n ++
      " and the number of residuals variables is " ++ show_usize l)
  | NotBoolean | MissingNode | BadParameter _ => None
  end.

(** The value of a parsing function, or the panic that ended it (xml_parser/ panics
    on every error). *)
Inductive parsed (A : Type) :=
| Parsed (a : A)
| Refused (r : refusal).
Arguments Parsed {A} _.
Arguments Refused {A} _.
(** Sequencing: a panic ends the parsing (no [catch_unwind] in /repo). *)
Definition pbind {A B} (x : parsed A) (f : A -> parsed B) : parsed B :=
  match x with
  | Parsed a => f a
  | Refused r => Refused r
  end.
Notation "x <~ e ;; k" := (pbind e (fun x => k))
  (at level 61, e at next level, right associativity).
(** [unwrap_or_else(|_| panic!(...))], util.rs:5, 12, 23, 25, 39. *)
Definition required {A} (o : option A) (r : refusal) : parsed A :=
  match o with
  | Some a => Parsed a
  | None => Refused r
  end.
(** The panics of [IterativeParams::new] and [IterativeParamsFD::extend],
    node_iterative_jac.rs:38, node_iterative_fd.rs:39. *)
Definition checked {A} (o : outcome A) : parsed A :=
  match o with
  | Ret a => Parsed a
  | Panic p => Refused (BadParameter p)
  end.

(** *** util.rs *)

(** util.rs:3-18 *)
Definition parse_int_attribute (node : element) (attribute info : string) : parsed nat :=
  t <~ required (attr node attribute) (MissingInThe attribute info) ;;
  required (parse_usize t) (NotPositiveInteger attribute).

(** util.rs:20-26 *)
Definition parse_float_attribute (node : element) (attribute info : string) : parsed f64 :=
  t <~ required (attr node attribute) (MissingInThe attribute info) ;;
  required (parse_f64 t) (NotFloat attribute).

(** util.rs:28-42 *)
Definition parse_float_attribute_with_default (node : element) (default : f64)
  (attribute info : string) : parsed f64 :=
  match attr node attribute with
  | None => Parsed default
  | Some value => required (parse_f64 value) (NotFloatOn attribute info)
  end.

(** util.rs:44-52 *)
Definition check_node_name_and_panic (node : element) (expected : string) : parsed unit :=
  if string_dec (el_name node) expected then Parsed tt
  else Refused (WrongNode expected (el_name node)).

(** util.rs:54-64 *)
Definition parse_id (node : element) (expected_id : nat) (info : string) : parsed nat :=
  id <~ parse_int_attribute node "id" info ;;
  if Nat.eqb expected_id id then Parsed id else Refused (IdOutOfOrder id expected_id).

(** *** node_solver.rs *)

(** node_solver.rs:29-45 *)
Definition parse_resolution_method (node : element) (info : string) : parsed resolution_method :=
  t <~ required (attr node "resolution_method") (MissingIn "resolution_method" info) ;;
  match t with
  | "NR" => Parsed NewtonRaphson
  | "SN" => Parsed (QuasiNewton StationaryNewton)
  | "BROY1" => Parsed (QuasiNewton (JacobianUpdate BroydenFirstMethod))
  | "BROY1_INV" => Parsed (QuasiNewton (InverseJacobianUpdate BroydenFirstMethod))
  | "BROY2" => Parsed (QuasiNewton (JacobianUpdate BroydenSecondMethod))
  | "BROY2_INV" => Parsed (QuasiNewton (InverseJacobianUpdate BroydenSecondMethod))
  | "GRST1" => Parsed (QuasiNewton (JacobianUpdate GreenstadtFirstMethod))
  | "GRST1_INV" => Parsed (QuasiNewton (InverseJacobianUpdate GreenstadtFirstMethod))
  | "GRST2" => Parsed (QuasiNewton (JacobianUpdate GreenstadtSecondMethod))
  | "GRST2_INV" => Parsed (QuasiNewton (InverseJacobianUpdate GreenstadtSecondMethod))
  | _ => Refused (BadResolutionMethod info)
  end.

(** node_solver.rs:8-27 *)
Definition parse_solver_node (node : element) : parsed (solver_parameters f64) :=
  let info := "solver node" in
  problem_size <~ parse_int_attribute node "problem_size" info ;;
  max_iter <~ parse_int_attribute node "max_iter" info ;;
  tolerance <~ parse_float_attribute node "tolerance" info ;;
  resolution_method <~ parse_resolution_method node info ;;
  damping <~
    match attr node "damping" with
    | Some value => required (parse_bool value) NotBoolean
    | None => Parsed false
    end ;;
  Parsed (mkSolverParameters problem_size tolerance max_iter resolution_method damping).

(** *** node_iterative.rs *)
(** node_iterative.rs:10-14, 25-29. *)
Definition perturbation_of (value info : string) : parsed perturbation_method :=
  match value with
  | "Max" => Parsed PMax
  | "Sum" => Parsed PSum
  | _ => Refused (BadPerturbationMethod info)
  end.
(** node_iterative.rs:4-15 *)
Definition parse_perturbation_method (node : element) (info : string) : parsed perturbation_method :=
  t <~ required (attr node "perturbation_method") (MissingIn "perturbation_method" info) ;;
  perturbation_of t info.
(** node_iterative.rs:17-31 *)
Definition parse_perturbation_method_with_default (node : element) (default : perturbation_method)
  (info : string) : parsed perturbation_method :=
  match attr node "perturbation_method" with
  | None => Parsed default
  | Some value => perturbation_of value info
  end.

(** The loop over the children, common to the three kinds of nodes.
    node_iterative_fd.rs:9-22, node_iterative_jac.rs:9-22, node_residual.rs:16-30. *)
Fixpoint parse_children {A} (wrong : string -> refusal) (child_name id_info : string)
  (one : element -> string -> parsed A) (prefix : string) (expected_id : nat)
  (l : list element) : parsed (list A) :=
  match l with
  | [] => Parsed []
  | c :: l' =>
      _ <~ (if string_dec (el_name c) child_name then Parsed tt else Refused (wrong (el_name c))) ;;
      id <~ parse_id c expected_id id_info ;;
      a <~ one c (prefix ++ show_usize id) ;;
      r <~ parse_children wrong child_name id_info one prefix (S expected_id) l' ;;
      Parsed (a :: r)
  end.

(** *** node_iterative_jac.rs *)

(** node_iterative_jac.rs:27-39 *)
Definition parse_iterative_jac_node (node : element) (info : string) : parsed (iterative_params f64) :=
  min_value <~ parse_float_attribute node "min_value" info ;;
  max_value <~ parse_float_attribute node "max_value" info ;;
  max_step_abs <~ parse_float_attribute node "max_step_abs" info ;;
  max_step_rel <~ parse_float_attribute node "max_step_rel" info ;;
  checked (iterative_params_new max_step_abs max_step_rel min_value max_value).

(** node_iterative_jac.rs:41-72 *)
Definition parse_iterative_jac_node_with_default (node : element) (default : iterative_params f64)
  (info : string) : parsed (iterative_params f64) :=
  min_value <~ parse_float_attribute_with_default node (min_value default) "min_value" info ;;
  max_value <~ parse_float_attribute_with_default node (max_value default) "max_value" info ;;
  max_step_abs <~ parse_float_attribute_with_default node (max_step_abs default) "max_step_abs" info ;;
  max_step_rel <~ parse_float_attribute_with_default node (max_step_rel default) "max_step_rel" info ;;
  checked (iterative_params_new max_step_abs max_step_rel min_value max_value).

(** node_iterative_jac.rs:4-25 *)
Definition parse_iteratives_jac_node (node : element) : parsed (list (iterative_params f64)) :=
  default <~ parse_iterative_jac_node node "iteratives node" ;;
  parse_children WrongIterativeNode "iterative" "iterative node"
    (fun c info => parse_iterative_jac_node_with_default c default info)
    "iterative node id = " 0 (el_children node).

(** *** node_iterative_fd.rs *)

(** node_iterative_fd.rs:27-40 *)
Definition parse_iterative_fd_node (node : element) (info : string) : parsed (iterative_params_fd f64) :=
  iterative <~ parse_iterative_jac_node node info ;;
  dx_abs <~ parse_float_attribute node "dx_abs" info ;;
  dx_rel <~ parse_float_attribute node "dx_rel" info ;;
  m <~ parse_perturbation_method node info ;;
  checked (iterative_params_fd_extend iterative dx_abs dx_rel m).

(** node_iterative_fd.rs:42-73 *)
Definition parse_iterative_fd_node_with_default (node : element) (default : iterative_params_fd f64)
  (info : string) : parsed (iterative_params_fd f64) :=
  iterative <~ parse_iterative_jac_node_with_default node (fd_params default) info ;;
  dx_abs <~ parse_float_attribute_with_default node (fd_dx_abs default) "dx_abs" info ;;
  dx_rel <~ parse_float_attribute_with_default node (fd_dx_rel default) "dx_rel" info ;;
  m <~ parse_perturbation_method_with_default node (fd_method default) info ;;
  checked (iterative_params_fd_extend iterative dx_abs dx_rel m).

(** node_iterative_fd.rs:4-25 *)
Definition parse_iteratives_fd_node (node : element) : parsed (list (iterative_params_fd f64)) :=
  default <~ parse_iterative_fd_node node "iteratives node" ;;
  parse_children WrongIterativeNode "iterative" "iterative node"
    (fun c info => parse_iterative_fd_node_with_default c default info)
    "iterative node id = " 0 (el_children node).

(** *** node_residual.rs *)
(** node_residual.rs:74-79, 91-96. *)
Definition normalization_of (value attribute info : string) : parsed norm_method :=
  match value with
  | "Abs" => Parsed Abs
  | "Rel" => Parsed Rel
  | "Adapt" => Parsed Adapt
  | _ => Refused (BadNormalization attribute info)
  end.
(** node_residual.rs:67-80 *)
Definition parse_normalization_method_attribute (node : element) (attribute info : string)
  : parsed norm_method :=
  t <~ required (attr node attribute) (MissingIn attribute info) ;;
  normalization_of t attribute info.
(** node_residual.rs:82-98 *)
Definition parse_normalization_method_attribute_with_default (node : element) (default : norm_method)
  (attribute info : string) : parsed norm_method :=
  match attr node attribute with
  | None => Parsed default
  | Some value => normalization_of value attribute info
  end.

(** node_residual.rs:37-44 *)
Definition parse_residual_node (node : element) (info : string) : parsed residual_config :=
  stopping <~ parse_normalization_method_attribute node "stopping_criteria" info ;;
  update <~ parse_normalization_method_attribute node "update_method" info ;;
  Parsed (mkResidualConfig stopping update).
(** node_residual.rs:46-65 *)
Definition parse_residual_node_with_default (node : element) (default : residual_config)
  (info : string) : parsed residual_config :=
  stopping <~ parse_normalization_method_attribute_with_default node (rc_stopping default)
    "stopping_criteria" info ;;
  update <~ parse_normalization_method_attribute_with_default node (rc_update default)
    "update_method" info ;;
  Parsed (mkResidualConfig stopping update).

(** node_residual.rs:5-35 *)
Definition parse_residuals_node (node : element) : parsed (list norm_method * list norm_method) :=
  default <~ parse_residual_node node "residuals node" ;;
  residuals <~ parse_children WrongResidualNode "residual" "residual_node"
    (fun c info => parse_residual_node_with_default c default info)
    "residual node id = " 0 (el_children node) ;;
  Parsed (convert_into_vecs residuals).

(** *** xml_file_fd.rs, xml_file_jac.rs *)

(** What the two parsers return. xml_file_fd.rs:41-46, 53-58,
    xml_file_jac.rs:140-145, 152-157. *)
Record configuration (A : Type) := mkConfiguration {
  cf_parameters : solver_parameters f64;
  cf_iteratives : list A;
  cf_stopping : list norm_method;
  cf_update : list norm_method
}.
Arguments mkConfiguration {A} _ _ _ _.
Arguments cf_parameters {A} _.
Arguments cf_iteratives {A} _.
Arguments cf_stopping {A} _.
Arguments cf_update {A} _.

(** [tree.next().unwrap()]. xml_file_fd.rs:66, 70, 74, xml_file_jac.rs:165, 169,
    173. *)
Definition next_node (tree : list element) : parsed (element * list element) :=
  match tree with
  | [] => Refused MissingNode
  | n :: tree' => Parsed (n, tree')
  end.

(** xml_file_fd.rs:60-90 and xml_file_jac.rs:159-189: the two functions differ
    only in the parser of the iteratives. *)
Definition parse_root_node {A} (parse_iteratives : element -> parsed (list A)) (root : element)
  : parsed (configuration A) :=
  _ <~ (if string_dec (el_name root) "nrf" then Parsed tt else Refused (WrongRoot (el_name root))) ;;
  st <~ next_node (el_children root) ;;
  let '(solver_node, tree) := st in
  _ <~ check_node_name_and_panic solver_node "solver" ;;
  parameters <~ parse_solver_node solver_node ;;
  st <~ next_node tree ;;
  let '(iteratives_node, tree) := st in
  _ <~ check_node_name_and_panic iteratives_node "iteratives" ;;
  iteratives <~ parse_iteratives iteratives_node ;;
  st <~ next_node tree ;;
  let '(residuals_node, _) := st in
  _ <~ check_node_name_and_panic residuals_node "residuals" ;;
  su <~ parse_residuals_node residuals_node ;;
  let '(stopping, update) := su in
  if negb (Nat.eqb (sp_problem_size parameters) (length iteratives)) then
    Refused (SizeIteratives (sp_problem_size parameters) (length iteratives))
  else if negb (Nat.eqb (sp_problem_size parameters) (length stopping)) then
    Refused (SizeResiduals (sp_problem_size parameters) (length stopping))
  else Parsed (mkConfiguration parameters iteratives stopping update).

(** xml_file_fd.rs:51-91 [parse_root_node_fd], after the reading of the text. *)
Definition parse_root_node_fd (root : element) := parse_root_node parse_iteratives_fd_node root.
(** xml_file_jac.rs:150-190 [parse_root_node_jac], after the reading of the text. *)
Definition parse_root_node_jac (root : element) := parse_root_node parse_iteratives_jac_node root.
