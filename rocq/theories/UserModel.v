(** model/*.rs and the error types of errors.rs *)
From Verif Require Import Base Num Linalg Residuals.

(** model/error.rs:32-41 [ModelError]; the payload types are the associated
    types [InaccurateValuesError] ([EI]) and [UnusableValuesError] ([EU]). *)
Inductive model_error (EI EU : Type) :=
| InaccurateValuesError (e : EI)
| UnusableValuesError (e : EU).
Arguments InaccurateValuesError {EI EU} _.
Arguments UnusableValuesError {EI EU} _.

(** errors.rs:135-144 [SolverInternalError] *)
Inductive solver_internal_error (EI EU : Type) :=
| InvalidJacobianError (e : model_error EI EU)
| InvalidJacobianInverseError.
Arguments InvalidJacobianError {EI EU} _.
Arguments InvalidJacobianInverseError {EI EU}.

(** errors.rs:183-195 [SolverError] *)
Inductive solver_error (EI EU : Type) :=
| NonConvergenceError
| ModelInitialEvaluationError (text : string)
| ModelEvaluationError (e : model_error EI EU)
| JacobianError (e : solver_internal_error EI EU)
| FinalEvaluationError.
Arguments NonConvergenceError {EI EU}.
Arguments ModelInitialEvaluationError {EI EU} _.
Arguments ModelEvaluationError {EI EU} _.
Arguments JacobianError {EI EU} _.
Arguments FinalEvaluationError {EI EU}.

(** model/model_definition.rs:40-124, the trait [Model], for a user type with
    states [St]. A [&mut self] method returns the new state. User code may panic
    where the model can produce it: [evaluate], [get_residuals],
    [get_jacobian].
    [show_unusable] and [show_inaccurate] are the [Display] of the payloads. *)
Record Model (F St EI EU : Type) := mkModel {
  len_problem : St -> nat;
  set_iteratives : St -> vec F -> St;
  get_iteratives : St -> vec F;
  evaluate : St -> outcome (St * result unit (model_error EI EU));
  get_residuals : St -> outcome (residuals_values F);
  jacobian_provided : St -> bool;
  get_jacobian : St -> outcome (St * result (jacobian_values F) (model_error EI EU));
  get_memory : St -> vec F;
  set_memory : St -> vec F -> St;
  show_inaccurate : EI -> string;
  show_unusable : EU -> string
}.
Arguments mkModel {F St EI EU}.
Arguments len_problem {F St EI EU}.
Arguments set_iteratives {F St EI EU}.
Arguments get_iteratives {F St EI EU}.
Arguments evaluate {F St EI EU}.
Arguments get_residuals {F St EI EU}.
Arguments jacobian_provided {F St EI EU}.
Arguments get_jacobian {F St EI EU}.
Arguments get_memory {F St EI EU}.
Arguments set_memory {F St EI EU}.
Arguments show_inaccurate {F St EI EU}.
Arguments show_unusable {F St EI EU}.

Section Adapters.
Context {F : Type} {NF : Num F}.

(** Default trait methods, model/model_definition.rs:90-92, 105-109, 115-117,
    123. *)
Definition default_jacobian_provided {St : Type} (_ : St) : bool := false.
(** model/model_definition.rs:105-109. *)
Definition default_get_jacobian {St EI EU : Type} (get_it : St -> vec F) (s : St)
  : outcome (St * result (jacobian_values F) (model_error EI EU)) :=
  let n := length (get_it s) in
  j <- jacobian_values_new (mzeros n) (mzeros n) ;;
  Ret (s, Ok j).
(** model/model_definition.rs:115-117. *)
Definition default_get_memory {St : Type} (_ : St) : vec F := [].
(** model/model_definition.rs:123. *)
Definition default_set_memory {St : Type} (s : St) (_ : vec F) : St := s.

(** [Infallible]: no error value exists. model_from_func.rs:59-60, 149-150,
    model_from_closure.rs:58-59, 149-150. *)
Definition show_infallible (e : Empty_set) : string := match e with end.

(** The fields common to the four adapters: model_from_func.rs:31-37 and
    118-125, model_from_closure.rs:30-36 and 118-125. The function fields
    [func], [closure], [jac] never change; they are arguments of the model
    record below rather than part of the state. *)
Record user_model := mkUserModel {
  um_inputs : vec F;
  um_left : vec F;
  um_right : vec F;
  um_problem_size : nat
}.

(** model_from_func.rs:40-55 and 128-145, model_from_closure.rs:39-54 and
    128-145 ([new]) *)
Definition user_model_new (problem_size : nat) : user_model :=
  mkUserModel (vzeros problem_size) (repeat nnan problem_size)
    (vzeros problem_size) problem_size.

(** The trait methods, identical in the four adapters:
    model_from_func.rs:62-81, 152-171, model_from_closure.rs:61-80, 152-171 *)
Definition um_evaluate (func : vec F -> vec F) (s : user_model)
  : outcome (user_model * result unit (model_error Empty_set Empty_set)) :=
  Ret (mkUserModel (um_inputs s) (func (um_inputs s)) (um_right s) (um_problem_size s),
       Ok tt).
(** model_from_func.rs:67-69, model_from_closure.rs:66-68. *)
Definition um_get_residuals (s : user_model) : outcome (residuals_values F) :=
  residuals_values_new (um_left s) (um_right s).
(** model_from_func.rs:75-77, model_from_closure.rs:74-76. *)
Definition um_set_iteratives (s : user_model) (x : vec F) : user_model :=
  mkUserModel x (um_left s) (um_right s) (um_problem_size s).

(** model_from_func.rs:176-183, model_from_closure.rs (same lines): the
    jacobian of the right members is zero. *)
Definition um_get_jacobian (jac : vec F -> mat F) (s : user_model)
  : outcome (user_model * result (jacobian_values F) (model_error Empty_set Empty_set)) :=
  j <- jacobian_values_new (jac (um_inputs s)) (mzeros (um_problem_size s)) ;;
  Ret (s, Ok j).

(** model_from_func.rs:58-82 [impl Model for UserModelFromFunction] *)
Definition model_from_function (func : vec F -> vec F)
  : Model F user_model Empty_set Empty_set :=
  mkModel um_problem_size um_set_iteratives um_inputs (um_evaluate func)
    um_get_residuals default_jacobian_provided (default_get_jacobian um_inputs)
    default_get_memory default_set_memory show_infallible show_infallible.

(** model_from_func.rs:148-184 [impl Model for UserModelFromFunctionAndJacobian] *)
Definition model_from_function_and_jacobian (func : vec F -> vec F) (jac : vec F -> mat F)
  : Model F user_model Empty_set Empty_set :=
  mkModel um_problem_size um_set_iteratives um_inputs (um_evaluate func)
    um_get_residuals (fun _ => true) (um_get_jacobian jac)
    default_get_memory default_set_memory show_infallible show_infallible.

(** model_from_closure.rs:57-81 [impl Model for UserModelFromClosure].
    Simplification: a closure is taken to be a pure function of its argument
    ([Fn], no interior mutability). *)
Definition model_from_closure (closure : vec F -> vec F)
  : Model F user_model Empty_set Empty_set :=
  mkModel um_problem_size um_set_iteratives um_inputs (um_evaluate closure)
    um_get_residuals default_jacobian_provided (default_get_jacobian um_inputs)
    default_get_memory default_set_memory show_infallible show_infallible.

(** model_from_closure.rs:148-184 [impl Model for UserModelFromClosureAndJacobian] *)
Definition model_from_closure_and_jacobian (closure : vec F -> vec F) (jac : vec F -> mat F)
  : Model F user_model Empty_set Empty_set :=
  mkModel um_problem_size um_set_iteratives um_inputs (um_evaluate closure)
    um_get_residuals (fun _ => true) (um_get_jacobian jac)
    default_get_memory default_set_memory show_infallible show_infallible.

End Adapters.

Arguments user_model F : clear implicits.
