(** The tests of tests/solver run on the binary64 instance of the model: the
    test functions of the ten directories, with the method, the problem, the
    derivation of the jacobian and the damping flag it sets. A test passes when
    [solve] returns [Ok] and every iterative is within 1e-6 of the solution
    (tests/common/run_case_function.rs); the tests marked [#[should_panic]] must
    not pass. The [approx_eq!] macro of float_cmp also accepts values that are a
    few ulps apart, which the comparison below leaves out (it is stricter).
    The runs of the update methods on the two big systems (cases 7 and 8, 10 and
    20 equations) are left out of the build except one; they pass as well but
    take half an hour.
    This file is written from the test files by a script that reads the
    parameters of each test function. *)
From Coq Require Import SpecFloat.
From Flocq Require Import Core BinarySingleNaN.
From Verif Require Import Base Num Linalg Residuals Iteratives UserModel Jacobian Solver F64 TestCases.
Open Scope Z_scope.
Open Scope list_scope.

Definition f64_sqrt (x : f64) : f64 := Bsqrt mode_NE x.

Inductive problem := P5 | P6 | P7 | P8 | P9 | P10 | PSquare | PHigh.
Inductive derivation := WithFD | WithJac.

Definition problem_size (p : problem) : nat :=
  match p with P5 | P6 => 5 | P7 => 10 | P8 => 20 | P9 | P10 => 2 | PSquare | PHigh => 1 end.
Definition problem_init (p : problem) : vec f64 :=
  match p with
  | P5 | P6 | P7 | P8 => repeat (nofZ (-1)) (problem_size p)
  | P9 => [ndec (-12) 10; nofZ 1]
  | P10 => [nofZ 15; nofZ (-2)]
  | PSquare => [nofZ 1]
  | PHigh => [ndec 15 100]
  end.
Definition problem_solution (p : problem) : vec f64 :=
  match p with
  | P5 => solution_case5 f64_sqrt
  | P6 => solution_case6 f64_sqrt
  | P7 => solution_case7 f64_sqrt
  | P8 => solution_case8 f64_sqrt
  | P9 => solution_case9
  | P10 => solution_case10
  | PSquare => [f64_sqrt (nofZ 2)]
  | PHigh => [ndec 1 10]
  end.
Definition problem_function (p : problem) (x : vec f64) : outcome (vec f64) :=
  match p with
  | P5 => broyden1965_case5 x | P6 => broyden1965_case6 x
  | P7 => broyden1965_case7 x | P8 => broyden1965_case8 x
  | P9 => broyden1965_case9 x | P10 => broyden1965_case10 x
  | PSquare => square2 x | PHigh => root_with_high_derivative x
  end.
Definition problem_jacobian (p : problem) (x : vec f64) : outcome (mat f64) :=
  match p with
  | P5 => broyden1965_case5_jac x | P6 => broyden1965_case6_jac x
  | P7 => broyden1965_case7_jac x | P8 => broyden1965_case8_jac x
  | P9 => broyden1965_case9_jac x | P10 => broyden1965_case10_jac x
  | PSquare => dsquare x | PHigh => root_with_high_derivative_jac x
  end.
(** The functions above do not panic on vectors of the right size; the empty
    list stands for a panic, it makes every test fail. *)
Definition returned {A} (o : outcome (list A)) : list A :=
  match o with Ret y => y | Panic _ => [] end.

Definition run_test (p : problem) (d : derivation) (m : resolution_method) (damping : bool)
  : outcome (vec f64 * result unit (solver_error Empty_set Empty_set)) :=
  let n := problem_size p in
  let conf := mkResidualsConfig (repeat Abs n) (repeat Abs n) in
  let f x := returned (problem_function p x) in
  match d with
  | WithFD =>
      rf <- default_with_guess (problem_init p)
              (map iterative_of_params_fd (default_vec_iteratives_fd n)) conf m damping ;;
      '(_, s, r) <- solve (model_from_function f) rf (user_model_new n) ;;
      Ret (um_inputs s, r)
  | WithJac =>
      rf <- default_with_guess (problem_init p)
              (map iterative_of_params (default_vec_iteratives n)) conf m damping ;;
      '(_, s, r) <- solve (model_from_function_and_jacobian f
                             (fun x => returned (problem_jacobian p x)))
                      rf (user_model_new n) ;;
      Ret (um_inputs s, r)
  end.

Fixpoint all_close (x y : vec f64) : bool :=
  match x, y with
  | [], [] => true
  | a :: x', b :: y' => nleb (nabs (nsub a b)) (ndec 1 1000000) && all_close x' y'
  | _, _ => false
  end.
Definition test_passes (t : problem * derivation * resolution_method * bool) : bool :=
  let '(p, d, m, damping) := t in
  match run_test p d m damping with
  | Ret (x, Ok _) => all_close x (problem_solution p)
  | _ => false
  end.

(** tests/solver/broyden1_inv_jac/broyden.rs *)
Example broyden1_inv_jac_broyden_tests :
  forallb test_passes
    [(P5, WithFD, (QuasiNewton (InverseJacobianUpdate BroydenFirstMethod)), false);
     (P5, WithJac, (QuasiNewton (InverseJacobianUpdate BroydenFirstMethod)), false);
     (P6, WithFD, (QuasiNewton (InverseJacobianUpdate BroydenFirstMethod)), false);
     (P6, WithJac, (QuasiNewton (InverseJacobianUpdate BroydenFirstMethod)), false);
     (P8, WithJac, (QuasiNewton (InverseJacobianUpdate BroydenFirstMethod)), true);
     (P9, WithFD, (QuasiNewton (InverseJacobianUpdate BroydenFirstMethod)), true);
     (P9, WithJac, (QuasiNewton (InverseJacobianUpdate BroydenFirstMethod)), true)] = true.
Proof. vm_compute. reflexivity. Qed.

(** tests/solver/broyden1_inv_jac/polynom.rs *)
Example broyden1_inv_jac_polynom_tests :
  forallb test_passes
    [(PSquare, WithFD, (QuasiNewton (InverseJacobianUpdate BroydenFirstMethod)), false);
     (PHigh, WithFD, (QuasiNewton (InverseJacobianUpdate BroydenFirstMethod)), false);
     (PSquare, WithJac, (QuasiNewton (InverseJacobianUpdate BroydenFirstMethod)), false);
     (PHigh, WithJac, (QuasiNewton (InverseJacobianUpdate BroydenFirstMethod)), false)] = true.
Proof. vm_compute. reflexivity. Qed.

(** tests/solver/broyden1_jac/broyden.rs *)
Example broyden1_jac_broyden_tests :
  forallb test_passes
    [(P5, WithFD, (QuasiNewton (JacobianUpdate BroydenFirstMethod)), false);
     (P5, WithJac, (QuasiNewton (JacobianUpdate BroydenFirstMethod)), false);
     (P6, WithFD, (QuasiNewton (JacobianUpdate BroydenFirstMethod)), false);
     (P6, WithJac, (QuasiNewton (JacobianUpdate BroydenFirstMethod)), false);
     (P9, WithFD, (QuasiNewton (JacobianUpdate BroydenFirstMethod)), true);
     (P9, WithJac, (QuasiNewton (JacobianUpdate BroydenFirstMethod)), true)] = true.
Proof. vm_compute. reflexivity. Qed.

(** tests/solver/broyden1_jac/polynom.rs *)
Example broyden1_jac_polynom_tests :
  forallb test_passes
    [(PSquare, WithFD, (QuasiNewton (JacobianUpdate BroydenFirstMethod)), false);
     (PHigh, WithFD, (QuasiNewton (JacobianUpdate BroydenFirstMethod)), false);
     (PSquare, WithJac, (QuasiNewton (JacobianUpdate BroydenFirstMethod)), false);
     (PHigh, WithJac, (QuasiNewton (JacobianUpdate BroydenFirstMethod)), false)] = true.
Proof. vm_compute. reflexivity. Qed.

(** tests/solver/broyden2_inv_jac/broyden.rs *)
Example broyden2_inv_jac_broyden_tests :
  forallb test_passes
    [(P5, WithFD, (QuasiNewton (JacobianUpdate BroydenSecondMethod)), false);
     (P5, WithJac, (QuasiNewton (JacobianUpdate BroydenSecondMethod)), false);
     (P6, WithFD, (QuasiNewton (JacobianUpdate BroydenSecondMethod)), true);
     (P6, WithJac, (QuasiNewton (JacobianUpdate BroydenSecondMethod)), true);
     (P9, WithFD, (QuasiNewton (JacobianUpdate BroydenSecondMethod)), true);
     (P9, WithJac, (QuasiNewton (JacobianUpdate BroydenSecondMethod)), true)] = true.
Proof. vm_compute. reflexivity. Qed.

(** tests/solver/broyden2_inv_jac/polynom.rs *)
Example broyden2_inv_jac_polynom_tests :
  forallb test_passes
    [(PSquare, WithFD, (QuasiNewton (JacobianUpdate BroydenSecondMethod)), false);
     (PHigh, WithFD, (QuasiNewton (JacobianUpdate BroydenSecondMethod)), false);
     (PSquare, WithJac, (QuasiNewton (JacobianUpdate BroydenSecondMethod)), false);
     (PHigh, WithJac, (QuasiNewton (JacobianUpdate BroydenSecondMethod)), false)] = true.
Proof. vm_compute. reflexivity. Qed.

(** tests/solver/broyden2_jac/broyden.rs *)
Example broyden2_jac_broyden_tests :
  forallb test_passes
    [(P5, WithFD, (QuasiNewton (InverseJacobianUpdate BroydenSecondMethod)), false);
     (P5, WithJac, (QuasiNewton (InverseJacobianUpdate BroydenSecondMethod)), false);
     (P6, WithFD, (QuasiNewton (InverseJacobianUpdate BroydenSecondMethod)), true);
     (P6, WithJac, (QuasiNewton (InverseJacobianUpdate BroydenSecondMethod)), true);
     (P9, WithFD, (QuasiNewton (InverseJacobianUpdate BroydenSecondMethod)), true);
     (P9, WithJac, (QuasiNewton (InverseJacobianUpdate BroydenSecondMethod)), true)] = true.
Proof. vm_compute. reflexivity. Qed.

(** tests/solver/broyden2_jac/polynom.rs *)
Example broyden2_jac_polynom_tests :
  forallb test_passes
    [(PSquare, WithFD, (QuasiNewton (InverseJacobianUpdate BroydenSecondMethod)), false);
     (PHigh, WithFD, (QuasiNewton (InverseJacobianUpdate BroydenSecondMethod)), false);
     (PSquare, WithJac, (QuasiNewton (InverseJacobianUpdate BroydenSecondMethod)), false);
     (PHigh, WithJac, (QuasiNewton (InverseJacobianUpdate BroydenSecondMethod)), false)] = true.
Proof. vm_compute. reflexivity. Qed.

(** tests/solver/greenstadt1_inv_jac/broyden.rs *)
Example greenstadt1_inv_jac_broyden_tests :
  forallb test_passes
    [(P5, WithFD, (QuasiNewton (InverseJacobianUpdate GreenstadtFirstMethod)), false);
     (P5, WithJac, (QuasiNewton (InverseJacobianUpdate GreenstadtFirstMethod)), false);
     (P6, WithFD, (QuasiNewton (InverseJacobianUpdate GreenstadtFirstMethod)), true);
     (P6, WithJac, (QuasiNewton (InverseJacobianUpdate GreenstadtFirstMethod)), true);
     (P9, WithFD, (QuasiNewton (InverseJacobianUpdate GreenstadtFirstMethod)), true);
     (P9, WithJac, (QuasiNewton (InverseJacobianUpdate GreenstadtFirstMethod)), true)] = true.
Proof. vm_compute. reflexivity. Qed.

(** tests/solver/greenstadt1_inv_jac/polynom.rs *)
Example greenstadt1_inv_jac_polynom_tests :
  forallb test_passes
    [(PSquare, WithFD, (QuasiNewton (InverseJacobianUpdate GreenstadtFirstMethod)), false);
     (PHigh, WithFD, (QuasiNewton (InverseJacobianUpdate GreenstadtFirstMethod)), false);
     (PSquare, WithJac, (QuasiNewton (InverseJacobianUpdate GreenstadtFirstMethod)), false);
     (PHigh, WithJac, (QuasiNewton (InverseJacobianUpdate GreenstadtFirstMethod)), false)] = true.
Proof. vm_compute. reflexivity. Qed.

(** tests/solver/greenstadt1_jac/broyden.rs *)
Example greenstadt1_jac_broyden_tests :
  forallb test_passes
    [(P5, WithFD, (QuasiNewton (JacobianUpdate GreenstadtFirstMethod)), false);
     (P5, WithJac, (QuasiNewton (JacobianUpdate GreenstadtFirstMethod)), false);
     (P6, WithFD, (QuasiNewton (JacobianUpdate GreenstadtFirstMethod)), true);
     (P6, WithJac, (QuasiNewton (JacobianUpdate GreenstadtFirstMethod)), true);
     (P9, WithFD, (QuasiNewton (JacobianUpdate GreenstadtFirstMethod)), true);
     (P9, WithJac, (QuasiNewton (JacobianUpdate GreenstadtFirstMethod)), true)] = true.
Proof. vm_compute. reflexivity. Qed.

(** tests/solver/greenstadt1_jac/polynom.rs *)
Example greenstadt1_jac_polynom_tests :
  forallb test_passes
    [(PSquare, WithFD, (QuasiNewton (JacobianUpdate GreenstadtFirstMethod)), false);
     (PHigh, WithFD, (QuasiNewton (JacobianUpdate GreenstadtFirstMethod)), false);
     (PSquare, WithJac, (QuasiNewton (JacobianUpdate GreenstadtFirstMethod)), false);
     (PHigh, WithJac, (QuasiNewton (JacobianUpdate GreenstadtFirstMethod)), false)] = true.
Proof. vm_compute. reflexivity. Qed.

(** tests/solver/greenstadt2_inv_jac/broyden.rs *)
Example greenstadt2_inv_jac_broyden_tests :
  forallb test_passes
    [(P5, WithFD, (QuasiNewton (InverseJacobianUpdate GreenstadtSecondMethod)), false);
     (P5, WithJac, (QuasiNewton (InverseJacobianUpdate GreenstadtSecondMethod)), false);
     (P6, WithFD, (QuasiNewton (InverseJacobianUpdate GreenstadtSecondMethod)), true);
     (P6, WithJac, (QuasiNewton (InverseJacobianUpdate GreenstadtSecondMethod)), true);
     (P9, WithFD, (QuasiNewton (InverseJacobianUpdate GreenstadtSecondMethod)), true);
     (P9, WithJac, (QuasiNewton (InverseJacobianUpdate GreenstadtSecondMethod)), true)] = true.
Proof. vm_compute. reflexivity. Qed.

(** tests/solver/greenstadt2_inv_jac/polynom.rs *)
Example greenstadt2_inv_jac_polynom_tests :
  forallb test_passes
    [(PSquare, WithFD, (QuasiNewton (InverseJacobianUpdate GreenstadtSecondMethod)), false);
     (PHigh, WithFD, (QuasiNewton (InverseJacobianUpdate GreenstadtSecondMethod)), false);
     (PSquare, WithJac, (QuasiNewton (InverseJacobianUpdate GreenstadtSecondMethod)), false);
     (PHigh, WithJac, (QuasiNewton (InverseJacobianUpdate GreenstadtSecondMethod)), false)] = true.
Proof. vm_compute. reflexivity. Qed.

(** tests/solver/greenstadt2_jac/broyden.rs *)
Example greenstadt2_jac_broyden_tests :
  forallb test_passes
    [(P5, WithFD, (QuasiNewton (JacobianUpdate GreenstadtSecondMethod)), false);
     (P5, WithJac, (QuasiNewton (JacobianUpdate GreenstadtSecondMethod)), false);
     (P6, WithFD, (QuasiNewton (JacobianUpdate GreenstadtSecondMethod)), true);
     (P6, WithJac, (QuasiNewton (JacobianUpdate GreenstadtSecondMethod)), true);
     (P9, WithFD, (QuasiNewton (JacobianUpdate GreenstadtSecondMethod)), true);
     (P9, WithJac, (QuasiNewton (JacobianUpdate GreenstadtSecondMethod)), true)] = true.
Proof. vm_compute. reflexivity. Qed.

(** tests/solver/greenstadt2_jac/polynom.rs *)
Example greenstadt2_jac_polynom_tests :
  forallb test_passes
    [(PSquare, WithFD, (QuasiNewton (JacobianUpdate GreenstadtSecondMethod)), false);
     (PHigh, WithFD, (QuasiNewton (JacobianUpdate GreenstadtSecondMethod)), false);
     (PSquare, WithJac, (QuasiNewton (JacobianUpdate GreenstadtSecondMethod)), false);
     (PHigh, WithJac, (QuasiNewton (JacobianUpdate GreenstadtSecondMethod)), false)] = true.
Proof. vm_compute. reflexivity. Qed.

(** tests/solver/newton_raphson/broyden.rs *)
Example newton_raphson_broyden_tests :
  forallb test_passes
    [(P5, WithFD, NewtonRaphson, false);
     (P5, WithJac, NewtonRaphson, false);
     (P6, WithFD, NewtonRaphson, false);
     (P6, WithJac, NewtonRaphson, false);
     (P7, WithFD, NewtonRaphson, false);
     (P7, WithJac, NewtonRaphson, false);
     (P8, WithFD, NewtonRaphson, false);
     (P8, WithJac, NewtonRaphson, false);
     (P9, WithFD, NewtonRaphson, false);
     (P9, WithJac, NewtonRaphson, false)] = true.
Proof. vm_compute. reflexivity. Qed.

(** tests/solver/newton_raphson/polynom.rs *)
Example newton_raphson_polynom_tests :
  forallb test_passes
    [(PSquare, WithFD, NewtonRaphson, false);
     (PHigh, WithFD, NewtonRaphson, false);
     (PSquare, WithJac, NewtonRaphson, false);
     (PHigh, WithJac, NewtonRaphson, false)] = true.
Proof. vm_compute. reflexivity. Qed.

(** tests/solver/stationary_newton/broyden.rs *)
Example stationary_newton_broyden_tests :
  forallb test_passes
    [(P5, WithFD, (QuasiNewton StationaryNewton), false);
     (P5, WithJac, (QuasiNewton StationaryNewton), false);
     (P6, WithFD, (QuasiNewton StationaryNewton), false);
     (P6, WithJac, (QuasiNewton StationaryNewton), false);
     (P7, WithFD, (QuasiNewton StationaryNewton), false);
     (P7, WithJac, (QuasiNewton StationaryNewton), false);
     (P8, WithFD, (QuasiNewton StationaryNewton), false);
     (P8, WithJac, (QuasiNewton StationaryNewton), false);
     (P9, WithFD, (QuasiNewton StationaryNewton), false);
     (P9, WithJac, (QuasiNewton StationaryNewton), false)] = true.
Proof. vm_compute. reflexivity. Qed.

(** tests/solver/stationary_newton/polynom.rs *)
Example stationary_newton_polynom_tests :
  forallb test_passes
    [(PSquare, WithFD, (QuasiNewton StationaryNewton), false);
     (PSquare, WithJac, (QuasiNewton StationaryNewton), false)] = true.
Proof. vm_compute. reflexivity. Qed.
Example stationary_newton_polynom_should_panic :
  existsb test_passes
    [(PHigh, WithFD, (QuasiNewton StationaryNewton), false);
     (PHigh, WithJac, (QuasiNewton StationaryNewton), false)] = false.
Proof. vm_compute. reflexivity. Qed.
