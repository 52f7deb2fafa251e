(** Runs of the binary64 instance of the model against reference data stored in
    /repo: the value printed in the documentation, the exact values asserted by
    the tests, and the reference log of a complete resolution. The comparisons
    are bit for bit. They validate the reading of the code and of nalgebra
    (order of the operations, LU, finite differences). *)
From Coq Require Import SpecFloat.
From Flocq Require Import Core BinarySingleNaN.
From Verif Require Import Base Num Linalg Residuals Iteratives UserModel Jacobian Solver F64.
Open Scope Z_scope.
Open Scope list_scope.

Definition Fz (z : Z) : f64 := nofZ z.

(** The documentation of the crate solves [x^2 - 2 = 0] from 1.0 by finite
    differences and prints 1.4142135623747443 (README.md and src/lib.rs). *)
Definition square2 (x : vec f64) : vec f64 :=
  match x with
  | [a] => [nsub (nmul a a) (Fz 2)]
  | _ => []
  end.
Definition conf_abs (n : nat) : residuals_config :=
  mkResidualsConfig (repeat Abs n) (repeat Abs n).

Definition square2_run : outcome (list spec_float * result unit (solver_error Empty_set Empty_set) * nat) :=
  rf <- default_with_guess [Fz 1] (map iterative_of_params_fd (default_vec_iteratives_fd 1))
          (conf_abs 1) NewtonRaphson false ;;
  '(rf1, s, r) <- solve (model_from_function square2) rf (user_model_new 1) ;;
  Ret (map B2SF (um_inputs s), r, rf_iter rf1).
Example square2_documented_value :
  square2_run = Ret ([S754_finite false 6369051672533200 (-52)], Ok tt, 4%nat).
Proof. vm_compute. reflexivity. Qed.

(** tests/jacobian/non_linear.rs:7-32 *)
Definition non_linear (x : vec f64) : vec f64 :=
  match x with
  | [a; b] => [nadd a (nmul (Fz 4) b); nmul a b]
  | _ => []
  end.
Definition non_linear_jac : outcome (result (list (list spec_float)) (model_error Empty_set Empty_set)) :=
  let M := model_from_function non_linear in
  '(s, _) <- evaluate M (set_iteratives M (user_model_new 2) [Fz 1; Fz 2]) ;;
  '(_, r) <- compute_jacobian_from_finite_difference M s [ndec 1 10000; ndec 1 10000] (conf_abs 2) ;;
  Ret (match r with Ok m => Ok (map (map B2SF) m) | Err e => Err e end).
Example non_linear_asserted_values :
  non_linear_jac =
  Ret (Ok [[S754_finite false 9007199254720000 (-53); S754_finite false 4503599627380000 (-50)];
           [S754_finite false 9007199254740000 (-52); S754_finite false 4503599627380000 (-52)]]).
Proof. vm_compute. reflexivity. Qed.

(** util/src/test_cases/broyden1965.rs:241-246 *)
Definition broyden1965_case10_f64 (x : vec f64) : vec f64 :=
  match x with
  | [x0; x1] =>
      [nadd (nadd (Fz (-13)) x0)
            (nmul (nsub (nmul (nadd (nneg x1) (Fz 5)) x1) (Fz 2)) x1);
       nadd (nadd (Fz (-29)) x0)
            (nmul (nsub (nmul (nadd x1 (Fz 1)) x1) (Fz 14)) x1)]
  | _ => []
  end.

(** tests/log/broyden_case10.xml *)
Definition case10_iteratives : list (iterative f64) :=
  [iterative_of_params_fd
     (mkIterativeParamsFD (mkIterativeParams (Fz 5) (Fz 2) (Fz 1) (Fz 15)) PMax
        (ndec 5 100000000) (ndec 5 100000000));
   iterative_of_params_fd
     (mkIterativeParamsFD (mkIterativeParams (Fz 5) ninf (Fz 3) (Fz 10)) PMax
        (ndec 5 100000000) (ndec 5 100000000))].

(** What the log shows: per iteration the iteratives and the left members, and
    per jacobian the matrix and its inverse. *)
Inductive shown :=
| SIter (x left : list spec_float)
| SJac (m inv : option (list (list spec_float))).
Definition show_entry (e : log_entry f64) : list shown :=
  match e with
  | LIteration _ x v _ => [SIter (map B2SF x) (map B2SF (rv_left v))]
  | LJacobian j => [SJac (option_map (map (map B2SF)) (jm_matrix j))
                         (option_map (map (map B2SF)) (jm_inverse j))]
  | _ => []
  end.
Definition case10_log : outcome (result unit (solver_error Empty_set Empty_set) * list shown) :=
  rf <- rootfinder_new (mkSolverParameters 2 (ndec 1 1000000) 60 NewtonRaphson false)
          [Fz 15; Fz (-2)] case10_iteratives (conf_abs 2) ;;
  '(rf1, s, r) <- solve (model_from_function broyden1965_case10_f64) (activate_debug rf)
                    (user_model_new 2) ;;
  l <- unwrap (rf_log rf1) ;;
  Ret (r, flat_map show_entry l).

(** tests/log/log_ref_without_additional_infos.txt, all seven iterations. *)
Example case10_reference_log :
  case10_log = Ret (Ok tt,
   [SIter [S754_finite false 8444249301319680 (-49); S754_finite true 4503599627370496 (-51)]
          [S754_finite false 4785074604081152 (-47); S754_finite false 5629499534213120 (-49)];
    SJac (Some [[S754_finite false 9007199232000000 (-53); S754_finite true 4785074460000000 (-47)];
         [S754_finite false 9007199253333333 (-53); S754_finite true 6755400040000000 (-50)]])
        (Some [[S754_finite true 7720457614821353 (-55); S754_finite false 5468656827641280 (-52)];
         [S754_finite true 5146971286071353 (-57); S754_finite false 5146971273880877 (-57)]]);
    SIter [S754_finite false 5709921374641924 (-49); S754_finite false 6755399441055744 (-51)]
          [S754_finite false 5146971421220612 (-49); S754_finite true 6996663497551998 (-48)];
    SJac (Some [[S754_finite false 4503599631596584 (-52); S754_finite false 9007193920000000 (-53)];
         [S754_finite false 9007199231643874 (-53); S754_finite false 5348024980000000 (-48)]])
        (Some [[S754_finite false 4753799423999001 (-52); S754_finite true 8006393655390760 (-57)];
         [S754_finite true 8006398376851427 (-57); S754_finite false 8006398404895241 (-57)]]);
    SIter [S754_finite false 5790343215070728 (-50); S754_finite false 5504399294825040 (-50)]
          [S754_finite true 8432552134370088 (-49); S754_finite false 6818747235435571 (-47)];
    SJac (Some [[S754_finite false 4503599646759927 (-52); S754_finite true 6984748887812594 (-48)];
         [S754_finite false 9007199231297641 (-53); S754_finite false 4748586891810726 (-46)]])
        (Some [[S754_finite false 6585520521436282 (-53); S754_finite false 4843357422509867 (-54)];
         [S754_finite true 6245762869020281 (-59); S754_finite false 6245762912166344 (-59)]]);
    SIter [S754_finite false 6909527441216456 (-51); S754_finite false 4730640337314541 (-50)]
          [S754_finite true 4774858789876909 (-50); S754_finite false 7965390057998620 (-50)];
    SJac (Some [[S754_finite false 9007199253155231 (-53); S754_finite true 7287460453129757 (-49)];
         [S754_finite false 4503599678721264 (-52); S754_finite false 6666025988662922 (-47)]])
        (Some [[S754_finite false 7073868344607112 (-53); S754_finite false 7733323557340472 (-55)];
         [S754_finite true 4779139964091138 (-58); S754_finite false 4779139908757225 (-58)]]);
    SIter [S754_finite false 5495019218372960 (-50); S754_finite false 4519394622017194 (-50)]
          [S754_finite true 4703751386688528 (-54); S754_finite false 8508690641361408 (-54)];
    SJac (Some [[S754_finite false 9007199224624826 (-53); S754_finite true 5740397665503469 (-49)];
         [S754_finite false 9007199224624826 (-53); S754_finite false 5962391711960856 (-47)]])
        (Some [[S754_finite false 7259819502627393 (-53); S754_finite false 6989519128919058 (-55)];
         [S754_finite true 5483591464127119 (-58); S754_finite false 5483591464127119 (-58)]]);
    SIter [S754_finite false 5628804368363404 (-50); S754_finite false 4503684178150073 (-50)]
          [S754_finite true 6310781305020416 (-62); S754_finite false 5849189244346368 (-61)];
    SJac (Some [[S754_finite false 9007199241357893 (-53); S754_finite true 5630092190398976 (-49)];
         [S754_finite false 4503599652682898 (-52); S754_finite false 5911249671935921 (-47)]])
        (Some [[S754_finite false 7274963397055968 (-53); S754_finite false 6928943435033308 (-55)];
         [S754_finite true 5542571274532560 (-58); S754_finite false 5542571235145359 (-58)]]);
    SIter [S754_finite false 5629499514135225 (-50); S754_finite false 4503599629818932 (-50)]
          [S754_finite true 5981044754874368 (-77); S754_finite false 5553689066471424 (-76)]]).
Proof. vm_compute. reflexivity. Qed.
