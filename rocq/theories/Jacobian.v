(** solver/jacobian/*.rs and the update formulas of solver/resolution_method.rs *)
From Verif Require Import Base Num Linalg Residuals Iteratives UserModel.

(** solver/resolution_method.rs:148-154 *)
Inductive update_method :=
| BroydenFirstMethod
| BroydenSecondMethod
| GreenstadtFirstMethod
| GreenstadtSecondMethod.

(** solver/resolution_method.rs:52-62 *)
Inductive quasi_newton_method :=
| StationaryNewton
| JacobianUpdate (m : update_method)
| InverseJacobianUpdate (m : update_method).

(** solver/resolution_method.rs:10-26 *)
Inductive resolution_method :=
| NewtonRaphson
| QuasiNewton (m : quasi_newton_method).

Section Formulas.
Context {F : Type} {NF : Num F}.

(** [jac * s - y]. resolution_method.rs:188, 203, 218, 233, 251, 269, 285. *)
Definition defect (jac : mat F) (s y : vec F) : vec F := vsub_raw (mat_vec jac s) y.

(** solver/resolution_method.rs:177-189 *)
Definition broyden_first_jac (jac : mat F) (s y : vec F) : mat F :=
  mat_sub jac (mat_div (outer (defect jac s y) s) (norm_squared s)).

(** solver/resolution_method.rs:192-204 *)
Definition broyden_first_inv (inv_jac : mat F) (s y : vec F) : mat F :=
  mat_sub inv_jac
    (mat_div (mat_mul (outer (defect inv_jac y s) s) inv_jac)
             (dot (vec_mat s inv_jac) y)).

(** solver/resolution_method.rs:207-219 *)
Definition broyden_second_jac (jac : mat F) (s y : vec F) : mat F :=
  mat_sub jac
    (mat_div (mat_mul (outer (defect jac s y) y) jac)
             (dot (vec_mat y jac) s)).

(** solver/resolution_method.rs:222-234 *)
Definition broyden_second_inv (inv_jac : mat F) (s y : vec F) : mat F :=
  mat_sub inv_jac (mat_div (outer (defect inv_jac y s) y) (norm_squared y)).

(** solver/resolution_method.rs:239-252 *)
Definition quasi_method_inv (inv_jac : mat F) (s y c : vec F) : mat F :=
  mat_sub inv_jac (mat_div (outer (defect inv_jac y s) c) (dot c y)).

(** solver/resolution_method.rs:257-270 *)
Definition quasi_method_jac (jac : mat F) (s y c : vec F) : mat F :=
  mat_sub jac
    (mat_div (mat_mul (outer (defect jac s y) c) jac)
             (dot (vec_mat c jac) s)).

(** solver/resolution_method.rs:273-286 *)
Definition greenstadt_second_jac (jac : mat F) (s y hy : vec F) : mat F :=
  mat_sub jac (mat_div (outer (defect jac s y) hy) (dot hy s)).

End Formulas.

Section JacobianMatrix.
Context {F : Type} {NF : Num F} {IF : Inverter F}.

(** solver/jacobian/jacobian_struct.rs:19-29 [JacobianMatrix] *)
Record jacobian_matrix := mkJacobianMatrix {
  jm_matrix : option (mat F);
  jm_inverse : option (mat F);
  jm_compute_at_next : bool;
  jm_approximated : bool
}.

(** solver/jacobian/jacobian_struct.rs:48-55 *)
Definition jacobian_matrix_new : jacobian_matrix :=
  mkJacobianMatrix None None true false.

(** solver/jacobian/jacobian_struct.rs:57-59 *)
Definition force_jacobian_computation (j : jacobian_matrix) : jacobian_matrix :=
  mkJacobianMatrix (jm_matrix j) (jm_inverse j) true (jm_approximated j).

(** solver/jacobian/jacobian_struct.rs:125-128 *)
Definition invalidate_jacobian (j : jacobian_matrix) : jacobian_matrix :=
  mkJacobianMatrix None None (jm_compute_at_next j) (jm_approximated j).

(** solver/jacobian/jacobian_struct.rs:71-87 [update_jacobian]; the result
    [true] is [Ok(())], [false] is [Err(NonInvertibleJacobian)].
    [compute_inverse] (3-17) is [try_inverse]. *)
Definition update_jacobian (j : jacobian_matrix) (m : mat F) : jacobian_matrix * bool :=
  match try_inverse m with
  | Some inv => (mkJacobianMatrix (Some m) (Some inv) false (jm_approximated j), true)
  | None => (invalidate_jacobian j, false)
  end.

(** solver/jacobian/jacobian_struct.rs:89-95 and 97-103 *)
Definition update_jacobian_with_exact_value (j : jacobian_matrix) (m : mat F)
  : jacobian_matrix * bool :=
  update_jacobian
    (mkJacobianMatrix (jm_matrix j) (jm_inverse j) (jm_compute_at_next j) false) m.
(** solver/jacobian/jacobian_struct.rs:97-103. *)
Definition update_jacobian_with_approximated_value (j : jacobian_matrix) (m : mat F)
  : jacobian_matrix * bool :=
  update_jacobian
    (mkJacobianMatrix (jm_matrix j) (jm_inverse j) (jm_compute_at_next j) true) m.

(** solver/jacobian/jacobian_struct.rs:108-112 *)
Definition update_inverse (j : jacobian_matrix) (inv : mat F) : jacobian_matrix :=
  mkJacobianMatrix None (Some inv) (jm_compute_at_next j) true.

(** The shape assertions of nalgebra in an update formula: a square matrix and
    vectors of the same size. For the formulas of resolution_method.rs:177-286. *)
Definition same_size (A : mat F) (s y c : vec F) : bool :=
  Nat.eqb (length A) (length s) && Nat.eqb (length A) (length y)
  && Nat.eqb (length A) (length c).
(** Used for jacobian_approximation.rs:23-49,
    jacobian_inverse_approximation.rs:20-48, jacobian_finite_diff.rs:50. *)
Definition guard_shape {A} (b : bool) (k : outcome A) : outcome A :=
  if b then k else Panic PanicShape.

(** solver/jacobian/jacobian_approximation.rs:9-52 [approximate_jacobian] *)
Definition approximate_jacobian (j : jacobian_matrix) (m : update_method)
  (s y c : vec F) : outcome (jacobian_matrix * bool) :=
  next <-
    match m with
    | BroydenFirstMethod =>
        jac <- unwrap (jm_matrix j) ;;
        guard_shape (same_size jac s y s) (Ret (broyden_first_jac jac s y))
    | BroydenSecondMethod =>
        jac <- unwrap (jm_matrix j) ;;
        guard_shape (same_size jac s y y) (Ret (broyden_second_jac jac s y))
    | GreenstadtFirstMethod =>
        jac <- unwrap (jm_matrix j) ;;
        guard_shape (same_size jac s y c) (Ret (quasi_method_jac jac s y c))
    | GreenstadtSecondMethod =>
        inv <- unwrap (jm_inverse j) ;;
        hy <- mat_vec_chk inv y ;;
        jac <- unwrap (jm_matrix j) ;;
        guard_shape (same_size jac s y hy) (Ret (greenstadt_second_jac jac s y hy))
    end ;;
  Ret (update_jacobian_with_approximated_value j next).

(** solver/jacobian/jacobian_inverse_approximation.rs:7-51 *)
Definition approximate_inv_jacobian (j : jacobian_matrix) (m : update_method)
  (s y c : vec F) : outcome jacobian_matrix :=
  inv <- unwrap (jm_inverse j) ;;
  next <-
    match m with
    | BroydenFirstMethod =>
        guard_shape (same_size inv s y s) (Ret (broyden_first_inv inv s y))
    | BroydenSecondMethod =>
        guard_shape (same_size inv s y y) (Ret (broyden_second_inv inv s y))
    | GreenstadtFirstMethod =>
        guard_shape (same_size inv s y c) (Ret (quasi_method_inv inv s y c))
    | GreenstadtSecondMethod =>
        c2 <- mat_vec_chk (mat_mul (transpose inv) inv) y ;;
        guard_shape (same_size inv s y c2) (Ret (quasi_method_inv inv s y c2))
    end ;;
  Ret (update_inverse j next).

Context {St EI EU : Type} (M : Model F St EI EU).

(** solver/jacobian/jacobian_analytic.rs:6-39 *)
Definition evaluate_jacobian_from_analytical_function (j : jacobian_matrix) (s : St)
  (conf : residuals_config)
  : outcome (jacobian_matrix * St * result unit (solver_internal_error EI EU)) :=
  values <- get_residuals M s ;;
  '(s1, r) <- get_jacobian M s ;;
  match r with
  | Ok jv =>
      m <- normalize jv values (update_methods conf) ;;
      let '(j1, ok) := update_jacobian_with_exact_value j m in
      Ret (j1, s1, if ok then Ok tt else Err InvalidJacobianInverseError)
  | Err e => Ret (invalidate_jacobian j, s1, Err (InvalidJacobianError e))
  end.

(** solver/jacobian/jacobian_finite_diff.rs:32-59, the loop over the columns
    [i], [i+1], ..., [i+todo-1]; returns the columns.
    [n] is the size of the jacobian being filled (line 26-27). *)
Fixpoint finite_difference_columns (conf : residuals_config) (n : nat)
  (memory_ref iteratives_ref residuals_ref perturbations : vec F)
  (todo i : nat) (s : St)
  : outcome (St * result (list (vec F)) (model_error EI EU)) :=
  match todo with
  | O => Ret (s, Ok [])
  | S todo' =>
      dx <- index perturbations i ;;
      x <- update_at iteratives_ref i (fun xi => nadd xi dx) ;;
      '(s1, r) <- evaluate M (set_iteratives M s x) ;;
      match r with
      | Err (UnusableValuesError e) => Ret (s1, Err (UnusableValuesError e))
      | Ok _ | Err (InaccurateValuesError _) =>
          values <- get_residuals M s1 ;;
          res <- evaluate_update_residuals conf values ;;
          diff <- vsub res residuals_ref ;;
          let col := vdiv diff dx in
          guard_shape (Nat.eqb (length col) n) (
            '(s2, rest) <- finite_difference_columns conf n memory_ref iteratives_ref
                             residuals_ref perturbations todo' (S i)
                             (set_memory M s1 memory_ref) ;;
            Ret (s2, match rest with
                     | Ok cols => Ok (col :: cols)
                     | Err e => Err e
                     end))
      end
  end.

(** solver/jacobian/jacobian_finite_diff.rs:14-62 *)
Definition compute_jacobian_from_finite_difference (s : St) (perturbations : vec F)
  (conf : residuals_config)
  : outcome (St * result (mat F) (model_error EI EU)) :=
  values <- get_residuals M s ;;
  residuals_ref <- evaluate_update_residuals conf values ;;
  let n := length perturbations in
  '(s1, r) <- finite_difference_columns conf n (get_memory M s) (get_iteratives M s)
                residuals_ref perturbations (len_problem M s) 0 s ;;
  Ret (s1, match r with
           | Ok cols => Ok (mat_of_cols n cols)
           | Err e => Err e
           end).

(** solver/jacobian/jacobian_finite_diff.rs:64-94 *)
Definition evaluate_jacobian_from_finite_difference (j : jacobian_matrix) (s : St)
  (its : list (iterative F)) (conf : residuals_config)
  : outcome (jacobian_matrix * St * result unit (solver_internal_error EI EU)) :=
  perturbations <- compute_perturbations its (get_iteratives M s) ;;
  '(s1, r) <- compute_jacobian_from_finite_difference s perturbations conf ;;
  match r with
  | Ok m =>
      let '(j1, ok) := update_jacobian_with_exact_value j m in
      Ret (j1, s1, if ok then Ok tt else Err InvalidJacobianInverseError)
  | Err e => Ret (j, s1, Err (InvalidJacobianError e))
  end.

End JacobianMatrix.

Arguments jacobian_matrix F : clear implicits.
