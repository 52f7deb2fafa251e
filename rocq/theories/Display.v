(** The [Display] implementations: the texts of the methods, of the errors, and
    of the debugging log. *)
From Coq Require Import Ascii.
From Coq Require Import Floats.SpecFloat.
From Flocq Require Import BinarySingleNaN.
From Verif Require Import Base Num Linalg Residuals Iteratives UserModel Jacobian Solver F64 Text.
Open Scope string_scope.

(** *** Formatting *)
(** The [\n] of the texts, e.g. log.rs:63-80. *)
Definition nl : string := String "010" EmptyString.
(** The fill characters of Rust's formatting, log.rs:153-168. *)
Fixpoint times (n : nat) (s : string) : string :=
  match n with O => "" | S n' => s ++ times n' s end.
(** [{:width$}] of a text: padded on the right; of a number: on the left.
    Widths are counted in characters; all padded texts are ASCII. Rust standard
    library, log.rs:153-168, parameters.rs:93-134. *)
Definition pad (width : nat) (s : string) : string := s ++ times (width - String.length s) " ".
(** Rust standard library, residuals/values.rs:65-74; nalgebra's matrices,
    jacobian_struct.rs:145, 156. *)
Definition pad_left (width : nat) (s : string) : string := times (width - String.length s) " " ++ s.

(** *** [Display for f64] *)

(** The digits [d] times 10^q, without exponent. Rust standard library, [to_string]
    of f64, e.g. log.rs:146, 156, 166. *)
Definition plain_decimal (d : N) (q : Z) : string :=
  let digits := show_N d in
  match q with
  | Zneg k =>
      let k := Pos.to_nat k in
      let n := String.length digits in
      if Nat.ltb k n
      then substring 0 (n - k) digits ++ "." ++ substring (n - k) k digits
      else "0." ++ times (k - n) "0" ++ digits
  | _ => digits ++ times (Z.to_nat q) "0"
  end.

(** Rust standard library, see [display_f64]. *)
Definition same_sf (a b : spec_float) : bool :=
  match a, b with
  | S754_finite s m e, S754_finite s' m' e' => Bool.eqb s s' && Pos.eqb m m' && Z.eqb e e'
  | _, _ => false
  end.
(** A text that denotes [x]. Rust standard library, see [display_f64]. *)
Definition denotes (x : f64) (t : string) : bool :=
  match parse_f64 t with
  | Some y => same_sf (B2SF x) (B2SF y)
  | None => false
  end.

(** The nearest decimals of [n] digits to num/den, whose integer part has [k]
    digits (the first of them 10^-k for negative [k]). Rust standard library, see
    [display_f64]. *)
Definition decimals (num den : N) (k : Z) (n : nat) : list (N * Z) :=
  let q := (k - Z.of_nat n)%Z in
  let num' := (num * 10 ^ Z.to_N (- q))%N in
  let den' := (den * 10 ^ Z.to_N q)%N in
  let d := (num' / den')%N in
  let below := (d, q) in
  let above := if (d + 1 =? 10 ^ N.of_nat n)%N then (1%N, k) else ((d + 1)%N, q) in
  if (2 * (num' - d * den') <=? den')%N then [below; above] else [above; below].
(** Rust standard library, see [display_f64]. *)
Definition leading (num den : N) : Z :=
  let k := (Z.of_nat (String.length (show_N num)) - Z.of_nat (String.length (show_N den)))%Z in
  if (den * 10 ^ Z.to_N k <=? num * 10 ^ Z.to_N (- k))%N then (k + 1)%Z else k.

(** The shortest text that denotes [x], and the nearest of the shortest.  At
    most 17 digits are needed; the exact expansion stands for the case that
    does not occur. Rust standard library, [to_string] of f64, e.g. log.rs:146, 156,
    166, parameters.rs:93-134, iterative_var.rs:124-149. *)
Definition display_f64 (x : f64) : string :=
  match x with
  | B754_finite s m e _ =>
      let num := (Npos m * 2 ^ Z.to_N e)%N in
      let den := (2 ^ Z.to_N (- e))%N in
      let k := leading num den in
      let candidates := flat_map (decimals num den k) (seq 1 17) in
      match find (denotes x) (map (fun dq => show_sign s ++ plain_decimal (fst dq) (snd dq)) candidates) with
      | Some t => t
      | None => show_f64 x
      end
  | _ => show_f64 x
  end.

Section Texts.
Context (show : f64 -> string).

(** *** solver/resolution_method.rs *)

(** Update methods. solver/resolution_method.rs:156-174. *)
Definition display_update_method (m : update_method) : string :=
  match m with
  | BroydenFirstMethod => "Broyden First Method"
  | BroydenSecondMethod => "Broyden Second Method"
  | GreenstadtFirstMethod => "Greenstadt First Method"
  | GreenstadtSecondMethod => "Greenstadt Second Method"
  end.
(** Quasi-Newton methods. solver/resolution_method.rs:64-80. *)
Definition display_quasi_newton (m : quasi_newton_method) : string :=
  "Jacobian matrix behavior: " ++
  match m with
  | StationaryNewton => "Frozen Jacobian matrix"
  | JacobianUpdate u => "Jacobian matrix approximated" ++ display_update_method u
  | InverseJacobianUpdate u => "Jacobian matrix approximated" ++ display_update_method u
  end.
(** Resolution methods. solver/resolution_method.rs:28-40. *)
Definition display_method (m : resolution_method) : string :=
  match m with
  | NewtonRaphson => "Newton-Raphson"
  | QuasiNewton q => "Quasi Newton: " ++ display_quasi_newton q
  end.

(** *** Errors: model/error.rs:42-53, errors.rs:146-159, 197-221 *)
Section Errors.
Context {EI EU : Type} (show_inaccurate : EI -> string) (show_unusable : EU -> string).
(** model/error.rs:43-56. *)
Definition display_model_error (e : model_error EI EU) : string :=
  match e with
  | InaccurateValuesError e => "InaccurateValues Error: " ++ show_inaccurate e
  | UnusableValuesError e => "UnusableValuesError Error: " ++ show_unusable e
  end.
(** errors.rs:146-159. *)
Definition display_internal_error (e : solver_internal_error EI EU) : string :=
  match e with
  | InvalidJacobianError e => "Invalid jacobian: " ++ display_model_error e
  | InvalidJacobianInverseError => "Non invertible jacobian"
  end.
(** errors.rs:197-221. *)
Definition display_solver_error (e : solver_error EI EU) : string :=
  match e with
  | NonConvergenceError => "Convergence not reached"
  | ModelInitialEvaluationError t => "Initial model evaluation failed: " ++ t
  | ModelEvaluationError e => "Model evaluation failed: " ++ display_model_error e
  | JacobianError e => "Jacobian error: " ++ display_internal_error e
  | FinalEvaluationError => "Final model evaluation failed"
  end.
End Errors.

(** *** solver/parameters.rs:93-134 *)
(** solver/parameters.rs:93-134. *)
Definition parameters_line : string :=
  "+----------------+-----------------+-----------------+--------------------+---------------------+" ++ nl.
(** solver/parameters.rs:93-134. *)
Definition display_parameters (p : solver_parameters f64) : string :=
  "Solver parameters" ++ nl ++ "=================" ++ nl ++ nl ++
  parameters_line ++
  "|  Problem size  |  Max iteration  |    Tolerance    |  Damping activated |  Resolution Method  |" ++ nl ++
  parameters_line ++
  "| " ++ pad 15 (show_usize (sp_problem_size p)) ++
  "| " ++ pad 17 (show_usize (sp_max_iter p)) ++
  "| " ++ pad 15 (show (sp_tolerance p)) ++
  "| " ++ pad 19 (show_bool (sp_damping p)) ++
  "| " ++ pad 20 (display_method (sp_resolution_method p)) ++
  "|" ++ nl ++ parameters_line ++ nl.

(** *** iteratives/iterative_var.rs:124-149, iterative_var_fd.rs:12-21, 192-215 *)
(** iteratives/iterative_var_fd.rs:12-21. *)
Definition display_perturbation (m : perturbation_method) : string :=
  match m with PMax => "Max" | PSum => "Sum" end.
(** iteratives/iterative_var.rs:124-149. *)
Definition display_limits (p : iterative_params f64) : string :=
  " " ++ pad 13 (show (max_step_abs p)) ++ "|" ++
  " " ++ pad 13 (show (max_step_rel p)) ++ "|" ++
  " " ++ pad 13 (show (min_value p)) ++ "|" ++
  " " ++ pad 13 (show (max_value p)) ++ "|".
(** iteratives/iterative_var_fd.rs:192-215. *)
Definition display_limits_fd (p : iterative_params_fd f64) : string :=
  display_limits (fd_params p) ++
  " " ++ pad 16 (display_perturbation (fd_method p)) ++ "|" ++
  " " ++ pad 13 (show (fd_dx_abs p)) ++ "|" ++
  " " ++ pad 13 (show (fd_dx_rel p)) ++ "|".

(** *** iteratives/iteratives_base.rs:92-156; entry 0 is read first *)
(** iteratives/iteratives_base.rs:102. *)
Definition column : string := "--------------+".
(** iteratives/iteratives_base.rs:104-121. *)
Definition iteratives_line (finite_diff : bool) : string :=
  "+-----------+" ++ column ++ column ++ column ++ column ++
  (if finite_diff then "-----------------+" ++ column ++ column else "") ++ nl.
(** iteratives/iteratives_base.rs:124-143. *)
Definition iteratives_title (finite_diff : bool) : string :=
  "| Iterative " ++ "| " ++ pad 13 "max_step_abs" ++ "| " ++ pad 13 "max_step_rel" ++
  "| " ++ pad 13 "min_value" ++ "| " ++ pad 13 "max_value" ++
  (if finite_diff
   then "| " ++ pad 16 "perturbation" ++ "| " ++ pad 13 "dx_abs" ++ "| " ++ pad 13 "dx_rel" ++ "|"
   else "|") ++ nl.
(** iteratives/iteratives_base.rs:146-151. *)
Fixpoint iteratives_rows (finite_diff : bool) (i : nat) (l : list string) : string :=
  match l with
  | [] => ""
  | t :: l' => "| " ++ pad 10 (show_usize i) ++ "|" ++ t ++ nl ++ iteratives_line finite_diff ++
               iteratives_rows finite_diff (S i) l'
  end.
(** iteratives/iteratives_base.rs:92-156. *)
Definition display_iteratives {A} (with_finite_diff : A -> bool) (display : A -> string) (l : list A)
  : outcome string :=
  first <- index l 0 ;;
  let fd := with_finite_diff first in
  Ret ("Iteratives parameters" ++ nl ++ "=====================" ++ nl ++ nl ++
       iteratives_line fd ++ iteratives_title fd ++ iteratives_line fd ++
       iteratives_rows fd 0 (map display l) ++ nl).

(** *** residuals/mod.rs:35-45, residuals/config.rs:146-185 *)
(** residuals/mod.rs:35-45. *)
Definition display_norm (m : norm_method) : string :=
  match m with
  | Abs => "Absolute Normalization"
  | Rel => "Relative Normalization"
  | Adapt => "Adaptative Normalization"
  end.
(** residuals/config.rs:148-150. *)
Definition residuals_line : string :=
  "+-------------------+--------------------------+--------------------------+" ++ nl.
(** residuals/config.rs:165-180. *)
Fixpoint residuals_rows (i : nat) (stopping update : list norm_method) : outcome string :=
  match stopping, update with
  | [], _ => Ret ""
  | s :: stopping', u :: update' =>
      rest <- residuals_rows (S i) stopping' update' ;;
      Ret ("| " ++ pad 18 (show_usize i) ++ "| " ++ pad 25 (display_norm s) ++
           "| " ++ pad 25 (display_norm u) ++ "|" ++ nl ++ rest)
  | _ :: _, [] => Panic PanicIndex
  end.
(** residuals/config.rs:146-185. *)
Definition display_residuals_config (c : residuals_config) : outcome string :=
  rows <- residuals_rows 0 (stopping_criterias c) (update_methods c) ;;
  Ret ("Residuals configuration" ++ nl ++ "=======================" ++ nl ++ nl ++
       residuals_line ++ "| " ++ pad 18 "Residual number" ++ "| " ++ pad 25 "Stopping criteria" ++
       "| " ++ pad 25 "Update method" ++ "|" ++ nl ++ residuals_line ++ rows ++ residuals_line ++ nl).

(** *** jacobian_struct.rs:131-164; the matrices are formatted by nalgebra:
    entries padded on the left to the longest. *)
(** nalgebra's [Display] of a matrix, jacobian_struct.rs:145, 156. *)
Definition longest (m : mat f64) : nat :=
  fold_right Nat.max 0%nat (map (fun x => String.length (show x)) (concat m)).
(** nalgebra's [Display] of a matrix, jacobian_struct.rs:145, 156. *)
Fixpoint matrix_row (width : nat) (r : list f64) : string :=
  match r with
  | [] => " │" ++ nl
  | x :: r' => " " ++ pad_left width (show x) ++ matrix_row width r'
  end.
(** nalgebra's [Display] of a matrix, jacobian_struct.rs:145, 156. *)
Definition display_matrix (m : mat f64) : string :=
  let width := longest m in
  let inner := times ((width + 1) * length (hd [] m) + 1) " " in
  nl ++ "  ┌" ++ inner ++ "┐" ++ nl ++
  fold_right (fun r rest => "  │" ++ matrix_row width r ++ rest) "" m ++
  "  └" ++ inner ++ "┘" ++ nl ++ nl.
(** jacobian_struct.rs:131-164. *)
Definition display_jacobian (j : jacobian_matrix f64) : string :=
  "Jacobian matrix" ++ nl ++ "=================" ++ nl ++ nl ++
  match jm_matrix j with
  | Some m => "Jacobian up to date with its inverse" ++ nl ++ nl ++ "Jacobian:" ++ nl ++ display_matrix m
  | None => "Jacobian not up to date with its inverse." ++ nl ++
            "The update of the inverse is more recent" ++ nl
  end ++
  "Inverse of the jacobian Matrix:" ++ nl ++
  match jm_inverse j with
  | Some m => display_matrix m
  | None => "Inverse jacobian matrix not yet computed"
  end ++ nl.

(** *** solver/log.rs *)
(** log.rs:10. *)
Definition iteration_separation : string := "=========================" ++ nl ++ nl.
(** log.rs:11. *)
Definition iteration_line : string :=
  "+-------+-------------------------------+----------------------------------------------------------------+---------------------------------+" ++ nl.
(** log.rs:12. *)
Definition iteration_title : string :=
  "| Id    |           Iteratives          |        Left                    =                Right          |         Stopping criteria       |" ++ nl.
(** residuals/values.rs:65-74 *)
Definition values_str_eq (left right : f64) : string := pad 30 (show left) ++ " = " ++ pad_left 30 (show right).
(** log.rs:136-174; the rows zip the iteratives and the errors, the residuals are indexed *)
Fixpoint iteration_rows (i : nat) (x left right errors : list f64) : outcome string :=
  match x, errors with
  | a :: x', e :: errors' =>
      match left, right with
      | l :: left', r :: right' =>
          rest <- iteration_rows (S i) x' left' right' errors' ;;
          Ret ("| " ++ pad 6 (show_usize i) ++ "| " ++ pad 30 (show a) ++
               "| " ++ pad 30 (values_str_eq l r) ++ "| " ++ pad 30 (show e) ++ "  |" ++ nl ++
               iteration_line ++ rest)
      | _, _ => Panic PanicIndex
      end
  | _, _ => Ret ""
  end.
(** log.rs:136-174. *)
Definition display_iteration (x : vec f64) (v : residuals_values f64) (errors : vec f64) : outcome string :=
  rows <- iteration_rows 0 x (rv_left v) (rv_right v) errors ;;
  Ret ("Max error: " ++ show (amax errors) ++ nl ++ nl ++
       iteration_line ++ iteration_title ++ iteration_line ++ rows ++ nl).

(** What each write appends to the file; [iteratives] is the text of the
    iteratives and [version] the version of the crate (log.rs:59-87 without the
    feature additional_log_info). *)
Definition display_entry (version iteratives : string) (e : log_entry f64) : outcome string :=
  match e with
  | LHeader => Ret ("Runner informations" ++ nl ++ "===================" ++ nl ++ nl ++
                    "newton_rootfinder version: " ++ version ++ nl ++ nl)
  | LParameters p _ c =>
      residuals <- display_residuals_config c ;;
      Ret (display_parameters p ++ iteratives ++ residuals)
  | LIteration iter x v errors =>
      t <- display_iteration x v errors ;;
      Ret (iteration_separation ++ "Iteration: " ++ show_usize iter ++ nl ++ nl ++ t)
  | LDamping x v errors =>
      t <- display_iteration x v errors ;;
      Ret ("Damping activated !" ++ nl ++ nl ++ t)
  | LRecompute =>
      Ret ("Iteration refused, the jacobian will be recomputed at the next iteration" ++ nl ++ nl)
  | LJacobian j => Ret (display_jacobian j)
  end.
(** The successive writes, log.rs:89-92. *)
Fixpoint display_log (version iteratives : string) (l : list (log_entry f64)) : outcome string :=
  match l with
  | [] => Ret ""
  | e :: l' =>
      t <- display_entry version iteratives e ;;
      rest <- display_log version iteratives l' ;;
      Ret (t ++ rest)
  end.
End Texts.
