(** residuals/mod.rs, residuals/config.rs, residuals/values.rs *)
From Verif Require Import Base Num Linalg.

(** residuals/mod.rs:22-26 *)
Inductive norm_method := Abs | Rel | Adapt.

Section Residuals.
Context {F : Type} {NF : Num F}.

(** residuals/mod.rs:87-93 [normalization] *)
Definition normalization (x y : F) (m : norm_method) : F :=
  match m with
  | Abs => nsub x y
  | Rel => ndiv (nsub x y) (ndiv (nabs (nadd x y)) n2)
  | Adapt => ndiv (nsub x y) (nadd n1 (ndiv (nabs (nadd x y)) n2))
  end.

(** residuals/mod.rs:98-126 [deriv_normalization] *)
Definition deriv_normalization (x y dx dy : F) (m : norm_method) : F :=
  match m with
  | Abs => nsub dx dy
  | Rel =>
      let diff := nsub x y in
      let deriv_diff := nsub dx dy in
      let sum := nadd x y in
      let deriv_sum := nadd dx dy in
      ndiv (nmul n2 (nsub (nmul deriv_diff (nabs sum))
                          (nmul (nmul deriv_sum diff) (nsignum sum))))
           (nsq sum)
  | Adapt =>
      let diff := nsub x y in
      let deriv_diff := nsub dx dy in
      let avg := ndiv (nadd x y) n2 in
      let deriv_avg := ndiv (nadd dx dy) n2 in
      let denominator := nadd n1 (nabs avg) in
      let deriv_denominator := nmul deriv_avg (nsignum avg) in
      ndiv (nsub (nmul deriv_diff denominator) (nmul deriv_denominator diff))
           (nsq denominator)
  end.

(** residuals/config.rs:10-38 [ResidualConfig] (derived [Default]: 15-22) *)
Record residual_config := mkResidualConfig {
  rc_stopping : norm_method;
  rc_update : norm_method
}.
(** residuals/config.rs:15-22. *)
Definition default_residual_config : residual_config := mkResidualConfig Abs Abs.

(** residuals/mod.rs:145-147 [default_vec_residuals] *)
Definition default_vec_residuals (size : nat) : list residual_config :=
  repeat default_residual_config size.

(** residuals/config.rs:52-56 [ResidualsConfig]. The [length] field is the
    length of [stopping_criterias] (line 63) and is not stored here. *)
Record residuals_config := mkResidualsConfig {
  stopping_criterias : list norm_method;
  update_methods : list norm_method
}.

(** residuals/config.rs:59-77 [ResidualsConfig::new] *)
Definition residuals_config_new (stopping update : list norm_method)
  : outcome residuals_config :=
  if Nat.eqb (length stopping) (length update)
  then Ret (mkResidualsConfig stopping update)
  else Panic PanicDim.

(** residuals/config.rs:95-97 [len] *)
Definition residuals_config_len (c : residuals_config) : nat :=
  length (stopping_criterias c).

(** residuals/config.rs:80-93 [convert_into_vecs] *)
Definition convert_into_vecs (l : list residual_config)
  : list norm_method * list norm_method :=
  (map rc_stopping l, map rc_update l).

(** residuals/values.rs:14-22 [ResidualsValues]; [problem_size] is the length
    of [left] (line 38) and is not stored. *)
Record residuals_values := mkResidualsValues {
  rv_left : vec F;
  rv_right : vec F
}.

(** residuals/values.rs:29-45 [ResidualsValues::new] *)
Definition residuals_values_new (left right : vec F) : outcome residuals_values :=
  if Nat.eqb (length left) (length right)
  then Ret (mkResidualsValues left right)
  else Panic PanicDim.

(** residuals/values.rs:47-63 [len], [shape], [shape_generic] *)
Definition residuals_values_len (v : residuals_values) : nat := length (rv_left v).

(** residuals/values.rs:51-53 [get_values] *)
Definition get_values (v : residuals_values) (i : nat) : outcome (F * F) :=
  l <- index (rv_left v) i ;;
  r <- index (rv_right v) i ;;
  Ret (l, r).

(** The loop shared by residuals/config.rs:100-116 and 119-135: a vector of
    zeros with the shape of the values, whose entry [i] is overwritten for each
    configured method [i]; reading entry [i] of a too short vector panics. *)
Fixpoint evaluate_residuals (f : F -> F -> norm_method -> F)
  (methods : list norm_method) (left right : vec F) : outcome (vec F) :=
  match methods with
  | [] => Ret (vzeros (length left))
  | m :: methods' =>
      match left, right with
      | x :: left', y :: right' =>
          rest <- evaluate_residuals f methods' left' right' ;;
          Ret (f x y m :: rest)
      | _, _ => Panic PanicIndex
      end
  end.

(** residuals/config.rs:100-116 [evaluate_update_residuals] *)
Definition evaluate_update_residuals (c : residuals_config) (v : residuals_values)
  : outcome (vec F) :=
  evaluate_residuals normalization (update_methods c) (rv_left v) (rv_right v).

(** residuals/config.rs:119-135 [evaluate_stopping_residuals] *)
Definition evaluate_stopping_residuals (c : residuals_config) (v : residuals_values)
  : outcome (vec F) :=
  evaluate_residuals (fun x y m => nabs (normalization x y m))
    (stopping_criterias c) (rv_left v) (rv_right v).

(** residuals/values.rs:88-97 [JacobianValues]; [problem_size] is the number of
    rows (line 117) and is not stored. *)
Record jacobian_values := mkJacobianValues {
  jv_left : mat F;
  jv_right : mat F
}.

(** The shape tests of residuals/values.rs:105-123. *)
Definition is_square (n : nat) (A : mat F) : bool :=
  Nat.eqb (length A) n && forallb (fun r => Nat.eqb (length r) n) A.

(** residuals/values.rs:105-123 [JacobianValues::new]: the shapes are equal and
    square. *)
Definition jacobian_values_new (left right : mat F) : outcome jacobian_values :=
  if is_square (length left) left && is_square (length left) right
  then Ret (mkJacobianValues left right)
  else Panic PanicDim.

(** residuals/values.rs:125-148 [normalize]: a matrix of zeros with the shape
    of the residual values ([n] rows and columns) whose leading block is
    overwritten. *)
Fixpoint normalize_rows (n : nat) (L R : mat F) (left right : vec F)
  (methods : list norm_method) : outcome (mat F) :=
  match L, R with
  | [], _ => Ret (map (fun _ => vzeros n) left)
  | dl :: L', dr :: R' =>
      match left, right, methods with
      | x :: left', y :: right', m :: methods' =>
          rest <- normalize_rows n L' R' left' right' methods' ;;
          Ret ((map2 (fun a b => deriv_normalization x y a b m) dl dr
                ++ vzeros (n - length dl)) :: rest)
      | _, _, _ => Panic PanicIndex
      end
  | _ :: _, [] => Panic PanicIndex
  end.

(** residuals/values.rs:125-148. *)
Definition normalize (j : jacobian_values) (v : residuals_values)
  (methods : list norm_method) : outcome (mat F) :=
  normalize_rows (length (rv_left v)) (jv_left j) (jv_right j)
    (rv_left v) (rv_right v) methods.

End Residuals.

Arguments residuals_values F : clear implicits.
Arguments jacobian_values F : clear implicits.
