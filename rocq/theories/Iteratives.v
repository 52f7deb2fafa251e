(** iteratives/*.rs *)
From Verif Require Import Base Num Linalg.

(** iteratives/iterative_var_fd.rs:7-10 *)
Inductive perturbation_method := PMax | PSum.

Section Iteratives.
Context {F : Type} {NF : Num F}.

(** iteratives/iteratives_base.rs:12-27, the trait [Iterative].
    Simplification: a user-defined [step_limitation] is a total function. *)
Record iterative := mkIterative {
  it_step_limitation : F -> F -> F;
  it_compute_perturbation : F -> outcome F;
  it_with_finite_diff : bool
}.

(** iteratives/iteratives_base.rs:20-22, default [compute_perturbation] *)
Definition default_compute_perturbation (_ : F) : outcome F := Panic PanicUnimplemented.

(** iteratives/iterative_var.rs:8-13 [IterativeParams] *)
Record iterative_params := mkIterativeParams {
  max_step_abs : F;
  max_step_rel : F;
  min_value : F;
  max_value : F
}.

(** iteratives/iterative_var.rs:21-48 [IterativeParams::new] *)
Definition iterative_params_new (max_step_abs max_step_rel min_value max_value : F)
  : outcome iterative_params :=
  if nleb max_step_abs n0 then Panic PanicParam
  else if nleb max_step_rel n0 then Panic PanicParam
  else if ngeb min_value max_value then Panic PanicParam
  else Ret (mkIterativeParams max_step_abs max_step_rel min_value max_value).

(** iteratives/iterative_var.rs:67-76 [Default] *)
Definition default_iterative_params : iterative_params :=
  mkIterativeParams ninf ninf nneginf ninf.

(** iteratives/iterative_var.rs:107-121 [step_limitation] *)
Definition step_limitation (p : iterative_params) (value_current raw_step : F) : F :=
  let max_step := nmin (max_step_abs p) (nmul (max_step_rel p) (nabs value_current)) in
  let abs_step := nabs raw_step in
  let sign_step := nsignum raw_step in
  let step_lim := nmul (nmin max_step abs_step) sign_step in
  let value_next_lim := nadd value_current step_lim in
  nmin (nmax value_next_lim (min_value p)) (max_value p).

(** iteratives/iterative_var.rs:78-122, [impl Iterative for IterativeParams] *)
Definition iterative_of_params (p : iterative_params) : iterative :=
  mkIterative (step_limitation p) default_compute_perturbation false.

(** iteratives/iterative_var_fd.rs:31-36 [IterativeParamsFD] *)
Record iterative_params_fd := mkIterativeParamsFD {
  fd_params : iterative_params;
  fd_method : perturbation_method;
  fd_dx_abs : F;
  fd_dx_rel : F
}.

(** iteratives/iterative_var_fd.rs:38-47 [Default]; 5.0e-8 = 5/10^8 *)
Definition default_iterative_params_fd : iterative_params_fd :=
  mkIterativeParamsFD default_iterative_params PMax
    (ndec 5 100000000) (ndec 5 100000000).

(** iteratives/iterative_var_fd.rs:118-143 [extend] *)
Definition iterative_params_fd_extend (p : iterative_params) (dx_abs dx_rel : F)
  (m : perturbation_method) : outcome iterative_params_fd :=
  if nleb dx_abs n0 then Panic PanicParam
  else if nleb dx_rel n0 then Panic PanicParam
  else Ret (mkIterativeParamsFD p m dx_abs dx_rel).

(** iteratives/iterative_var_fd.rs:50-83 [new] *)
Definition iterative_params_fd_new
  (max_step_abs max_step_rel min_value max_value dx_abs dx_rel : F)
  (m : perturbation_method) : outcome iterative_params_fd :=
  if nleb dx_abs n0 then Panic PanicParam
  else if nleb dx_rel n0 then Panic PanicParam
  else
    p <- iterative_params_new max_step_abs max_step_rel min_value max_value ;;
    Ret (mkIterativeParamsFD p m dx_abs dx_rel).

(** iteratives/iterative_var_fd.rs:180-185 [compute_perturbation] *)
Definition compute_perturbation (p : iterative_params_fd) (x : F) : F :=
  match fd_method p with
  | PMax => nmax (fd_dx_abs p) (nmul (nabs x) (fd_dx_rel p))
  | PSum => nadd (fd_dx_abs p) (nmul (nabs x) (fd_dx_rel p))
  end.

(** iteratives/iterative_var_fd.rs:146-190, [impl Iterative for IterativeParamsFD] *)
Definition iterative_of_params_fd (p : iterative_params_fd) : iterative :=
  mkIterative (step_limitation (fd_params p)) (fun x => Ret (compute_perturbation p x)) true.

(** iteratives/default.rs:17-19 and 40-42 *)
Definition default_vec_iteratives (size : nat) : list iterative_params :=
  repeat default_iterative_params size.
(** iteratives/default.rs:40-42. *)
Definition default_vec_iteratives_fd (size : nat) : list iterative_params_fd :=
  repeat default_iterative_params_fd size.

(** iteratives/iteratives_base.rs:56-71 [Iteratives::step_limitations]: zeros
    with the shape of [values], entry [i] overwritten for each iterative [i]. *)
Fixpoint step_limitations (its : list iterative) (values raw_step : vec F)
  : outcome (vec F) :=
  match its with
  | [] => Ret (vzeros (length values))
  | it :: its' =>
      match values, raw_step with
      | v :: values', r :: raw_step' =>
          rest <- step_limitations its' values' raw_step' ;;
          Ret (it_step_limitation it v r :: rest)
      | _, _ => Panic PanicIndex
      end
  end.

(** iteratives/iteratives_base.rs:74-89 [Iteratives::compute_perturbations] *)
Fixpoint compute_perturbations (its : list iterative) (values : vec F)
  : outcome (vec F) :=
  match its with
  | [] => Ret (vzeros (length values))
  | it :: its' =>
      match values with
      | v :: values' =>
          d <- it_compute_perturbation it v ;;
          rest <- compute_perturbations its' values' ;;
          Ret (d :: rest)
      | [] => Panic PanicIndex
      end
  end.

End Iteratives.

Arguments iterative F : clear implicits.
Arguments iterative_params F : clear implicits.
Arguments iterative_params_fd F : clear implicits.
