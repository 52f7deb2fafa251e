(** Specification vocabulary for residuals, convergence and dimensions,
    independent of the functions of the model. *)
From Verif Require Import Base Num Linalg Residuals UserModel.

Section Spec.
Context {F : Type} {NF : Num F}.

(** The normalised difference of the two members of an equation, as documented
    in residuals/mod.rs:47-86. *)
Definition residual (m : norm_method) (x y : F) : F :=
  match m with
  | Abs => nsub x y
  | Rel => ndiv (nsub x y) (ndiv (nabs (nadd x y)) (nofZ 2))
  | Adapt => ndiv (nsub x y) (nadd (nofZ 1) (ndiv (nabs (nadd x y)) (nofZ 2)))
  end.

(** Equation [i] of the values [v], judged by [methods], has the two members
    [x], [y] and the method [m]. *)
Definition equation (methods : list norm_method) (v : residuals_values F)
  (i : nat) (m : norm_method) (x y : F) : Prop :=
  nth_error methods i = Some m /\
  nth_error (rv_left v) i = Some x /\
  nth_error (rv_right v) i = Some y.

(** [r] is one of the stopping residuals (the equations described by
    [methods]). *)
Definition stopping_residual (methods : list norm_method) (v : residuals_values F)
  (r : F) : Prop :=
  exists i m x y, equation methods v i m x y /\ r = nabs (residual m x y).

(** All described equations exist. *)
Definition described (methods : list norm_method) (v : residuals_values F) : Prop :=
  length methods <= length (rv_left v) /\ length methods <= length (rv_right v).

End Spec.
