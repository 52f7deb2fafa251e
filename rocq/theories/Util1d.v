(** util/src/solver_one_dimensional.rs: the crate's reference solvers in one
    dimension. *)
From Verif Require Import Base Num.

Section OneDimension.
Context {F : Type} {NF : Num F}.

(** solver_one_dimensional.rs:27-46 [solver1d]: the loop; [budget] is
    [max_iter - iter], [error] is [res.abs()] throughout. *)
Fixpoint solver1d_loop (func deriv : F -> F) (tol : F) (budget : nat) (guess res : F) : F :=
  match budget with
  | O => guess
  | S budget' =>
      if ngtb (nabs res) tol then
        let guess' := nsub guess (ndiv res (deriv guess)) in
        solver1d_loop func deriv tol budget' guess' (func guess')
      else guess
  end.
(** solver_one_dimensional.rs:27-46. *)
Definition solver1d (init_guess : F) (func deriv : F -> F) (max_iter : nat) (tol : F) : F :=
  solver1d_loop func deriv tol max_iter init_guess (func init_guess).

(** solver_one_dimensional.rs:69-72 [finite_diff] *)
Definition finite_diff (x f_ref : F) (func : F -> F) (dx : F) : F :=
  let fx := func (nadd x dx) in
  ndiv (nsub fx f_ref) dx.

(** solver_one_dimensional.rs:48-67 [solver1d_fd] *)
Fixpoint solver1d_fd_loop (func : F -> F) (tol dx : F) (budget : nat) (guess res : F) : F :=
  match budget with
  | O => guess
  | S budget' =>
      if ngtb (nabs res) tol then
        let guess' := nsub guess (ndiv res (finite_diff guess res func dx)) in
        solver1d_fd_loop func tol dx budget' guess' (func guess')
      else guess
  end.
(** solver_one_dimensional.rs:48-67. *)
Definition solver1d_fd (init_guess : F) (func : F -> F) (max_iter : nat) (tol dx : F) : F :=
  solver1d_fd_loop func tol dx max_iter init_guess (func init_guess).

End OneDimension.
