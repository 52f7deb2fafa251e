(** Panic-carrying results, Rust's [Result], and list helpers. *)
From Coq Require Export String ZArith Bool Arith Lia List.
Export ListNotations.
Open Scope list_scope.

(** Why a Rust computation panicked. [PanicFuel] is not a Rust panic: it is the
    value returned by a loop of the model that ran out of fuel (an endless Rust
    loop); it is proved unreachable in [PropsFlow.v]. Raised at:
    rootfinder.rs:69-89, residuals/config.rs:59-71, residuals/values.rs:29-36,
    105-123 (PanicDim); iterative_var.rs:22-39, iterative_var_fd.rs:59-70, 124-135
    (PanicParam); the indexings of iteratives_base.rs:56-90 and
    residuals/config.rs:95-139 (PanicIndex); the matrix operations of
    rootfinder.rs:293, 322, 380-381 and jacobian_finite_diff.rs:48-50 (PanicShape);
    rootfinder.rs:237-253, 293, 453-495 (PanicUnwrapNone); rootfinder.rs:325
    (PanicUnwrapErr); iteratives_base.rs:20-22 (PanicUnimplemented). *)
Inductive panic :=
| PanicDim            (* explicit [panic!] on a dimension mismatch *)
| PanicParam          (* explicit [panic!] on an invalid parameter or document *)
| PanicIndex          (* index out of range in a vector, slice or matrix *)
| PanicShape          (* nalgebra operation on incompatible shapes *)
| PanicUnwrapNone     (* [Option::unwrap] on [None] *)
| PanicUnwrapErr      (* [Result::unwrap] on [Err] *)
| PanicUnimplemented  (* [unimplemented!()] *)
| PanicUser           (* raised by the code of the user model *)
| PanicFuel.

(** The outcome of running a Rust function: a value, or a panic. Every function of
    /repo that can panic returns one, e.g. [RootFinder::new], rootfinder.rs:59-111. *)
Inductive outcome (A : Type) :=
| Ret (a : A)
| Panic (p : panic).
Arguments Ret {A} _.
Arguments Panic {A} _.

(** Rust's [Result]. Returned e.g. by model_definition.rs:61 [evaluate] and
    rootfinder.rs:390 [solve]. *)
Inductive result (A E : Type) :=
| Ok (a : A)
| Err (e : E).
Arguments Ok {A E} _.
Arguments Err {A E} _.

(** Sequencing: a panic unwinds through the callers (no [catch_unwind] in /repo). *)
Definition bind {A B} (x : outcome A) (f : A -> outcome B) : outcome B :=
  match x with
  | Ret a => f a
  | Panic p => Panic p
  end.

Declare Scope outcome_scope.
Delimit Scope outcome_scope with outcome.
Notation "x <- e ;; k" := (bind e (fun x => k))
  (at level 61, e at next level, right associativity) : outcome_scope.
Notation "' p <- e ;; k" := (bind e (fun p => k))
  (at level 61, p pattern, e at next level, right associativity) : outcome_scope.
Open Scope outcome_scope.

(** [Option::unwrap]. Uses: rootfinder.rs:237-253, 293, 453, 466, 475, 488, 495;
    jacobian_approximation.rs:25-43; jacobian_inverse_approximation.rs:22-42. *)
Definition unwrap {A} (o : option A) : outcome A :=
  match o with
  | Some a => Ret a
  | None => Panic PanicUnwrapNone
  end.

(** Reading [v[i]]. Uses: iteratives_base.rs:66, 86, 97; residuals/config.rs:95-139;
    residuals/values.rs:125-148. *)
Definition index {A} (v : list A) (i : nat) : outcome A :=
  match nth_error v i with
  | Some a => Ret a
  | None => Panic PanicIndex
  end.

(** Writing [v[i] = f(v[i])]. Use: jacobian_finite_diff.rs:35. *)
Fixpoint update_at {A} (v : list A) (i : nat) (f : A -> A) : outcome (list A) :=
  match v, i with
  | [], _ => Panic PanicIndex
  | x :: v', O => Ret (f x :: v')
  | x :: v', S i' => r <- update_at v' i' f ;; Ret (x :: r)
  end.

(** Componentwise combination. Loops over two arrays: residuals/values.rs:130-146;
    nalgebra componentwise operations. *)
Fixpoint map2 {A B C} (f : A -> B -> C) (u : list A) (v : list B) : list C :=
  match u, v with
  | x :: u', y :: v' => f x y :: map2 f u' v'
  | _, _ => []
  end.
