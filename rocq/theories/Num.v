(** The scalar interface of the model, and the operations of Rust's [f64] that
    are definable from it.

    The code of /repo computes on [f64]. The model is written once for any type
    with these operations; [F64.v] instantiates it with IEEE-754 binary64 and
    [XR.v] with exact real arithmetic extended with infinities and NaN. *)
From Verif Require Import Base.

(** The operations used by iterative_var.rs:104-121, iterative_var_fd.rs:180-186,
    residuals/mod.rs:87-125 and rootfinder.rs:311-323, 418, 443. *)
Class Num (F : Type) := {
  nadd : F -> F -> F;      (* + *)
  nsub : F -> F -> F;      (* - *)
  nmul : F -> F -> F;      (* * *)
  ndiv : F -> F -> F;      (* / *)
  nneg : F -> F;           (* unary - *)
  nabs : F -> F;           (* f64::abs *)
  nsignum : F -> F;        (* f64::signum *)
  nltb : F -> F -> bool;   (* < *)
  nleb : F -> F -> bool;   (* <= *)
  neqb : F -> F -> bool;   (* == *)
  nofZ : Z -> F;           (* literals; exact for |z| <= 2^53 *)
  ninf : F;                (* f64::INFINITY *)
  nnan : F                 (* f64::NAN *)
}.

Section Derived.
Context {F : Type} {NF : Num F}.

(** Literals 0.0, 1.0, 2.0: iterative_var.rs:22, 28; rootfinder.rs:321-323;
    residuals/mod.rs:90-123. *)
Definition n0 : F := nofZ 0.
(** residuals/mod.rs:91, 120; rootfinder.rs:321, 323. *)
Definition n1 : F := nofZ 1.
(** residuals/mod.rs:90, 91, 113, 118, 119; rootfinder.rs:321. *)
Definition n2 : F := nofZ 2.

(** [f64::NEG_INFINITY]. iterative_var.rs:72. *)
Definition nneginf : F := nneg ninf.

(** [x > y] and [x >= y]. rootfinder.rs:311, 418, 443; iterative_var.rs:34. *)
Definition ngtb (x y : F) : bool := nltb y x.
(** Only inside nalgebra ([amax], rootfinder.rs:310, 344, 409, 440). *)
Definition ngeb (x y : F) : bool := nleb y x.

(** [f64::is_nan] is [self != self]. Only inside [f64::min] and [f64::max]. *)
Definition nisnan (x : F) : bool := negb (neqb x x).

(** [f64::min], [f64::max]: a NaN argument is ignored.
    Simplification: for two zeros of opposite signs Rust leaves the sign of the
    result unspecified; here the first argument is returned. iterative_var.rs:110,
    115, 120. *)
Definition nmin (x y : F) : F :=
  if nisnan x then y else if nisnan y then x else if nltb y x then y else x.
(** iterative_var.rs:120; iterative_var_fd.rs:182. *)
Definition nmax (x y : F) : F :=
  if nisnan x then y else if nisnan y then x else if nltb x y then y else x.

(** [x.powi(2)]. Simplification: taken to be [x * x]. residuals/mod.rs:113, 123. *)
Definition nsq (x : F) : F := nmul x x.

(** The decimal literal [a / 10^k] of the source text. Both operands are exact
    doubles in all uses, so the quotient is the correctly rounded literal.
    iterative_var_fd.rs:43-44 (5e-8), solver/default.rs:79 (1e-6). *)
Definition ndec (a : Z) (tenk : Z) : F := ndiv (nofZ a) (nofZ tenk).

End Derived.
