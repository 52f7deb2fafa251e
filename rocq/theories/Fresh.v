(** Specification vocabulary: solvers obtained from the constructor, and the
    history of the successive resolutions of one solver. *)
From Verif Require Import Base Num Linalg Residuals Iteratives UserModel Jacobian Solver.

Section Fresh.
Context {F : Type} {NF : Num F} {IF : Inverter F}.

(** A solver as returned by [RootFinder::new], before any call to [solve],
    debugging possibly activated. *)
Definition fresh (rf : rootfinder F) : Prop :=
  exists p guess its conf rf0, rootfinder_new p guess its conf = Ret rf0 /\
    (rf = rf0 \/ rf = activate_debug rf0).

(** [history rf rf']: the solver [rf] became [rf'] by any number of completed
    [solve] calls, on any models in any states. *)
Inductive history : rootfinder F -> rootfinder F -> Prop :=
| history_none : forall rf, history rf rf
| history_solve : forall rf rf' rf'' St EI EU (M : Model F St EI EU) s s' r,
    history rf rf' -> solve M rf' s = Ret (rf'', s', r) -> history rf rf''.

End Fresh.
