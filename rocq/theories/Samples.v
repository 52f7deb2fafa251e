(** Sample user models for the concrete cases shown beside the theorems, and
    for the witnesses of the refuted properties. *)
From Flocq Require Import Core BinarySingleNaN.
From Verif Require Import Base Num Linalg Residuals Iteratives UserModel Jacobian Solver Trace F64.

Section Samples.
Context {F : Type} {NF : Num F}.

(** A user model whose [n]-th evaluation ([n]-th jacobian) ends as [estat n]
    ([jstat n]). An unusable evaluation leaves the previous residuals. Its
    memory is the list of the points evaluated so far. *)
Record scripted := mkScripted {
  sc_x : vec F;
  sc_left : vec F;
  sc_evals : nat;
  sc_jacs : nat
}.
Definition scripted_init (n : nat) : scripted := mkScripted (vzeros n) (vzeros n) 0 0.

Definition fail {A} (k : call_status) (a : A) : result A (model_error string string) :=
  match k with
  | SOk => Ok a
  | SInaccurate => Err (InaccurateValuesError "inaccurate"%string)
  | SUnusable => Err (UnusableValuesError "unusable"%string)
  end.

Definition scripted_model (n : nat) (f : vec F -> vec F) (jac : option (vec F -> mat F))
  (estat jstat : nat -> call_status) : Model F scripted string string :=
  mkModel (fun _ => n)
    (fun s x => mkScripted x (sc_left s) (sc_evals s) (sc_jacs s))
    sc_x
    (fun s =>
       let k := estat (sc_evals s) in
       Ret (mkScripted (sc_x s)
              (match k with SUnusable => sc_left s | _ => f (sc_x s) end)
              (S (sc_evals s)) (sc_jacs s), fail k tt))
    (fun s => residuals_values_new (sc_left s) (vzeros (length (sc_left s))))
    (fun _ => match jac with Some _ => true | None => false end)
    (fun s =>
       let k := jstat (sc_jacs s) in
       let J := match jac with Some j => j (sc_x s) | None => [] end in
       jv <- jacobian_values_new J (mzeros (length J)) ;;
       Ret (mkScripted (sc_x s) (sc_left s) (sc_evals s) (S (sc_jacs s)), fail k jv))
    (fun _ => []) (fun s _ => s) (fun e => e) (fun e => e).

Definition always_ok (_ : nat) : call_status := SOk.
(** The call number [n] (from 0) ends as [k]. *)
Definition at_call (n : nat) (k : call_status) (i : nat) : call_status :=
  if Nat.eqb i n then k else SOk.

(** A freshly built solver. *)
Definition sample_rf (p : solver_parameters F) (guess : vec F) (its : list (iterative F))
  (conf : residuals_config) : rootfinder F :=
  mkRootFinder p guess its conf false 0 None jacobian_matrix_new None None None true.

(** What a run returned. *)
Definition verdict_of {St EI EU}
  (o : outcome (rootfinder F * St * result unit (solver_error EI EU)))
  : option (result unit (solver_error EI EU)) :=
  match o with
  | Ret (_, _, r) => Some r
  | Panic _ => None
  end.
Definition check_run {St EI EU}
  (o : outcome (rootfinder F * St * result unit (solver_error EI EU)))
  (p : rootfinder F -> St -> result unit (solver_error EI EU) -> bool) : bool :=
  match o with
  | Ret (rf, s, r) => p rf s r
  | Panic _ => false
  end.
Lemma check_run_true : forall St EI EU
  (o : outcome (rootfinder F * St * result unit (solver_error EI EU))) p,
  check_run o p = true -> exists rf s r, o = Ret (rf, s, r) /\ p rf s r = true.
Proof. intros St EI EU [[[rf s] r]|q] p H; [eauto|discriminate]. Qed.

Definition is_ok {A E} (r : result A E) : bool :=
  match r with Ok _ => true | Err _ => false end.
Definition is_nonconv {A EI EU} (r : result A (solver_error EI EU)) : bool :=
  match r with Err NonConvergenceError => true | _ => false end.
Definition is_final {A EI EU} (r : result A (solver_error EI EU)) : bool :=
  match r with Err FinalEvaluationError => true | _ => false end.

End Samples.
Arguments scripted F : clear implicits.

(** Samples on [f64]. *)
Definition Fz (z : Z) : f64 := nofZ z.
Definition abs_conf (n : nat) : residuals_config := mkResidualsConfig (repeat Abs n) (repeat Abs n).
Definition fd_its (n : nat) : list (iterative f64) :=
  map iterative_of_params_fd (default_vec_iteratives_fd n).
Definition jac_its (n : nat) : list (iterative f64) :=
  map iterative_of_params (default_vec_iteratives n).
(** Tolerance 1e-6. *)
Definition params6 (n maxit : nat) (m : resolution_method) (d : bool) : solver_parameters f64 :=
  mkSolverParameters n (ndec 1 1000000) maxit m d.
Definition broy1 : resolution_method := QuasiNewton (JacobianUpdate BroydenFirstMethod).

(** x^2 - 2 and its derivative; a solver for it from 1. *)
Definition sq2 (x : vec f64) : vec f64 := map (fun a => nsub (nmul a a) (Fz 2)) x.
Definition sq2_jac (x : vec f64) : mat f64 := map (fun a => [nmul (Fz 2) a]) x.
Definition sq2_fd (maxit : nat) (m : resolution_method) (d : bool) : rootfinder f64 :=
  sample_rf (params6 1 maxit m d) [Fz 1] (fd_its 1) (abs_conf 1).
Definition sq2_an (maxit : nat) (m : resolution_method) (d : bool) : rootfinder f64 :=
  sample_rf (params6 1 maxit m d) [Fz 1] (jac_its 1) (abs_conf 1).

(** A constant function. *)
Definition constant (v : vec f64) (_ : vec f64) : vec f64 := v.
