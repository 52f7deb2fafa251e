(** Specification vocabulary: the observable calls on a user model.

    [traced M] is the model [M] whose state also records the sequence of
    state-changing calls ([set_iteratives], [evaluate], [get_jacobian],
    [set_memory]), oldest first. [SimFacts.v] proves that tracing does not
    change a run. *)
From Verif Require Import Base Num Linalg Residuals UserModel.

(** How an [evaluate] or [get_jacobian] call ended. *)
Inductive call_status := SOk | SInaccurate | SUnusable.

Inductive event (F : Type) :=
| ESet (x : vec F)
| EEval (k : call_status)
| EJac (k : call_status)
| EMem (m : vec F).
Arguments ESet {F} _.
Arguments EEval {F} _.
Arguments EJac {F} _.
Arguments EMem {F} _.

Definition status_of {A EI EU} (r : result A (model_error EI EU)) : call_status :=
  match r with
  | Ok _ => SOk
  | Err (InaccurateValuesError _) => SInaccurate
  | Err (UnusableValuesError _) => SUnusable
  end.

Definition traced {F St EI EU} (M : Model F St EI EU)
  : Model F (St * list (event F)) EI EU :=
  mkModel
    (fun p => len_problem M (fst p))
    (fun p x => (set_iteratives M (fst p) x, snd p ++ [ESet x]))
    (fun p => get_iteratives M (fst p))
    (fun p =>
       '(s, r) <- evaluate M (fst p) ;;
       Ret ((s, snd p ++ [EEval (status_of r)]), r))
    (fun p => get_residuals M (fst p))
    (fun p => jacobian_provided M (fst p))
    (fun p =>
       '(s, r) <- get_jacobian M (fst p) ;;
       Ret ((s, snd p ++ [EJac (status_of r)]), r))
    (fun p => get_memory M (fst p))
    (fun p m => (set_memory M (fst p) m, snd p ++ [EMem m]))
    (show_inaccurate M) (show_unusable M).

(** Number of [evaluate] calls. *)
Definition is_eval {F} (e : event F) : bool :=
  match e with EEval _ => true | _ => false end.
Definition evaluations {F} (t : list (event F)) : nat := length (filter is_eval t).

(** Number of [get_jacobian] calls. *)
Definition is_jac {F} (e : event F) : bool :=
  match e with EJac _ => true | _ => false end.
Definition jacobian_calls {F} (t : list (event F)) : nat := length (filter is_jac t).

(** The points given to [set_iteratives]. *)
Fixpoint points {F} (t : list (event F)) : list (vec F) :=
  match t with
  | [] => []
  | ESet x :: t' => x :: points t'
  | _ :: t' => points t'
  end.

(** How the last [evaluate] call ended. *)
Fixpoint last_evaluation {F} (t : list (event F)) : option call_status :=
  match t with
  | [] => None
  | EEval k :: t' =>
      match last_evaluation t' with Some k' => Some k' | None => Some k end
  | _ :: t' => last_evaluation t'
  end.

(** *** Shape of a run *)

(** How an iteration obtained its jacobian: not computed (the previous one is
    kept or updated), asked to the model, or computed by finite differences with
    [n] columns. *)
Inductive jac_kind := JReused | JAnalytic | JFinite (n : nat).

(** The calls of a finite-difference jacobian: for each column a perturbed
    point, its evaluation, and the memory restored. *)
Definition fd_block {F} (mem : vec F) (cols : list (vec F * call_status))
  : list (event F) :=
  flat_map (fun c => [ESet (fst c); EEval (snd c); EMem mem]) cols.

Inductive jac_block {F} : jac_kind -> list (event F) -> Prop :=
| jb_reused : jac_block JReused []
| jb_analytic : forall k, jac_block JAnalytic [EJac k]
| jb_finite : forall mem cols,
    Forall (fun c => snd c <> SUnusable) cols ->
    jac_block (JFinite (length cols)) (fd_block mem cols).

(** The calls of one completed iteration: jacobian, update to a proposed point
    [x] evaluated with status [k], and possibly one damped point. *)
Inductive iter_block {F}
  : jac_kind -> call_status -> bool -> list (event F) -> Prop :=
| ib_plain : forall j x k t, jac_block j t -> k <> SUnusable ->
    iter_block j k false (t ++ [ESet x; EEval k])
| ib_damped : forall j x k d t, jac_block j t -> k <> SUnusable ->
    iter_block j k true (t ++ [ESet x; EEval k; ESet d; EEval SOk]).

(** Summary of a completed iteration. *)
Record iter_summary := mkIterSummary {
  sum_jac : jac_kind;
  sum_status : call_status;  (* of the evaluation of the proposed point *)
  sum_damped : bool
}.

(** The calls of a sequence of completed iterations. *)
Inductive iter_blocks {F} : list iter_summary -> list (event F) -> Prop :=
| ibs_nil : iter_blocks [] []
| ibs_snoc : forall l t s b, iter_blocks l t ->
    iter_block (sum_jac s) (sum_status s) (sum_damped s) b ->
    iter_blocks (l ++ [s]) (t ++ b).
