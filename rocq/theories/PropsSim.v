(** Properties relating two runs: C07, C13, C40, C46, C47. *)
From Coq Require Import Reals Lra.
From Flocq Require Import Core BinarySingleNaN.
From Verif Require Import Base Num Linalg Residuals Iteratives UserModel Jacobian Solver
  F64 F64Facts Tactics FlowFacts FlagFacts Trace TraceFacts SimFacts DebugFacts Spec Fresh ResidualFacts
  VerdictFacts CountFacts Samples Reach LogFacts StepFacts PropsVerdict PropsFlow PropsMethod
  PropsIteration.
Open Scope nat_scope.

(** *** C13 *)

(** The model [M] in which the evaluation number [n] reports the inaccuracy [e]
    instead of success when [choice n = Some e]; everything else is unchanged. *)
Definition relabel {F St EI EU} (M : Model F St EI EU) (choice : nat -> option EI)
  : Model F (St * nat) EI EU :=
  mkModel
    (fun p => len_problem M (fst p))
    (fun p x => (set_iteratives M (fst p) x, snd p))
    (fun p => get_iteratives M (fst p))
    (fun p =>
       '(s, r) <- evaluate M (fst p) ;;
       Ret ((s, S (snd p)),
            match r, choice (snd p) with
            | Ok _, Some e => Err (InaccurateValuesError e)
            | _, _ => r
            end))
    (fun p => get_residuals M (fst p))
    (fun p => jacobian_provided M (fst p))
    (fun p => '(s, r) <- get_jacobian M (fst p) ;; Ret ((s, snd p), r))
    (fun p => get_memory M (fst p))
    (fun p m => (set_memory M (fst p) m, snd p))
    (show_inaccurate M) (show_unusable M).

(** The same call, an [Ok] evaluation being possibly reported as inaccurate. *)
Inductive less_accurate {F} : event F -> event F -> Prop :=
| la_same : forall e, less_accurate e e
| la_inaccurate : less_accurate (EEval SOk) (EEval SInaccurate).

Section C13.
Context {F : Type} {NF : Num F} {IF : Inverter F} {St EI EU : Type}.
Context (M : Model F St EI EU) (choice : nat -> option EI).

Definition relabelled (p : St * list (event F)) (q : (St * nat) * list (event F)) : Prop :=
  fst p = fst (fst q) /\ Forall2 less_accurate (snd p) (snd q).

Lemma Forall2_snoc : forall A B (P : A -> B -> Prop) l1 l2 a b,
  Forall2 P l1 l2 -> P a b -> Forall2 P (l1 ++ [a]) (l2 ++ [b]).
Proof. intros. apply Forall2_app; auto. Qed.

Lemma relabel_sim : forall l, model_sim (traced M) (traced (relabel M choice)) relabelled false l.
Proof.
  intros l. split; try (intros [s t] [[s' n] t'] (H1 & H2); cbn in *; subst; reflexivity).
  - intros [s t] [[s' n] t'] x (H1 & H2). cbn in *. subst. split; [reflexivity|].
    apply Forall2_snoc; [exact H2|constructor].
  - intros [s t] [[s' n] t'] (H1 & H2). cbn in *. subst.
    destruct (evaluate M s') as [[s1 r]|p]; [|apply rel_panic]. cbn.
    split; [split; [reflexivity|]|].
    + apply Forall2_snoc; [exact H2|]. destruct r as [u|[e|e]]; try apply la_same.
      destruct (choice n); cbn; constructor.
    + destruct r as [u|[e|e]]; [destruct (choice n)| |]; exact I || reflexivity.
  - intros [s t] [[s' n] t'] (H1 & H2). cbn in *. subst.
    destruct (get_jacobian M s') as [[s1 r]|p]; [|apply rel_panic]. cbn.
    split; [|reflexivity]. split; [reflexivity|]. apply Forall2_snoc; [exact H2|constructor].
  - intros [s t] [[s' n] t'] m (H1 & H2). cbn in *. subst. split; [reflexivity|].
    apply Forall2_snoc; [exact H2|constructor].
  - reflexivity.
Qed.
End C13.

Lemma last_evaluation_none : forall F (t1 t2 : list (event F)),
  Forall2 less_accurate t1 t2 -> (last_evaluation t1 = None <-> last_evaluation t2 = None).
Proof.
  intros F t1 t2 H. induction H as [|a b t1 t2 Hab _ IH]; [split; reflexivity|].
  destruct Hab as [[x|k|k|m]|]; cbn; try exact IH;
    destruct (last_evaluation t1), (last_evaluation t2); intuition discriminate.
Qed.

Lemma last_evaluation_less : forall F (t1 t2 : list (event F)),
  Forall2 less_accurate t1 t2 -> last_evaluation t1 = Some SInaccurate ->
  last_evaluation t2 = Some SInaccurate.
Proof.
  intros F t1 t2 H. induction H as [|a b t1 t2 Hab Ht IH]; [auto|].
  assert (Hn := last_evaluation_none _ _ _ Ht).
  destruct Hab as [[x|k|k|m]|]; cbn; auto;
    destruct (last_evaluation t1), (last_evaluation t2); intuition discriminate.
Qed.

(** As claimed: whichever evaluations report inaccurate values, the run is the
    same, and only a success may become a final evaluation error. *)
Definition C13_conclusion {F St EI EU} (o1 : outcome (rootfinder F * (St * list (event F)) * result unit (solver_error EI EU)))
  (o2 : outcome (rootfinder F * ((St * nat) * list (event F)) * result unit (solver_error EI EU))) : Prop :=
  match o1, o2 with
  | Ret (rf1, (s1, t1), r1), Ret (rf2, ((s2, _), t2), r2) =>
      s2 = s1 /\ Forall2 less_accurate t1 t2 /\ rf_iter rf2 = rf_iter rf1 /\
      (r2 = r1 \/ (r1 = Ok tt /\ r2 = Err FinalEvaluationError))
  | Panic p1, Panic p2 => p1 = p2
  | _, _ => False
  end.

Definition C13_statement : Prop :=
  forall (IF : Inverter f64) St EI EU (M : Model f64 St EI EU) choice rf s,
  fresh rf ->
  C13_conclusion (solve (traced M) rf (s, [])) (solve (traced (relabel M choice)) rf ((s, 0), [])).

(** With damping the evaluation of the damped point may not be inaccurate: the
    second run panics (C14). *)
Theorem C13_inaccuracy_is_harmless_refuted : ~ C13_statement.
Proof.
  intros H.
  set (M := scripted_model 1 C04_fun (Some (fun _ => [[Fz (-1)]])) always_ok always_ok).
  specialize (H _ _ _ _ M (fun n => if Nat.eqb n 2 then Some "inaccurate"%string else None)
    C04_rf (scripted_init 1)).
  assert (H1 : is_ok (match solve (traced M) C04_rf (scripted_init 1, []) with
      Ret (_, _, r) => r | Panic _ => Err NonConvergenceError end) = true) by (vm_compute; reflexivity).
  assert (H2 : match solve (traced (relabel M (fun n => if Nat.eqb n 2 then Some "inaccurate"%string else None)))
       C04_rf ((scripted_init 1, 0), []) with Ret _ => false | Panic _ => true end = true)
    by (vm_compute; reflexivity).
  destruct (solve (traced M) C04_rf (scripted_init 1, [])) as [[[a [b c]] d]|]; [|discriminate H1].
  destruct (solve (traced (relabel M _)) _ _) as [?|]; [discriminate H2|].
  apply H. apply sample_fresh; reflexivity.
Qed.
Print Assumptions C13_inaccuracy_is_harmless_refuted.

(** With damping too, the run is the same unless it stops with that panic. *)
Theorem C13_inaccuracy_is_harmless_or_stops :
  forall F (NF : Num F) (IF : Inverter F) St EI EU (M : Model F St EI EU) choice rf s,
  let o1 := solve (traced M) rf (s, []) in
  let o2 := solve (traced (relabel M choice)) rf ((s, 0), []) in
  C13_conclusion o1 o2 \/
  (sp_damping (rf_parameters rf) = true /\ o2 = Panic PanicUnwrapErr).
Proof.
  intros F NF IF St EI EU M choice rf s o1 o2.
  assert (H := sim_solve _ _ _ false true (relabel_sim M choice true) rf rf (s, []) ((s, 0), [])
    ltac:(discriminate) (rrel_refl F false true rf) (conj eq_refl (Forall2_nil _))).
  assert (H' := fun Hd => sim_solve _ _ _ false false (relabel_sim M choice false) rf rf (s, []) ((s, 0), [])
    (fun _ _ => Hd) (rrel_refl F false false rf) (conj eq_refl (Forall2_nil _))).
  fold o1 in H, H'. fold o2 in H, H'. clearbody o1 o2.
  destruct o1 as [[[rf1 [s1 t1]] r1]|p1], o2 as [[[rf2 [[s2 n2] t2]] r2]|p2]; cbn in H, H' |- *.
  - left. destruct H as ((b & -> & _) & (Hs & Ht) & Hv). cbn [fst snd] in *.
    split; [now symmetry|]. split; [exact Ht|]. split; [reflexivity|].
    destruct Hv as [->|(_ & [->| ->] & [->| ->] & Hl)]; auto.
    discriminate (Hl eq_refl eq_refl).
  - right. subst p2. split; [|reflexivity].
    destruct (sp_damping (rf_parameters rf)); [reflexivity|]. now elim H'.
  - elim H.
  - destruct H as [->| ->]; [left; reflexivity|].
    destruct (sp_damping (rf_parameters rf)); [right; auto|left; now apply H'].
Qed.
Print Assumptions C13_inaccuracy_is_harmless_or_stops.

(** It is true without damping. *)
Theorem C13_inaccuracy_is_harmless_undamped :
  forall F (NF : Num F) (IF : Inverter F) St EI EU (M : Model F St EI EU) choice rf s,
  sp_damping (rf_parameters rf) = false ->
  C13_conclusion (solve (traced M) rf (s, [])) (solve (traced (relabel M choice)) rf ((s, 0), [])).
Proof.
  intros F NF IF St EI EU M choice rf s Hd.
  destruct (C13_inaccuracy_is_harmless_or_stops F NF IF St EI EU M choice rf s) as [H|(H & _)];
    [exact H|congruence].
Qed.
Print Assumptions C13_inaccuracy_is_harmless_undamped.

Example C13_case :
  check_run (solve (traced (relabel (model_from_function sq2)
        (fun n => None))) (sq2_fd 50 NewtonRaphson false) (user_model_new 1, 0, []))
    (fun rf p r => is_ok r && Nat.eqb (rf_iter rf) 4) = true /\
  check_run (solve (traced (relabel (scripted_model 1 sq2 None always_ok always_ok)
        (fun n => Some "inaccurate"%string))) (sq2_fd 50 NewtonRaphson false) (scripted_init 1, 0, []))
    (fun rf p r => is_final r && Nat.eqb (rf_iter rf) 4) = true.
Proof. split; vm_compute; reflexivity. Qed.

(** With damping: only the evaluation of the proposed point is inaccurate, the
    damped point is accepted after the same calls, the verdict changes; with
    the damped evaluation inaccurate the run stops. *)
Example C13_case_damped :
  let M := scripted_model 1 C04_fun (Some (fun _ => [[Fz (-1)]])) always_ok always_ok in
  let run k := solve (traced (relabel M (fun n => if Nat.eqb n k then Some "inaccurate"%string else None)))
                 C04_rf (scripted_init 1, 0, []) in
  sp_damping (rf_parameters C04_rf) = true /\
  check_run (run 7) (fun rf p r => is_ok r && Nat.eqb (rf_iter rf) 1
                              && Nat.eqb (length (points (snd p))) 3) = true /\
  check_run (run 1) (fun rf p r => is_final r && Nat.eqb (rf_iter rf) 1
                              && Nat.eqb (length (points (snd p))) 3) = true /\
  run 2 = Panic PanicUnwrapErr.
Proof. repeat split; vm_compute; reflexivity. Qed.

(** *** C40 *)

(** The solver after the run, its log apart. *)
Definition same_apart_from_log {F} (a b : rootfinder F) : Prop :=
  rf_parameters a = rf_parameters b /\ rf_initial_guess a = rf_initial_guess b /\
  rf_iters_params a = rf_iters_params b /\ rf_residuals_config a = rf_residuals_config b /\
  rf_iter a = rf_iter b /\ rf_jacobian a = rf_jacobian b /\
  rf_iteratives_step a = rf_iteratives_step b /\ rf_residuals_step a = rf_residuals_step b /\
  rf_residuals_current a = rf_residuals_current b /\ rf_valid_last a = rf_valid_last b.

(** Debugging changes neither the verdict, nor the calls, nor the final states;
    a run panics exactly when the other does. *)
Theorem C40_debug_changes_nothing :
  forall F (NF : Num F) (IF : Inverter F) St EI EU (M : Model F St EI EU) rf s t,
  rf_debug rf = false -> rf_log rf = None -> rf_iters_params rf <> [] ->
  match solve (traced M) rf (s, t), solve (traced M) (activate_debug rf) (s, t) with
  | Ret (rf1, (s1, t1), r1), Ret (rf2, (s2, t2), r2) =>
      s2 = s1 /\ t2 = t1 /\ r2 = r1 /\ same_apart_from_log rf2 rf1 /\
      rf_debug rf1 = false /\ rf_log rf1 = None /\ rf_debug rf2 = true /\ rf_log rf2 <> None
  | Panic p1, Panic p2 => p1 = p2
  | _, _ => False
  end.
Proof.
  intros F NF IF St EI EU M rf s t Hd Hl Hne.
  assert (Hr : drel rf (activate_debug rf)).
  { split; [destruct rf; cbn in *; subst; reflexivity|intros _; discriminate]. }
  assert (H := d_solve (traced M) rf (activate_debug rf) (s, t) Hr Hne).
  destruct (solve (traced M) rf (s, t)) as [[[rf1 [s1 t1]] r1]|p1];
    destruct (solve (traced M) (activate_debug rf) (s, t)) as [[[rf2 [s2 t2]] r2]|p2] eqn:E2;
    try exact H.
  destruct H as ((-> & Hok) & Hs & ->). injection Hs as -> ->.
  apply solve_counter in E2. destruct E2 as ((_ & _ & _ & _ & Hdb) & _).
  cbn in Hdb. repeat split. - exact Hdb. - apply Hok, Hdb.
Qed.
Print Assumptions C40_debug_changes_nothing.

(** A debugged run and its log: header, parameters, initial state, then two
    entries per iteration. Without any iterative variable the log panics. *)
Example C40_case :
  check_run (solve (model_from_function sq2) (activate_debug (sq2_fd 50 NewtonRaphson false))
      (user_model_new 1))
    (fun rf s r => is_ok r && Nat.eqb (rf_iter rf) 4 &&
       match rf_log rf with Some l => Nat.eqb (length l) 11 | None => false end) = true /\
  match solve (model_from_function (constant [])) (activate_debug
      (sample_rf (params6 0 50 NewtonRaphson false) [] [] (abs_conf 0))) (user_model_new 0) with
  | Ret _ => False
  | Panic p => p = PanicIndex
  end /\
  check_run (solve (model_from_function (constant []))
      (sample_rf (params6 0 50 NewtonRaphson false) [] [] (abs_conf 0)) (user_model_new 0))
    (fun rf s r => is_ok r) = true.
Proof. split; [|split]; vm_compute; reflexivity. Qed.

(** *** C46, C47 *)

(** The calls changing the state of a model. *)
Inductive operation (F : Type) :=
| OSet (x : vec F)
| OEval
| OJac
| OMem (m : vec F).
Arguments OSet {F} _.
Arguments OEval {F}.
Arguments OJac {F}.
Arguments OMem {F} _.

Fixpoint operate {F St EI EU} (M : Model F St EI EU) (ops : list (operation F)) (s : St)
  : outcome St :=
  match ops with
  | [] => Ret s
  | OSet x :: ops' => operate M ops' (set_iteratives M s x)
  | OEval :: ops' => p <- evaluate M s ;; operate M ops' (fst p)
  | OJac :: ops' => p <- get_jacobian M s ;; operate M ops' (fst p)
  | OMem m :: ops' => operate M ops' (set_memory M s m)
  end.

(** The last value set, starting from [x]. *)
Fixpoint last_set {F} (x : vec F) (ops : list (operation F)) : vec F :=
  match ops with
  | [] => x
  | OSet y :: ops' => last_set y ops'
  | _ :: ops' => last_set x ops'
  end.

(** The value at which the last evaluation took place, [d] if none. *)
Fixpoint last_evaluated {F} (x : vec F) (d : option (vec F)) (ops : list (operation F))
  : option (vec F) :=
  match ops with
  | [] => d
  | OSet y :: ops' => last_evaluated y d ops'
  | OEval :: ops' => last_evaluated x (Some x) ops'
  | _ :: ops' => last_evaluated x d ops'
  end.

Section Adapters.
Context {F : Type} {NF : Num F} {IF : Inverter F}.

(** The four adapters built from [f] and possibly a jacobian. *)
Inductive adapter (f : vec F -> vec F)
  : option (vec F -> mat F) -> Model F (user_model F) Empty_set Empty_set -> Prop :=
| adapter_function : adapter f None (model_from_function f)
| adapter_closure : adapter f None (model_from_closure f)
| adapter_function_jac : forall j, adapter f (Some j) (model_from_function_and_jacobian f j)
| adapter_closure_jac : forall j, adapter f (Some j) (model_from_closure_and_jacobian f j).

Lemma operate_fields : forall f j M, adapter f j M -> forall ops s s',
  operate M ops s = Ret s' ->
  um_inputs s' = last_set (um_inputs s) ops /\
  um_right s' = um_right s /\ um_problem_size s' = um_problem_size s /\
  forall d, (match d with Some x => um_left s = f x | None => True end) ->
  match last_evaluated (um_inputs s) d ops with
  | Some x => um_left s' = f x
  | None => d = None /\ um_left s' = um_left s
  end.
Proof.
  intros f j M HM ops. induction ops as [|[x| | |m] ops IH]; intros s s' H.
  - injection H as <-. cbn. repeat split; try reflexivity.
    intros [x|]; cbn; auto.
  - cbn [operate] in H. apply IH in H. destruct HM; cbn in *; exact H.
  - cbn [operate] in H.
    assert (He : evaluate M s = Ret (mkUserModel (um_inputs s) (f (um_inputs s)) (um_right s)
      (um_problem_size s), Ok tt)) by (destruct HM; reflexivity).
    rewrite He in H. cbn [bind fst] in H. apply IH in H.
    destruct H as (H1 & H2 & H3 & H4). cbn in *. repeat split; auto.
    intros d Hd. specialize (H4 (Some (um_inputs s)) eq_refl).
    destruct (last_evaluated (um_inputs s) (Some (um_inputs s)) ops); [exact H4|].
    destruct H4 as (H4 & _). discriminate H4.
  - cbn [operate] in H. destruct (get_jacobian M s) as [[s1 r]|] eqn:E; [|discriminate H].
    cbn [bind fst] in H.
    assert (s1 = s).
    { destruct HM; cbn in E; unfold default_get_jacobian, um_get_jacobian in E;
        minv1 E; minv1 E; reflexivity. }
    subst s1. apply IH in H. exact H.
  - cbn [operate] in H. apply IH in H. destruct HM; cbn in *; exact H.
Qed.
End Adapters.

(** After any sequence of calls on a new adapter. *)
Theorem C46_adapters :
  forall F (NF : Num F) f j M, adapter f j M -> forall n ops s,
  operate M ops (user_model_new n) = Ret s ->
  len_problem M s = n /\
  get_iteratives M s = last_set (vzeros n) ops /\
  (exists s', evaluate M s = Ret (s', Ok tt)) /\
  get_residuals M s =
    residuals_values_new (match last_evaluated (vzeros n) None ops with
                          | Some x => f x
                          | None => repeat nnan n
                          end) (vzeros n) /\
  jacobian_provided M s = match j with Some _ => true | None => false end /\
  get_memory M s = [] /\
  match j with
  | Some jac => get_jacobian M s =
      (jv <- jacobian_values_new (jac (last_set (vzeros n) ops)) (mzeros n) ;; Ret (s, Ok jv))
  | None => let zero := repeat (repeat n0 (length (last_set (vzeros n) ops))) (length (last_set (vzeros n) ops)) in
      get_jacobian M s = Ret (s, Ok (mkJacobianValues zero zero))
  end.
Proof.
  intros F NF f j M HM n ops s H.
  destruct (operate_fields f j M HM ops _ _ H) as (H1 & H2 & H3 & H4). cbn in H1, H2, H3.
  specialize (H4 None I). cbn [um_inputs user_model_new] in H4.
  assert (Hr : um_left s = match last_evaluated (vzeros n) None ops with
                          | Some x => f x | None => repeat nnan n end).
  { destruct (last_evaluated (vzeros n) None ops); [exact H4|apply H4]. }
  rewrite <- H1, <- Hr.
  assert (Z : forall k, jacobian_values_new (mzeros k) (mzeros k) =
                Ret (mkJacobianValues (repeat (repeat (n0 : F) k) k) (repeat (repeat n0 k) k))).
  { intros k; unfold jacobian_values_new, is_square, mzeros, vzeros; rewrite !repeat_length, Nat.eqb_refl.
    replace (forallb _ _) with true; [reflexivity|symmetry; apply forallb_forall].
    intros r Hin; apply repeat_spec in Hin; subst r; rewrite repeat_length; apply Nat.eqb_refl. }
  destruct HM; cbn; unfold um_get_residuals, um_get_jacobian, default_get_jacobian; rewrite ?Z, ?H2, ?H3; repeat split;
    eexists; reflexivity.
Qed.
Print Assumptions C46_adapters.

(** Function and closure adapters of the same functions give the same runs. *)
Theorem C46_closures_as_functions :
  forall F (NF : Num F) (IF : Inverter F) f jac rf s,
  solve (model_from_closure f) rf s = solve (model_from_function f) rf s /\
  solve (model_from_closure_and_jacobian f jac) rf s
    = solve (model_from_function_and_jacobian f jac) rf s.
Proof. intros. split; reflexivity. Qed.
Print Assumptions C46_closures_as_functions.

Example C46_case :
  match operate (model_from_function_and_jacobian sq2 sq2_jac)
          [OSet [Fz 3]; OEval; OSet [Fz 5]; OJac; OMem []] (user_model_new 1) with
  | Ret s => match um_inputs s, um_left s with
             | [x], [y] => neqb x (Fz 5) && neqb y (Fz 7)
             | _, _ => false
             end
  | Panic _ => false
  end = true.
Proof. vm_compute. reflexivity. Qed.

(** The previous life of an adapter does not influence [solve]; the verdict is
    never a model error. *)
Theorem C47_only_function_and_guess :
  forall F (NF : Num F) (IF : Inverter F) f j M, adapter f j M ->
  forall n ops1 ops2 s1 s2 rf,
  operate M ops1 (user_model_new n) = Ret s1 ->
  operate M ops2 (user_model_new n) = Ret s2 ->
  solve M rf s1 = solve M rf s2 /\
  forall rf' s' r, fresh rf -> solve M rf s1 = Ret (rf', s', r) ->
    r = Ok tt \/ r = Err NonConvergenceError \/
    r = Err (JacobianError InvalidJacobianInverseError).
Proof.
  intros F NF IF f j M HM n ops1 ops2 s1 s2 rf H1 H2.
  destruct (operate_fields f j M HM ops1 _ _ H1) as (_ & R1 & P1 & _).
  destruct (operate_fields f j M HM ops2 _ _ H2) as (_ & R2 & P2 & _). split.
  - unfold solve.
    replace (evaluate M (set_iteratives M s1 (rf_initial_guess rf)))
      with (evaluate M (set_iteratives M s2 (rf_initial_guess rf))); [reflexivity|].
    destruct HM; cbn; unfold um_evaluate; cbn; rewrite R1, R2, P1, P2; reflexivity.
  - intros rf' s' r Hf H. destruct (fresh_fields F NF IF rf Hf) as (_ & _ & Hv).
    assert (Hev : forall s s' r, evaluate M s = Ret (s', r) -> r = Ok tt).
    { intros s s'' r' He. destruct HM; cbn in He; injection He; congruence. }
    destruct (solve_heads _ _ _ _ _ _ H) as [(x & _)|[(me & Hl & Hc & ->)|(rf1 & s3 & me & x & Hl & Hc & Hit & ->)]].
    + destruct x.
    + assert (Hv' : rf_valid_last rf' = true).
      { revert rf' s' me Hl H Hc. intros rf' s' me Hl _ _.
        apply (loop_head_ind_simple M rf s1 (fun a _ _ => rf_valid_last a = true)) with (s := s') (me := me);
          [| |exact Hl].
        - intros a t e _ Hb _. apply same_but_log_fields in Hb.
          destruct Hb as (_ & _ & _ & Hb & _). congruence.
        - intros a t me0 a1 t1 e _ _ _ Hit. apply iteration_inv in Hit.
          destruct Hit as (a2 & t2 & r2 & _ & Hit). destruct r2 as [g|x]; [|destruct Hit as (_ & _ & [=])].
          apply update_model_inv in Hit.
          destruct Hit as (e0 & t3 & r3 & _ & He & [(x & _)|(en & _ & _ & Hfu)]); [destruct x|].
          apply Hev in He. subst r3. apply finish_update_inv in Hfu.
          destruct Hfu as (_ & _ & Hfu & _). exact Hfu. }
      unfold verdict. rewrite Hv'. destruct (ngtb _ _); auto.
    + right. right. apply iteration_inv in Hit. destruct Hit as (a2 & t2 & r2 & _ & Hit).
      destruct r2 as [g|y].
      * apply update_model_inv in Hit.
        destruct Hit as (e0 & t3 & r3 & _ & He & [(y & _)|(en & Hx & _)]); [destruct y|discriminate Hx].
      * destruct Hit as (_ & _ & Hx). injection Hx as ->.
        destruct y as [[[]|[]]|]; reflexivity.
Qed.
Print Assumptions C47_only_function_and_guess.

Example C47_case :
  check_run (match operate (model_from_function sq2) [OSet [Fz 7]; OEval; OSet [Fz 5]] (user_model_new 1) with
     | Ret s => solve (model_from_function sq2) (sq2_fd 50 NewtonRaphson false) s
     | Panic p => Panic p
     end)
    (fun rf s r => is_ok r && Nat.eqb (rf_iter rf) 4) = true.
Proof. vm_compute. reflexivity. Qed.

(** *** C07 *)

(** As claimed. *)
Definition C07_statement : Prop :=
  forall (IF : Inverter f64) St EI EU (M : Model f64 St EI EU) rf s rf1 s1 r,
  fresh rf -> solve M rf s = Ret (rf1, s1, r) ->
  exists rf2, solve M rf1 s = Ret (rf2, s1, r).

(** The counter is not reset: four iterations out of five were spent by the
    first call, the second one does not converge. *)
Theorem C07_second_solve_refuted : ~ C07_statement.
Proof.
  intros H.
  assert (W : check_run (solve (model_from_function sq2) (sq2_fd 5 NewtonRaphson false) (user_model_new 1))
    (fun rf s r => is_ok r && check_run (solve (model_from_function sq2) rf (user_model_new 1))
        (fun _ _ r2 => is_nonconv r2)) = true) by (vm_compute; reflexivity).
  apply check_run_true in W. destruct W as (rf1 & s1 & r & H1 & W).
  apply andb_prop in W. destruct W as (Wo & Wn).
  destruct (fun Hf => H _ _ _ _ _ (sq2_fd 5 NewtonRaphson false) _ _ _ _ Hf H1) as (rf2 & H2); [apply sample_fresh; reflexivity|].
  rewrite H2 in Wn. cbn in Wn. destruct r as [u|e]; [discriminate Wn|discriminate Wo].
Qed.
Print Assumptions C07_second_solve_refuted.

(** The jacobian is not forgotten either: with a large budget, the second call
    of a quasi-Newton method ends at another point. *)
Theorem C07_second_solve_quasi_newton_refuted :
  exists rf1 s1 rf2 s2 x1 x2,
    solve (model_from_function sq2) (sq2_fd 50 broy1 false) (user_model_new 1) = Ret (rf1, s1, Ok tt) /\
    solve (model_from_function sq2) rf1 (user_model_new 1) = Ret (rf2, s2, Ok tt) /\
    um_inputs s1 = [x1] /\ um_inputs s2 = [x2] /\ neqb x1 x2 = false /\
    rf_iter rf2 < 50.
Proof.
  assert (W : check_run (solve (model_from_function sq2) (sq2_fd 50 broy1 false) (user_model_new 1))
    (fun rf s r => is_ok r && check_run (solve (model_from_function sq2) rf (user_model_new 1))
        (fun rf2 s2 r2 => is_ok r2 && Nat.ltb (rf_iter rf2) 50 &&
           match um_inputs s, um_inputs s2 with
           | [x1], [x2] => negb (neqb x1 x2)
           | _, _ => false
           end)) = true) by (vm_compute; reflexivity).
  apply check_run_true in W. destruct W as (rf1 & s1 & r & H1 & W).
  apply andb_prop in W. destruct W as (Wo & W). apply check_run_true in W.
  destruct W as (rf2 & s2 & r2 & H2 & W). apply andb_prop in W. destruct W as (W & Wx).
  apply andb_prop in W. destruct W as (Wo2 & Wi). apply Nat.ltb_lt in Wi.
  destruct r as [[]|]; [|discriminate Wo]. destruct r2 as [[]|]; [|discriminate Wo2].
  destruct (um_inputs s1) as [|x1 [|]] eqn:E1; try discriminate Wx.
  destruct (um_inputs s2) as [|x2 [|]] eqn:E2; try discriminate Wx.
  exists rf1, s1, rf2, s2, x1, x2. repeat split; auto. now apply negb_true_iff.
Qed.
Print Assumptions C07_second_solve_quasi_newton_refuted.

(** Newton-Raphson forgets everything but the counter. *)
Section C07.
Context {F : Type} {NF : Num F} {IF : Inverter F} {St EI EU : Type}.
Context (M : Model F St EI EU).

(** The solver [b] is [a] with other remains of the past, the counter being
    [k] further. *)
Definition shifted (k : nat) (a b : rootfinder F) : Prop :=
  same_config a b /\ rf_debug a = false /\
  sp_resolution_method (rf_parameters a) = NewtonRaphson /\ rf_iter b = rf_iter a + k.

Lemma shifted_jac : forall k a b s, shifted k a b ->
  rel_out (fun p q => let '(a1, s1, r1) := p in let '(b1, s2, r2) := q in
     shifted k a1 b1 /\ s1 = s2 /\ r1 = r2 /\
     (r1 = Ok tt -> jm_inverse (rf_jacobian a1) = jm_inverse (rf_jacobian b1)))
    (compute_jac M a s) (compute_jac M b s).
Proof.
  intros k a b s ((Hp & Hg & Hi & Hc & Hd) & Hda & Hm & Hk). unfold compute_jac. rewrite Hi, Hc.
  assert (Hs : forall ja jb, shifted k (set_jacobian a ja) (set_jacobian b jb)).
  { intros ja jb. repeat split; cbn; assumption. }
  destruct (jacobian_provided M s).
  - unfold evaluate_jacobian_from_analytical_function.
    destruct (get_residuals M s) as [v|]; [|reflexivity]. cbn [bind].
    destruct (get_jacobian M s) as [[s1 r]|]; [|reflexivity]. cbn [bind].
    destruct r as [jv|e].
    + destruct (normalize jv v _) as [m|]; [|reflexivity]. cbn [bind].
      unfold update_jacobian_with_exact_value, update_jacobian.
      destruct (try_inverse m); cbn; (split; [apply Hs|auto]).
    + cbn. split; [apply Hs|auto].
  - unfold evaluate_jacobian_from_finite_difference.
    destruct (compute_perturbations _ _) as [dx|]; [|reflexivity]. cbn [bind].
    destruct (compute_jacobian_from_finite_difference _ _ _ _) as [[s1 r]|] eqn:Ef; [|reflexivity]. cbn [bind].
    destruct r as [m|e].
    + unfold update_jacobian_with_exact_value, update_jacobian.
      destruct (try_inverse m); cbn; (split; [apply Hs|auto]).
    + assert (He : exists x, e = UnusableValuesError x).
      { unfold compute_jacobian_from_finite_difference in Ef.
        minv1 Ef. minv1 Ef. minv1 Ef. minv1 Ef. match goal with H : match ?r with _ => _ end = Err _ |- _ => destruct r; [discriminate H|injection H as ->] end. eapply fd_columns_err. eassumption. }
      destruct He as (x & ->). cbn. split; [apply Hs|]. split; [reflexivity|].
      split; [reflexivity|discriminate].
Qed.

Lemma shifted_errors : forall k a b s, shifted k a b -> evaluate_errors M a s = evaluate_errors M b s.
Proof. intros k a b s ((_ & _ & _ & Hc & _) & _). unfold evaluate_errors. rewrite Hc. reflexivity. Qed.

Lemma shifted_when : forall k a b x y, shifted k a b ->
  when_debug a x = Ret a /\ when_debug b y = Ret b.
Proof.
  intros k a b x y ((_ & _ & _ & _ & Hd) & Ha & _). unfold when_debug. rewrite Hd, Ha. auto.
Qed.

Lemma shifted_step : forall k a b s, shifted k a b ->
  rel_out (fun p q => let '(a1, s1, r1) := p in let '(b1, s2, r2) := q in
     shifted k a1 b1 /\ s1 = s2 /\ r1 = r2)
    (compute_step M a s) (compute_step M b s).
Proof.
  intros k a b s H. unfold compute_step. assert (H' := H). destruct H' as ((Hp & _) & _ & Hm & _).
  rewrite Hp, Hm. unfold compute_newton_raphson_step.
  eapply rel_bind; [apply shifted_jac, H|].
  intros [[a1 s1] r1] [[b1 s2] r2] (H1 & <- & <- & Hj).
  destruct (shifted_when k a1 b1 (jac_to_log a1) (jac_to_log b1) H1) as (-> & ->). cbn [bind].
  destruct r1 as [[]|]; [|cbn; auto]. specialize (Hj eq_refl).
  assert (H2 := H1). destruct H2 as ((_ & _ & Hi & Hc & _) & _).
  unfold compute_next_from_inv_jac. rewrite <- Hj, Hi, Hc.
  destruct (get_residuals M s1); [|reflexivity]. cbn [bind].
  destruct (evaluate_update_residuals _ _); [|reflexivity]. cbn [bind].
  destruct (unwrap _); [|reflexivity]. cbn [bind].
  destruct (mat_vec_chk _ _); [|reflexivity]. cbn [bind].
  destruct (step_limitations _ _ _); [|reflexivity]. cbn. auto.
Qed.

Lemma shifted_finish : forall k a b s e cur prop, shifted k a b -> rf_valid_last a = rf_valid_last b ->
  rel_out (fun p q => let '(a1, s1, r1) := p in let '(b1, s2, r2) := q in
     shifted k a1 b1 /\ s1 = s2 /\ r1 = r2 /\ rf_valid_last a1 = rf_valid_last b1)
    (finish_update M a s e cur prop) (finish_update M b s e cur prop).
Proof.
  intros k a b s e cur prop H Hv. unfold finish_update. rewrite (shifted_errors _ _ _ s H).
  destruct (evaluate_errors M b s) as [en|]; [|reflexivity]. cbn [bind].
  destruct (shifted_when k a b (iteration_to_log M a s en) (iteration_to_log M b s en) H) as (-> & ->).
  cbn [bind]. assert (H1 := H). destruct H1 as ((Hp & _) & _ & Hm & _).
  assert (Hs : forall a b s en, shifted k a b -> rf_valid_last a = rf_valid_last b ->
    rel_out (fun p q => let '(a1, s1, r1) := p in let '(b1, s2, r2) := q in
     shifted k a1 b1 /\ s1 = s2 /\ r1 = r2 /\ rf_valid_last a1 = rf_valid_last b1)
      (rf3 <- store_steps M a s cur e en ;; Ret (rf3, s, en))
      (rf3 <- store_steps M b s cur e en ;; Ret (rf3, s, en))).
  { clear. intros a b s en H Hv. assert (H1 := H). destruct H1 as ((Hp & _) & _ & Hm & _).
    unfold store_steps. rewrite Hp, Hm. cbn. auto. }
  rewrite Hp. destruct (sp_damping (rf_parameters a)); [|cbn [bind]; apply Hs; assumption].
  unfold damping. rewrite Hp, Hm. cbn [is_quasi_newton andb].
  destruct (ngtb (amax en) (amax e)); [|cbn [bind]; apply Hs; assumption].
  destruct (damped_guess cur prop) as [d|]; [|reflexivity]. cbn [bind].
  destruct (evaluate M (set_iteratives M s d)) as [[s1 r]|]; [|reflexivity]. cbn [bind].
  destruct r; [|reflexivity]. rewrite (shifted_errors _ _ _ s1 H).
  destruct (evaluate_errors M b s1) as [e1|]; [|reflexivity]. cbn [bind].
  destruct (shifted_when k a b (damping_to_log M a s1 e1) (damping_to_log M b s1 e1) H) as (-> & ->).
  cbn [bind]. apply Hs; assumption.
Qed.

Lemma shifted_iteration : forall k a b s, shifted k a b ->
  rel_out (fun p q => let '(a1, s1, r1) := p in let '(b1, s2, r2) := q in
     shifted k a1 b1 /\ s1 = s2 /\ r1 = r2 /\
     (forall e, r1 = Ok e -> rf_valid_last a1 = rf_valid_last b1))
    (iteration M a s) (iteration M b s).
Proof.
  intros k a b s H. unfold iteration. eapply rel_bind.
  { apply shifted_step with (k := k).
    destruct H as (H1 & H2 & H3 & H4). repeat split; cbn; try apply H1; auto. }
  intros [[a1 s1] r1] [[b1 s2] r2] (H1 & <- & <-). destruct r1 as [g|x].
  - unfold update_model. rewrite (shifted_errors _ _ _ s1 H1).
    destruct (evaluate_errors M b1 s1) as [e|]; [|reflexivity]. cbn [bind].
    destruct (evaluate M (set_iteratives M s1 g)) as [[s2 r]|]; [|reflexivity]. cbn [bind].
    assert (Hv : forall v, shifted k (set_valid a1 v) (set_valid b1 v)).
    { intros v. destruct H1 as (H1 & H2 & H3 & H4). repeat split; cbn; try apply H1; auto. }
    destruct r as [u|[x|x]].
    + eapply rel_bind; [apply shifted_finish; [apply Hv|reflexivity]|].
      intros [[a2 s3] f] [[b2 s4] f'] (H2 & <- & <- & Hf). cbn. auto.
    + eapply rel_bind; [apply shifted_finish; [apply Hv|reflexivity]|].
      intros [[a2 s3] f] [[b2 s4] f'] (H2 & <- & <- & Hf). cbn. auto.
    + cbn. split; [apply Hv|]. repeat split.
  - cbn. repeat split; try apply H1. discriminate.
Qed.

Lemma iterate_counter : forall fuel rf s me rf' s' r,
  iterate M fuel rf s me = Ret (rf', s', r) -> rf_iter rf <= rf_iter rf'.
Proof.
  induction fuel as [|fuel IH]; intros rf s me rf' s' r H; [discriminate|].
  cbn [iterate] in H. destruct (_ && _); [|injection H as <- _ _; lia].
  destruct (iteration M rf s) as [[[rf1 s1] r1]|] eqn:E; [|discriminate]. cbn [bind] in H.
  apply iteration_fields in E. destruct E as (_ & E & _).
  destruct r1; [apply IH in H; lia|injection H as <- _ _; lia].
Qed.

Lemma shifted_iterate : forall k fuel fuel' a b s me a' s' r,
  shifted k a b -> iterate M fuel a s me = Ret (a', s', r) ->
  rf_iter a' + k <= sp_max_iter (rf_parameters a) ->
  sp_max_iter (rf_parameters a) - rf_iter b < fuel' ->
  exists b', iterate M fuel' b s me = Ret (b', s', r) /\ shifted k a' b' /\
    ((a' = a /\ b' = b) \/ (forall e, r = Ok e -> rf_valid_last a' = rf_valid_last b')).
Proof.
  intros k fuel. induction fuel as [|fuel IH]; intros fuel' a b s me a' s' r H Ha Hle Hf; [discriminate|].
  destruct fuel' as [|fuel']; [lia|]. assert (Hc := iterate_counter _ _ _ _ _ _ _ Ha).
  cbn [iterate] in *. assert (H1 := H). destruct H1 as ((Hp & _) & _ & _ & Hk). rewrite Hp, Hk in *.
  destruct (ngtb me (sp_tolerance (rf_parameters a))); cbn [andb] in *;
    [|injection Ha as <- <- <-; eauto 6].
  destruct (Nat.ltb (rf_iter a) (sp_max_iter (rf_parameters a))) eqn:El.
  - apply Nat.ltb_lt in El.
    assert (Hi := shifted_iteration k a b s H).
    destruct (iteration M a s) as [[[a1 s1] r1]|] eqn:Ea; [|discriminate Ha]. cbn [bind] in Ha.
    destruct (iteration M b s) as [[[b1 s2] r2]|] eqn:Eb; [|destruct Hi].
    destruct Hi as (H1 & <- & <- & Hv). apply iteration_fields in Ea. destruct Ea as ((Hpa & _) & Hia & _).
    assert (Hc1 : rf_iter a1 <= rf_iter a').
    { destruct r1; [eapply iterate_counter; exact Ha|injection Ha as <- _ _; lia]. }
    assert (Hlt : Nat.ltb (rf_iter a + k) (sp_max_iter (rf_parameters a)) = true) by (apply Nat.ltb_lt; lia).
    rewrite Hlt. cbn [bind]. destruct r1 as [e1|x].
    + destruct (IH fuel' a1 b1 s1 (amax e1) a' s' r H1 Ha) as (b' & Hb' & Hs' & Hd).
      * rewrite Hpa. exact Hle.
      * rewrite Hpa. destruct H1 as (_ & _ & _ & H1). lia.
      * exists b'. split; [exact Hb'|]. split; [exact Hs'|]. right. intros e He.
        destruct Hd as [(-> & ->)|Hd]; [eapply Hv; reflexivity|eapply Hd; exact He].
    + injection Ha as <- <- <-. exists b1. split; [reflexivity|]. split; [exact H1|]. right. discriminate.
  - apply Nat.ltb_ge in El. injection Ha as <- <- <-.
    assert (Hge : Nat.ltb (rf_iter a + k) (sp_max_iter (rf_parameters a)) = false) by (apply Nat.ltb_ge; lia).
    rewrite Hge. exists b. auto.
Qed.

Lemma nodebug_again : forall (rf : rootfinder F) s rf1 s1 r,
  rf_debug rf = false -> rf_iter rf = 0 ->
  sp_resolution_method (rf_parameters rf) = NewtonRaphson ->
  solve M rf s = Ret (rf1, s1, r) ->
  2 * rf_iter rf1 <= sp_max_iter (rf_parameters rf) ->
  exists rf2, solve M rf1 s = Ret (rf2, s1, r).
Proof.
  intros rf s rf1 s1 r Hd Hi Hm H Hle.
  destruct (solve_counter _ _ _ _ _ _ H) as (Hc & _ & _).
  assert (Hc' := Hc). destruct Hc' as (Hp & Hg & _ & Hrc & Hdb).
  unfold solve in *. rewrite Hg.
  destruct (evaluate M (set_iteratives M s (rf_initial_guess rf))) as [[s2 r2]|]; [|discriminate].
  cbn [bind] in *.
  assert (Hk : solve_from M rf s2 = Ret (rf1, s1, r) -> exists rf2, solve_from M rf1 s2 = Ret (rf2, s1, r)).
  { clear H. intros H. unfold solve_from in *.
    assert (Hsh : shifted (rf_iter rf1) rf rf1).
    { split; [exact Hc|]. split; [exact Hd|]. split; [exact Hm|]. lia. }
    rewrite <- (shifted_errors _ _ _ s2 Hsh).
    destruct (evaluate_errors M rf s2) as [e|]; [|discriminate]. cbn [bind] in *.
    unfold when_debug in *. rewrite Hdb, Hd in *. cbn [bind] in *. rewrite Hp in *.
    destruct (iterate M _ rf s2 (amax e)) as [[[a' s'] r']|] eqn:Ea; [|discriminate].
    cbn [bind] in H. injection H as <- <- <-.
    destruct (shifted_iterate (rf_iter a') _ (S (sp_max_iter (rf_parameters rf))) _ a' _ _ _ _ _ Hsh Ea)
      as (b' & Hb & Hs' & Hv); [lia|lia|].
    rewrite Hb. cbn [bind]. exists b'. do 3 f_equal. destruct r' as [me|]; [|reflexivity].
    unfold verdict. destruct Hs' as ((Hp' & _) & _). rewrite Hp'.
    assert (Hvv : rf_valid_last b' = rf_valid_last a').
    { destruct Hv as [(-> & ->)|Hv]; [reflexivity|symmetry; eapply Hv; reflexivity]. }
    rewrite Hvv. reflexivity. }
  destruct r2 as [u|[x|x]]; [auto|auto|]. injection H as <- <- <-. eauto.
Qed.
End C07.

(** With Newton-Raphson, the second call gives the same verdict and the same
    state of the model, if the iteration budget allows it. *)
Theorem C07_second_solve_newton_raphson :
  forall F (NF : Num F) (IF : Inverter F) St EI EU (M : Model F St EI EU) rf s rf1 s1 r,
  fresh rf -> sp_resolution_method (rf_parameters rf) = NewtonRaphson ->
  solve M rf s = Ret (rf1, s1, r) ->
  2 * rf_iter rf1 <= sp_max_iter (rf_parameters rf) ->
  exists rf2, solve M rf1 s = Ret (rf2, s1, r).
Proof.
  intros F NF IF St EI EU M rf s rf1 s1 r Hf Hm H Hle.
  destruct (fresh_fields F NF IF rf Hf) as (Hi & _ & _).
  destruct (rf_debug rf) eqn:Hd; [|eapply nodebug_again; eassumption].
  assert (Hlog : has_log rf).
  { destruct Hf as (p & g & its & c & rf0 & Hn & [->| ->]); [|unfold has_log; cbn; intros _; discriminate].
    exfalso. unfold rootfinder_new in Hn.
    repeat (destruct (negb _) in Hn; [discriminate Hn|]). injection Hn as <-. discriminate Hd. }
  destruct (rf_iters_params rf) as [|i its] eqn:Eits.
  - (* the log panics unless the initial evaluation is unusable *)
    assert (H0 := H). unfold solve in H0.
    destruct (evaluate M (set_iteratives M s (rf_initial_guess rf))) as [[s2 r2]|] eqn:Ee; [|discriminate].
    cbn [bind] in H0.
    assert (Hno : solve_from M rf s2 <> Ret (rf1, s1, r)).
    { unfold solve_from, when_debug, parameters_to_log. rewrite Hd, Eits.
      destruct (evaluate_errors M rf s2); [|discriminate]. cbn [bind].
      destruct (rf_log rf); discriminate. }
    destruct r2 as [u|[x|x]]; [contradiction|contradiction|].
    injection H0 as <- <- <-. eauto.
  - assert (Hne : rf_iters_params rf <> []) by (rewrite Eits; discriminate).
    assert (H0 := d_solve M (undebug rf) rf s (conj eq_refl Hlog) Hne). rewrite H in H0.
    destruct (solve M (undebug rf) s) as [[[u1 us] ur]|] eqn:Eu; [|destruct H0].
    destruct H0 as ((-> & Hlog1) & -> & ->).
    destruct (nodebug_again M _ _ _ _ _ (eq_refl : rf_debug (undebug rf) = false) Hi Hm Eu Hle) as (u2 & Hu2).
    destruct (solve_counter _ _ _ _ _ _ H) as ((_ & _ & Hits & _) & _).
    assert (H0 := d_solve M (undebug rf1) rf1 s (conj eq_refl Hlog1)).
    rewrite Hu2 in H0. specialize (H0 ltac:(congruence)).
    destruct (solve M rf1 s) as [[[rf2 t2] r2]|]; [|destruct H0].
    destruct H0 as (_ & <- & <-). eauto.
Qed.
Print Assumptions C07_second_solve_newton_raphson.

Example C07_case :
  check_run (solve (model_from_function sq2) (activate_debug (sq2_fd 50 NewtonRaphson false)) (user_model_new 1))
    (fun rf s r => is_ok r && check_run (solve (model_from_function sq2) rf (user_model_new 1))
        (fun rf2 s2 r2 => is_ok r2 && Nat.eqb (rf_iter rf) 4 && Nat.eqb (rf_iter rf2) 8)) = true.
Proof. vm_compute. reflexivity. Qed.
