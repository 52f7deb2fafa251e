(** How a resolution proceeds: C03, C04, C06, C08, C09, C10, C11, C12, C14, C35. *)
From Coq Require Import Reals.
From Flocq Require Import Core BinarySingleNaN.
From Verif Require Import Base Num Linalg Residuals Iteratives UserModel Jacobian Solver
  F64 F64Facts Tactics FlowFacts FlagFacts Trace TraceFacts SimFacts Spec Fresh ResidualFacts
  VerdictFacts CountFacts FuelFacts Samples PropsVerdict.
Open Scope nat_scope.

(** *** C03 *)

(** The full statement. [traced M] is [M] with a record of the calls made on
    it; tracing changes nothing in a run ([traced_solve] in SimFacts.v). *)
Definition C03_statement : Prop :=
  forall (IF : Inverter f64) St EI EU (M : Model f64 St EI EU) rf s rf' s' t,
  fresh rf ->
  solve (traced M) rf (s, []) = Ret (rf', (s', t), Ok tt) ->
  last_evaluation t = Some SOk.

(** False when the initial guess is already a solution: its evaluation is
    reported inaccurate, and [solve] reports success. *)
Theorem C03_success_means_valid_evaluation_refuted : ~ C03_statement.
Proof.
  intros H.
  set (M := scripted_model 1 (constant [Fz 0]) None (at_call 0 SInaccurate) always_ok).
  assert (H1 : exists rf' s', solve (traced M) (sq2_fd 50 NewtonRaphson false) (scripted_init 1, [])
     = Ret (rf', (s', [ESet [Fz 1]; EEval SInaccurate]), Ok tt))
    by (eexists; eexists; reflexivity).
  destruct H1 as (rf' & s' & H1).
  apply H in H1; [|apply sample_fresh; reflexivity]. discriminate H1.
Qed.
Print Assumptions C03_success_means_valid_evaluation_refuted.

(** True as soon as one iteration is made. *)
Theorem C03_success_after_an_iteration :
  forall F (NF : Num F) (IF : Inverter F) St EI EU (M : Model F St EI EU) rf s t0 rf' s' t,
  solve (traced M) rf (s, t0) = Ret (rf', (s', t), Ok tt) ->
  rf_iter rf < rf_iter rf' ->
  last_evaluation t = Some SOk.
Proof.
  intros F NF IF St EI EU M rf s t0 rf' s' t H Hlt.
  assert (Hv := verdict_state _ _ _ _ _ _ H (or_introl eq_refl)).
  destruct Hv as (v & e & _ & _ & _ & _ & _ & _ & Hr).
  destruct (ngtb _ _); [discriminate Hr|].
  destruct (rf_valid_last rf') eqn:Ev; [|discriminate Hr]. clear Hr.
  apply solve_trace in H; [|left; reflexivity].
  destruct H as (k & _ & _ & l & t1 & Ht & Hb & Hi & _ & _ & Hval & _).
  cbn [snd] in Ht. subst t.
  assert (Hl : l <> []) by (intros ->; cbn in Hi; lia).
  apply iter_blocks_end in Hb; [|exact Hl].
  destruct Hb as (x0 & l0 & t2 & x & -> & -> & _).
  rewrite rev_app_distr in Hval. cbn [rev app] in Hval. rewrite Ev in Hval.
  rewrite !last_evaluation_app. cbn. destruct (sum_damped x0); [reflexivity|].
  destruct (sum_status x0); [reflexivity|discriminate Hval..].
Qed.
Print Assumptions C03_success_after_an_iteration.

(** Inaccurate intermediate evaluations, then a valid one: success. *)
Example C03_case :
  check_run (solve (scripted_model 1 sq2 None (at_call 3 SInaccurate) always_ok)
      (sq2_fd 50 NewtonRaphson false) (scripted_init 1))
    (fun rf s r => is_ok r && Nat.eqb (rf_iter rf) 4) = true.
Proof. vm_compute. reflexivity. Qed.

(** *** C04 *)

(** The full statement. *)
Definition C04_statement : Prop :=
  forall (IF : Inverter f64) St EI EU (M : Model f64 St EI EU) rf s rf' s' t,
  fresh rf ->
  solve (traced M) rf (s, []) = Ret (rf', (s', t), Err FinalEvaluationError) ->
  last_evaluation t = Some SInaccurate.

(** x from 0 with f(0) = 1, f(1) = 10, f(1/2) = 0 and a jacobian of -1: the
    proposed point 1 is inaccurate and worse, the damped point 1/2 is a root
    evaluated without error; [solve] returns FinalEvaluationError. *)
Definition C04_fun (x : vec f64) : vec f64 :=
  match x with
  | [a] => [if neqb a (Fz 0) then Fz 1 else if neqb a (Fz 1) then Fz 10 else Fz 0]
  | _ => []
  end.
Definition C04_model : Model f64 (scripted f64) string string :=
  scripted_model 1 C04_fun (Some (fun _ => [[Fz (-1)]])) (at_call 1 SInaccurate) always_ok.
Definition C04_rf : rootfinder f64 :=
  sample_rf (params6 1 50 NewtonRaphson true) [Fz 0] (jac_its 1) (abs_conf 1).

Theorem C04_final_evaluation_error_refuted : ~ C04_statement.
Proof.
  intros H.
  assert (H1 : check_run (solve (traced C04_model) C04_rf (scripted_init 1, []))
     (fun rf p r => is_final r &&
        match last_evaluation (snd p) with Some SOk => true | _ => false end) = true)
    by (vm_compute; reflexivity).
  apply check_run_true in H1. destruct H1 as (rf' & [s' t] & r & H1 & H2).
  apply andb_prop in H2. destruct H2 as (H2 & H3). cbn [snd] in H3.
  destruct r as [|[]]; try discriminate H2.
  apply H in H1; [|apply sample_fresh; reflexivity]. rewrite H1 in H3. discriminate H3.
Qed.
Print Assumptions C04_final_evaluation_error_refuted.

(** What FinalEvaluationError means: the criterion is met, and the evaluation of
    the last proposed point was inaccurate; this is the last evaluation unless
    the damping made one more. *)
Theorem C04_final_evaluation_error :
  forall (IF : Inverter f64) St EI EU (M : Model f64 St EI EU) rf s rf' s' t,
  rf_valid_last rf = true ->
  solve (traced M) rf (s, []) = Ret (rf', (s', t), Err FinalEvaluationError) ->
  (exists v, get_residuals M s' = Ret v /\
    (is_nan (sp_tolerance (rf_parameters rf)) = false ->
     (forall r, stopping_residual (stopping_criterias (rf_residuals_config rf)) v r ->
        is_nan r = false) ->
     forall r, stopping_residual (stopping_criterias (rf_residuals_config rf)) v r ->
        nleb r (sp_tolerance (rf_parameters rf)) = true)) /\
  ((exists t1 x, t = t1 ++ [ESet x; EEval SInaccurate]) \/
   (sp_damping (rf_parameters rf) = true /\
    exists t1 x d, t = t1 ++ [ESet x; EEval SInaccurate; ESet d; EEval SOk])).
Proof.
  intros IF St EI EU M rf s rf' s' t Hv0 H.
  assert (Hv := verdict_state _ _ _ _ _ _ H (or_intror (or_intror eq_refl))).
  destruct Hv as (v & e & Hv & He & _ & _ & _ & _ & Hr).
  destruct (ngtb (amax e) _) eqn:Eg; [discriminate Hr|].
  destruct (rf_valid_last rf') eqn:Ev; [discriminate Hr|]. clear Hr. split.
  { exists v. split; [exact Hv|]. intros Ht Hnn.
    apply (stopping_max _ _ _ (sp_tolerance (rf_parameters rf))) in He. destruct He as (_ & He).
    auto. }
  apply solve_trace in H; [|right; right; reflexivity].
  destruct H as (k & _ & _ & l & t1 & Ht & Hb & _ & Hd & _ & Hval & _).
  cbn [snd app] in Ht. subst t.
  destruct Hb as [|l t1 x b Hb Hx]; [cbn in Hval; congruence|].
  rewrite rev_app_distr in Hval. cbn [rev app] in Hval. rewrite Ev in Hval.
  apply Forall_app in Hd. destruct Hd as (_ & Hd). apply Forall_inv in Hd.
  destruct x as [j k1 d]. cbn [sum_jac sum_status sum_damped] in *.
  inversion Hx as [j1 x k0 tj Hj Hk|j1 x k0 d0 tj Hj Hk]; subst.
  - left. destruct k1; [discriminate Hval| |congruence].
    exists ([ESet (rf_initial_guess rf); EEval k] ++ t1 ++ tj), x. now rewrite <- !app_assoc.
  - right. split; [now apply Hd|]. destruct k1; [discriminate Hval| |congruence].
    exists ([ESet (rf_initial_guess rf); EEval k] ++ t1 ++ tj), x, d0. now rewrite <- !app_assoc.
Qed.
Print Assumptions C04_final_evaluation_error.

Corollary C04_final_evaluation_error_undamped :
  forall (IF : Inverter f64) St EI EU (M : Model f64 St EI EU) rf s rf' s' t,
  fresh rf -> sp_damping (rf_parameters rf) = false ->
  solve (traced M) rf (s, []) = Ret (rf', (s', t), Err FinalEvaluationError) ->
  last_evaluation t = Some SInaccurate.
Proof.
  intros IF St EI EU M rf s rf' s' t Hf Hd H.
  apply C04_final_evaluation_error in H.
  - destruct H as (_ & [(t1 & x & ->)|(Hd2 & _)]); [|congruence].
    rewrite last_evaluation_app. reflexivity.
  - destruct Hf as (p & g & its & c & rf0 & Hn & Hf). unfold rootfinder_new in Hn.
    repeat (destruct (negb _) in Hn; [discriminate Hn|]). injection Hn as <-.
    destruct Hf as [->| ->]; reflexivity.
Qed.
Print Assumptions C04_final_evaluation_error_undamped.

(** A converged run whose last evaluation is inaccurate. *)
Example C04_case :
  check_run (solve (scripted_model 1 sq2 None (at_call 8 SInaccurate) always_ok)
      (sq2_fd 50 NewtonRaphson false) (scripted_init 1))
    (fun rf s r => is_final r && Nat.eqb (rf_iter rf) 4) = true.
Proof. vm_compute. reflexivity. Qed.

(** *** C06 *)

(** The loop of [solve] ends (its fuel is never exhausted), for every model whose
    own methods end. *)
Theorem C06_terminates :
  forall F (NF : Num F) (IF : Inverter F) St EI EU (M : Model F St EI EU) rf s,
  (forall s, evaluate M s <> Panic PanicFuel) ->
  (forall s, get_residuals M s <> Panic PanicFuel) ->
  (forall s, get_jacobian M s <> Panic PanicFuel) ->
  (forall it x, In it (rf_iters_params rf) -> it_compute_perturbation it x <> Panic PanicFuel) ->
  solve M rf s <> Panic PanicFuel.
Proof. intros. now apply solve_nofuel. Qed.
Print Assumptions C06_terminates.

(** The number of iterations of all the resolutions made with a solver object,
    whatever the models, is at most [max_iter]; the counter never goes back. *)
Lemma fresh_fields : forall F (NF : Num F) (IF : Inverter F) (rf : rootfinder F), fresh rf ->
  rf_iter rf = 0 /\ rf_jacobian rf = jacobian_matrix_new /\ rf_valid_last rf = true.
Proof.
  intros F NF IF rf (p & g & its & c & rf0 & Hn & Hf). unfold rootfinder_new in Hn.
  repeat (destruct (negb _) in Hn; [discriminate Hn|]). injection Hn as <-.
  destruct Hf as [->| ->]; repeat split.
Qed.

Theorem C06_iterations_bounded :
  forall F (NF : Num F) (IF : Inverter F) (rf rf' : rootfinder F),
  fresh rf -> history rf rf' ->
  rf_parameters rf' = rf_parameters rf /\ rf_iter rf' <= sp_max_iter (rf_parameters rf).
Proof.
  intros F NF IF rf rf' Hf H. destruct (fresh_fields F NF IF rf Hf) as (Hi & _ & _).
  induction H as [|rf rf' rf'' St EI EU M s s' r Hh IH Hs]; [split; [reflexivity|lia]|].
  destruct (IH Hf Hi) as (IH1 & IH2). apply solve_counter in Hs.
  destruct Hs as ((Hp & _) & H1 & H2). rewrite Hp. split; [exact IH1|].
  rewrite IH1 in H2. lia.
Qed.
Print Assumptions C06_iterations_bounded.

(** The model is updated at most [max_iter] times: besides the initial point and
    the perturbed points of the finite differences, a resolution that ends with
    a verdict evaluates exactly one proposed point per iteration and at most one
    damped point (see C10). *)

(** A run that uses its whole budget; every evaluation returns NaN or changes. *)
Example C06_case :
  check_run (solve (scripted_model 1 (constant [Fz 5]) (Some (fun _ => [[Fz 1]])) always_ok always_ok)
      (sample_rf (params6 1 7 NewtonRaphson false) [Fz 0] (jac_its 1) (abs_conf 1)) (scripted_init 1))
    (fun rf s r => is_nonconv r && Nat.eqb (rf_iter rf) 7) = true.
Proof. vm_compute. reflexivity. Qed.

(** *** C08 *)

(** The last two state-changing calls are [set_iteratives] and [evaluate]. *)
Theorem C08_left_evaluated :
  forall F (NF : Num F) (IF : Inverter F) St EI EU (M : Model F St EI EU) rf s t0 rf' s' t r,
  solve (traced M) rf (s, t0) = Ret (rf', (s', t), r) ->
  r = Ok tt \/ r = Err NonConvergenceError \/ r = Err FinalEvaluationError ->
  exists t1 x k, t = t1 ++ [ESet x; EEval k] /\ k <> SUnusable.
Proof.
  intros F NF IF St EI EU M rf s t0 rf' s' t r H Hr.
  apply solve_trace in H; [|exact Hr].
  destruct H as (k & Hk & _ & l & t1 & Ht & Hb & _). cbn [snd] in Ht. subst t.
  destruct l as [|y l].
  - inversion Hb as [|l2 ? ? ? ? ? El]; subst.
    + rewrite app_nil_r. eauto.
    + destruct l2; discriminate El.
  - apply iter_blocks_end in Hb; [|discriminate].
    destruct Hb as (x0 & l0 & t2 & x & _ & -> & Hx). rewrite app_assoc. eexists _, _, _.
    split; [reflexivity|]. destruct (sum_damped x0); [discriminate|exact Hx].
Qed.
Print Assumptions C08_left_evaluated.

(** Hence the final state of the model is the result of evaluating it at some
    point [x]. *)
Definition evaluated {F St EI EU} (M : Model F St EI EU) (s' : St) : Prop :=
  exists s0 x r0, evaluate M (set_iteratives M s0 x) = Ret (s', r0) /\
    status_of r0 <> SUnusable.

Section C08.
Context {F : Type} {NF : Num F} {IF : Inverter F} {St EI EU : Type} (M : Model F St EI EU).

Lemma not_unusable : forall A (r : result A (model_error EI EU)),
  (forall x, r <> Err (UnusableValuesError x)) -> status_of r <> SUnusable.
Proof. intros A [|[x|x]] H; try discriminate. elim (H x). reflexivity. Qed.

Lemma iteration_evaluated : forall rf s rf' s' e,
  iteration M rf s = Ret (rf', s', Ok e) -> evaluated M s'.
Proof.
  intros rf s rf' s' e H. apply iteration_inv in H. destruct H as (rf1 & s1 & r1 & _ & H).
  destruct r1 as [g|]; [|destruct H as (_ & _ & H); discriminate H].
  apply update_model_inv in H.
  destruct H as (e1 & s2 & r2 & _ & Hev & [(x & _ & _ & _ & Hr)|(en & _ & Hnu & Hf)]);
    [discriminate Hr|].
  apply finish_update_inv in Hf.
  destruct Hf as (_ & _ & _ & _ & [->|(_ & d & u & _ & Hd)]).
  - exists s1, g, r2. split; [exact Hev|]. now apply not_unusable.
  - exists s2, d, (Ok u). split; [exact Hd|discriminate].
Qed.
End C08.

Theorem C08_final_state_is_an_evaluation :
  forall F (NF : Num F) (IF : Inverter F) St EI EU (M : Model F St EI EU) rf s rf' s' r,
  solve M rf s = Ret (rf', s', r) ->
  r = Ok tt \/ r = Err NonConvergenceError \/ r = Err FinalEvaluationError ->
  evaluated M s'.
Proof.
  intros F NF IF St EI EU M rf s rf' s' r H Hr. apply solve_inv in H.
  destruct H as (s1 & r1 & Hev & [(x & -> & -> & -> & ->)|(Hnu & H)]);
    [destruct Hr as [Hr|[Hr|Hr]]; discriminate Hr|].
  apply solve_from_inv in H. destruct H as (e & rf1 & r2 & _ & _ & Hit & ->).
  apply (iterate_ind M (fun _ s _ => evaluated M s)) in Hit.
  - destruct r2 as [me|x]; [apply Hit|]. destruct Hit as (rf2 & s2 & _ & _ & _ & Hx).
    apply iteration_no_verdict in Hx. destruct Hx as (H1 & H2).
    destruct Hr as [Hr|[Hr|Hr]]; congruence.
  - intros. eapply iteration_evaluated; eauto.
  - exists s, (rf_initial_guess rf), r1. split; [exact Hev|]. now apply not_unusable.
Qed.
Print Assumptions C08_final_state_is_an_evaluation.

Example C08_case :
  check_run (solve (traced (model_from_function sq2)) (sq2_fd 50 broy1 true) (user_model_new 1, []))
    (fun rf p r => is_ok r && Nat.ltb 1 (rf_iter rf)
       && match rev (snd p) with EEval SOk :: ESet [_] :: _ => true | _ => false end) = true.
Proof. vm_compute. reflexivity. Qed.

(** *** C09 *)

(** A guess that is already a solution, or an exhausted budget, costs exactly one
    evaluation. *)
Theorem C09_zero_iterations :
  forall (IF : Inverter f64) St EI EU (M : Model f64 St EI EU) rf s s1 r v,
  rf_debug rf = false ->
  evaluate M (set_iteratives M s (rf_initial_guess rf)) = Ret (s1, r) ->
  (forall e, r <> Err (UnusableValuesError e)) ->
  get_residuals M s1 = Ret v ->
  described (stopping_criterias (rf_residuals_config rf)) v ->
  ((forall x, stopping_residual (stopping_criterias (rf_residuals_config rf)) v x ->
      nleb x (sp_tolerance (rf_parameters rf)) = true) /\
   nleb n0 (sp_tolerance (rf_parameters rf)) = true) \/
  sp_max_iter (rf_parameters rf) <= rf_iter rf ->
  exists r',
    solve M rf s = Ret (rf, s1, r') /\
    solve (traced M) rf (s, []) =
      Ret (rf, (s1, [ESet (rf_initial_guess rf); EEval (status_of r)]), r') /\
    (r' = Err NonConvergenceError \/ r' = if rf_valid_last rf then Ok tt else Err FinalEvaluationError) /\
    ((forall x, stopping_residual (stopping_criterias (rf_residuals_config rf)) v x ->
        nleb x (sp_tolerance (rf_parameters rf)) = true) ->
     nleb n0 (sp_tolerance (rf_parameters rf)) = true ->
     r' = if rf_valid_last rf then Ok tt else Err FinalEvaluationError).
Proof.
  intros IF St EI EU M rf s s1 r v Hd Hev Hnu Hv Hdes Hcase.
  assert (He : exists e, evaluate_stopping_residuals (rf_residuals_config rf) v = Ret e)
    by (destruct Hdes; now apply evaluate_residuals_ret).
  destruct He as (e & He).
  assert (Hle : (forall x, stopping_residual (stopping_criterias (rf_residuals_config rf)) v x ->
        nleb x (sp_tolerance (rf_parameters rf)) = true) ->
     nleb n0 (sp_tolerance (rf_parameters rf)) = true ->
     ngtb (amax e) (sp_tolerance (rf_parameters rf)) = false).
  { intros Hall H0.
    destruct (ngtb (amax e) _) eqn:Eg; [|reflexivity]. exfalso.
    apply (stopping_max _ _ _ (sp_tolerance (rf_parameters rf))) in He. destruct He as (He & _).
    assert (Hcontra : forall x, nleb x (sp_tolerance (rf_parameters rf)) = true ->
         nltb (sp_tolerance (rf_parameters rf)) x = true -> False).
      { intros x Hle Hlt. apply leb_true_inv in Hle. apply ltb_true_inv in Hlt.
        destruct Hle as (_ & _ & Hle), Hlt as (_ & _ & Hlt). apply Rlt_not_le in Hlt. contradiction. }
    destruct (He Eg) as [(x & Hx & Hlt)|Hlt]; [apply (Hcontra x); auto|apply (Hcontra n0); auto]. }
  assert (Hc : continues rf (amax e) = false).
  { unfold continues. destruct Hcase as [(Hall & H0)|Hm].
    - now rewrite (Hle Hall H0).
    - replace (Nat.ltb (rf_iter rf) (sp_max_iter (rf_parameters rf))) with false;
        [apply andb_false_r|]. symmetry. apply Nat.ltb_ge. exact Hm. }
  exists (verdict rf (amax e)).
  assert (Hs : solve M rf s = Ret (rf, s1, verdict rf (amax e))).
  { unfold solve. rewrite Hev. cbn [bind].
    assert (Hf : solve_from M rf s1 = Ret (rf, s1, verdict rf (amax e))).
    { unfold solve_from, evaluate_errors. rewrite Hv. cbn [bind]. rewrite He. cbn [bind].
      unfold when_debug. rewrite Hd. cbn [bind iterate]. unfold continues in Hc. rewrite Hc.
      reflexivity. }
    destruct r as [u|[x|x]]; [exact Hf|exact Hf|]. elim (Hnu x). reflexivity. }
  split; [exact Hs|]. unfold solve. cbn [evaluate set_iteratives traced fst snd]. rewrite Hev. cbn [bind app].
  assert (Hf : forall t, solve_from (traced M) rf (s1, t) = Ret (rf, (s1, t), verdict rf (amax e))).
  { intros t. unfold solve_from, evaluate_errors. cbn [get_residuals traced fst].
    rewrite Hv. cbn [bind]. rewrite He. cbn [bind].
    unfold when_debug. rewrite Hd. cbn [bind iterate]. unfold continues in Hc. rewrite Hc.
    reflexivity. }
  split; [destruct r as [u|[x|x]]; [apply Hf|apply Hf|]; elim (Hnu x); reflexivity|].
  unfold verdict. split.
  - destruct (ngtb _ _); auto.
  - intros Hall H0. now rewrite (Hle Hall H0).
Qed.
Print Assumptions C09_zero_iterations.

Example C09_case :
  check_run (solve (traced (model_from_function (constant [Fz 0])))
      (sq2_fd 50 NewtonRaphson false) (user_model_new 1, []))
    (fun rf p r => is_ok r && Nat.eqb (rf_iter rf) 0 && Nat.eqb (length (snd p)) 2) = true.
Proof. vm_compute. reflexivity. Qed.

(** *** C10 *)

(** The number of [evaluate] calls of a resolution of [k] iterations that ends
    with a verdict: [j] finite-difference jacobians and [d] damped steps. *)
Definition total_fd (l : list iter_summary) : nat :=
  length (filter (fun x => match sum_jac x with JFinite _ => true | _ => false end) l).
Definition total_damped (l : list iter_summary) : nat := length (filter sum_damped l).

Lemma total_fd_spec : forall St n (ck : St -> jac_kind) (Q : Prop) l,
  (forall s m, ck s = JFinite m -> m = n) ->
  Forall (fun x => (sum_jac x = JReused /\ Q) \/ exists s, sum_jac x = ck s) l ->
  total (fun x => fd_cost (sum_jac x)) l = n * total_fd l.
Proof.
  intros St n ck Q l Hck. unfold total_fd. induction 1 as [|x l Hx Hl IH]; cbn [total fold_right filter]; [cbn; lia|].
  fold (total (fun x => fd_cost (sum_jac x)) l).
  destruct (sum_jac x) as [| |m] eqn:E; cbn [fd_cost length]; [exact IH|exact IH|].
  replace m with n; [rewrite IH; lia|].
  destruct Hx as [(Hx & _)|(s & Hx)]; [discriminate Hx|].
  symmetry. apply (Hck s). auto.
Qed.
Lemma total_damped_spec : forall l,
  total (fun x => if sum_damped x then 1 else 0) l = total_damped l.
Proof.
  unfold total_damped. induction l as [|x l IH]; [reflexivity|]. cbn [total fold_right filter].
  fold (total (fun x => if sum_damped x then 1 else 0) l). rewrite IH. destruct (sum_damped x); reflexivity.
Qed.
Lemma filter_length : forall A (f : A -> bool) l, length (filter f l) <= length l.
Proof. induction l as [|x l IH]; cbn; [lia|]. destruct (f x); cbn; lia. Qed.
Lemma filter_all : forall A (f : A -> bool) l, Forall (fun x => f x = true) l -> length (filter f l) = length l.
Proof. induction 1 as [|x l Hx Hl IH]; cbn; [reflexivity|]. rewrite Hx. cbn. lia. Qed.
Lemma filter_none : forall A (f : A -> bool) l, Forall (fun x => f x = false) l -> length (filter f l) = 0.
Proof. induction 1 as [|x l Hx Hl IH]; cbn; [reflexivity|]. rewrite Hx. exact IH. Qed.

Theorem C10_evaluation_count :
  forall F (NF : Num F) (IF : Inverter F) St EI EU (M : Model F St EI EU) n rf s rf' s' t r,
  (forall s, len_problem M s = n) ->
  solve (traced M) rf (s, []) = Ret (rf', (s', t), r) ->
  r = Ok tt \/ r = Err NonConvergenceError \/ r = Err FinalEvaluationError ->
  exists k j d,
    rf_iter rf' = rf_iter rf + k /\
    evaluations t = 1 + k + n * j + d /\
    j <= k /\ d <= k /\
    (sp_damping (rf_parameters rf) = false -> d = 0) /\
    ((forall s, jacobian_provided M s = true) -> j = 0) /\
    ((forall s, jacobian_provided M s = false) ->
     sp_resolution_method (rf_parameters rf) = NewtonRaphson -> j = k).
Proof.
  intros F NF IF St EI EU M n rf s rf' s' t r Hn H Hr.
  apply solve_trace in H; [|exact Hr].
  destruct H as (k & Hk & _ & l & t1 & Ht & Hb & Hi & Hd & Hj & _). cbn [snd app] in Ht. subst t.
  apply iter_blocks_count in Hb. destruct Hb as (Hb & _).
  exists (length l), (total_fd l), (total_damped l).
  split; [exact Hi|]. split.
  { change (ESet (rf_initial_guess rf) :: EEval k :: t1) with ([ESet (rf_initial_guess rf); EEval k] ++ t1).
    rewrite evaluations_app, Hb. cbn [evaluations filter is_eval length].
    rewrite total_damped_spec. rewrite (total_fd_spec St n (computed_kind M) _ l) by
      (try eassumption; intros s0 m Hm; unfold computed_kind in Hm; rewrite Hn in Hm;
       destruct (jacobian_provided M s0); congruence).
    change (evaluations [ESet (rf_initial_guess rf); EEval k]) with 1. lia. }
  split; [apply filter_length|]. split; [apply filter_length|]. split; [|split].
  - intros Hd0. apply filter_none. eapply Forall_impl; [|exact Hd]. cbn. intros x Hx.
    destruct (sum_damped x); [|reflexivity]. rewrite Hx in Hd0 by reflexivity. discriminate Hd0.
  - intros Hp. apply filter_none. eapply Forall_impl; [|exact Hj]. cbn.
    intros x [(-> & _)|(s0 & ->)]; [reflexivity|]. unfold computed_kind. now rewrite Hp.
  - intros Hp Hm. apply filter_all. eapply Forall_impl; [|exact Hj]. cbn.
    intros x [(_ & Hx)|(s0 & ->)]; [rewrite Hm in Hx; discriminate Hx|].
    unfold computed_kind. now rewrite Hp.
Qed.
Print Assumptions C10_evaluation_count.

(** Four Newton iterations with finite differences in dimension 2. *)
Example C10_case :
  check_run (solve (traced (model_from_function sq2))
      (sample_rf (params6 2 50 NewtonRaphson false) [Fz 1; Fz 1] (fd_its 2) (abs_conf 2))
      (user_model_new 2, []))
    (fun rf p r => is_ok r && Nat.eqb (rf_iter rf) 4 && Nat.eqb (evaluations (snd p)) 13) = true.
Proof. vm_compute. reflexivity. Qed.

(** *** C11 *)

(** An unusable evaluation at the initial guess ends the resolution at once. *)
Theorem C11_unusable_initial_evaluation :
  forall F (NF : Num F) (IF : Inverter F) St EI EU (M : Model F St EI EU) rf s s1 e,
  evaluate M (set_iteratives M s (rf_initial_guess rf)) = Ret (s1, Err (UnusableValuesError e)) ->
  solve M rf s = Ret (rf, s1, Err (ModelInitialEvaluationError (show_unusable M e))) /\
  solve (traced M) rf (s, []) =
    Ret (rf, (s1, [ESet (rf_initial_guess rf); EEval SUnusable]),
         Err (ModelInitialEvaluationError (show_unusable M e))).
Proof.
  intros F NF IF St EI EU M rf s s1 e H. split.
  - unfold solve. rewrite H. reflexivity.
  - unfold solve. cbn [evaluate set_iteratives traced fst snd]. rewrite H. reflexivity.
Qed.
Print Assumptions C11_unusable_initial_evaluation.

(** That error is returned in no other case. *)
Theorem C11_only_then :
  forall F (NF : Num F) (IF : Inverter F) St EI EU (M : Model F St EI EU) rf s rf' s' text,
  solve M rf s = Ret (rf', s', Err (ModelInitialEvaluationError text)) ->
  exists e, evaluate M (set_iteratives M s (rf_initial_guess rf)) = Ret (s', Err (UnusableValuesError e)) /\
    text = show_unusable M e /\ rf' = rf.
Proof.
  intros F NF IF St EI EU M rf s rf' s' text H. apply solve_inv in H.
  destruct H as (s1 & r1 & Hev & [(x & -> & -> & -> & Hr)|(_ & H)]).
  { injection Hr as ->. eauto. }
  exfalso. apply solve_from_inv in H. destruct H as (e & rf1 & r2 & _ & _ & Hit & Hr).
  apply (iterate_ind M (fun _ _ _ => True)) in Hit; [|trivial|trivial].
  destruct r2 as [me|x].
  - unfold verdict in Hr. destruct (ngtb _ _); [discriminate Hr|].
    destruct (rf_valid_last rf'); discriminate Hr.
  - injection Hr as <-. destruct Hit as (rf2 & s2 & _ & _ & _ & Hx).
    apply iteration_inv in Hx. destruct Hx as (rf3 & s3 & r3 & _ & Hx). destruct r3 as [g|].
    + apply update_model_inv in Hx.
      destruct Hx as (_ & _ & _ & _ & _ & [(y & _ & _ & _ & Hy)|(en & Hy & _)]); discriminate Hy.
    + destruct Hx as (_ & _ & Hy). discriminate Hy.
Qed.
Print Assumptions C11_only_then.

(** An inaccurate evaluation there changes nothing: the resolution is the one of
    the model whose first evaluation is reported valid (see also C13). *)
Theorem C11_inaccurate_initial_evaluation :
  forall F (NF : Num F) (IF : Inverter F) St EI EU (M : Model F St EI EU) rf s s1 r,
  evaluate M (set_iteratives M s (rf_initial_guess rf)) = Ret (s1, r) ->
  (forall e, r <> Err (UnusableValuesError e)) ->
  solve M rf s = solve_from M rf s1.
Proof.
  intros F NF IF St EI EU M rf s s1 r H Hr. unfold solve. rewrite H.
  destruct r as [u|[x|x]]; [reflexivity|reflexivity|]. elim (Hr x). reflexivity.
Qed.

Example C11_case :
  check_run (solve (scripted_model 1 sq2 None (at_call 0 SUnusable) always_ok)
      (sq2_fd 50 NewtonRaphson false) (scripted_init 1))
    (fun rf s r => match r with Err (ModelInitialEvaluationError "unusable") => true | _ => false end
       && Nat.eqb (sc_evals s) 1) = true.
Proof. vm_compute. reflexivity. Qed.

(** *** C12 *)

(** The documented behaviour: an unusable evaluation during the iterations does
    not end the resolution with an error. *)
Definition C12_statement : Prop :=
  forall (IF : Inverter f64) St EI EU (M : Model f64 St EI EU) rf s rf' s' e,
  fresh rf -> solve M rf s <> Ret (rf', s', Err (ModelEvaluationError (UnusableValuesError e))).

Theorem C12_unusable_recovered_refuted : ~ C12_statement.
Proof.
  intros H.
  assert (H1 : check_run (solve (scripted_model 1 sq2 None (at_call 2 SUnusable) always_ok)
      (sq2_fd 50 NewtonRaphson false) (scripted_init 1))
      (fun rf s r => match r with
         | Err (ModelEvaluationError (UnusableValuesError "unusable"%string)) => true
         | _ => false end) = true) by (vm_compute; reflexivity).
  apply check_run_true in H1. destruct H1 as (rf' & s' & r & H1 & H2).
  destruct r as [|[| | [|e] | |]]; try discriminate H2.
  apply H in H1; [exact H1|]. apply sample_fresh; reflexivity.
Qed.
Print Assumptions C12_unusable_recovered_refuted.

(** What happens instead: an unusable evaluation or jacobian is always the last
    call made, and is reported by one of three errors; these errors are returned
    in no other case. *)
Theorem C12_unusable_aborts :
  forall F (NF : Num F) (IF : Inverter F) St EI EU (M : Model F St EI EU) rf s rf' s' t r,
  solve (traced M) rf (s, []) = Ret (rf', (s', t), r) ->
  let reported :=
    (exists x, r = Err (ModelInitialEvaluationError x)) \/
    (exists e, r = Err (ModelEvaluationError (UnusableValuesError e))) \/
    (exists e, r = Err (JacobianError (InvalidJacobianError (UnusableValuesError e)))) in
  (In (EEval SUnusable) t \/ In (EJac SUnusable) t <-> reported) /\
  (reported -> exists t1 e, t = t1 ++ [e] /\ (e = EEval SUnusable \/ e = EJac SUnusable) /\
     ~ In (EEval SUnusable) t1 /\ ~ In (EJac SUnusable) t1).
Proof.
  intros F NF IF St EI EU M rf s rf' s' t r H reported. apply solve_ext in H.
  destruct H as (s1 & t1 & Hp & He). injection Hp as <- ->. cbn [app].
  assert (Hclean : forall u, clean u -> ~ In (EEval SUnusable) u /\ ~ In (@EJac F SUnusable) u).
  { intros u Hu. split; intros Hin; apply Hu in Hin; discriminate Hin. }
  destruct He as [(Hc & Hn)|(Hb & t2 & e & -> & Hc & Hu)].
  - apply Hclean in Hc. split; [split; [intros [Hx|Hx]; exfalso; now apply Hc|]|];
      intros Hx; elim (Hn Hx).
  - apply Hclean in Hc.
    assert (Hx : e = EEval SUnusable \/ e = EJac SUnusable)
      by (destruct e as [|[]|[]|]; try discriminate Hu; auto).
    split; [split; [intros _; exact Hb|]|].
    + intros _. destruct Hx as [->| ->]; [left|right]; apply in_or_app; right; left; reflexivity.
    + intros _. exists t2, e. tauto.
Qed.
Print Assumptions C12_unusable_aborts.

(** *** C14 *)

(** The full statement, for models whose methods do not panic. *)
Definition C14_statement : Prop :=
  forall (IF : Inverter f64) St EI EU (M : Model f64 St EI EU) rf s p,
  fresh rf ->
  (forall s p, evaluate M s <> Panic p) -> (forall s p, get_residuals M s <> Panic p) ->
  (forall s p, get_jacobian M s <> Panic p) ->
  solve M rf s <> Panic p.

(** An inaccurate analytical jacobian makes [solve] panic (the inverse was not
    computed), and so does an inaccurate evaluation of a damped point. *)
Theorem C14_inaccurate_is_recoverable_refuted :
  ~ C14_statement /\
  solve (scripted_model 1 sq2 (Some (fun _ => [[Fz 2]])) always_ok (at_call 0 SInaccurate))
    (sq2_an 50 NewtonRaphson false) (scripted_init 1) = Panic PanicUnwrapNone /\
  solve (scripted_model 1 C04_fun (Some (fun _ => [[Fz (-1)]])) (at_call 2 SInaccurate) always_ok)
    C04_rf (scripted_init 1) = Panic PanicUnwrapErr.
Proof.
  assert (H1 : solve (scripted_model 1 sq2 (Some (fun _ => [[Fz 2]])) always_ok (at_call 0 SInaccurate))
    (sq2_an 50 NewtonRaphson false) (scripted_init 1) = Panic PanicUnwrapNone)
    by (vm_compute; reflexivity).
  split; [|split; [exact H1|vm_compute; reflexivity]].
  intros H. revert H1. apply H.
  - apply sample_fresh; reflexivity.
  - intros; discriminate.
  - intros s p. cbn. unfold residuals_values_new, vzeros. rewrite repeat_length, Nat.eqb_refl. discriminate.
  - intros s p. cbn. discriminate.
Qed.
Print Assumptions C14_inaccurate_is_recoverable_refuted.

(** The two panics are systematic, in every state of the solver and of the model. *)
Theorem C14_inaccurate_jacobian_panics :
  forall F (NF : Num F) (IF : Inverter F) St EI EU (M : Model F St EI EU) rf s s1 v e,
  sp_resolution_method (rf_parameters rf) = NewtonRaphson ->
  rf_debug rf = false ->
  jacobian_provided M s = true ->
  get_residuals M s = Ret v ->
  get_jacobian M s = Ret (s1, Err (InaccurateValuesError e)) ->
  (exists v1, get_residuals M s1 = Ret v1 /\ described (update_methods (rf_residuals_config rf)) v1) ->
  iteration M rf s = Panic PanicUnwrapNone.
Proof.
  intros F NF IF St EI EU M rf s s1 v e Hm Hd Hp Hv Hj (v1 & Hv1 & Hdes).
  unfold iteration, compute_step. cbn [rf_parameters set_iter]. rewrite Hm.
  unfold compute_newton_raphson_step, compute_jac. rewrite Hp.
  unfold evaluate_jacobian_from_analytical_function. rewrite Hv. cbn [bind]. rewrite Hj. cbn [bind].
  unfold when_debug. cbn [rf_debug set_jacobian set_iter]. rewrite Hd. cbn [bind].
  unfold compute_next_from_inv_jac. rewrite Hv1. cbn [bind rf_residuals_config set_jacobian set_iter].
  destruct (evaluate_residuals_ret normalization (update_methods (rf_residuals_config rf))
     (rv_left v1) (rv_right v1)) as (u & Hu); [apply Hdes|apply Hdes|].
  unfold evaluate_update_residuals. rewrite Hu. reflexivity.
Qed.
Print Assumptions C14_inaccurate_jacobian_panics.
