(** C76: does the damping keep the errors from increasing? *)
From Verif Require Import Base Num Linalg Residuals Iteratives UserModel Jacobian Solver
  F64 F64Facts Tactics FlowFacts FlagFacts Trace TraceFacts Spec Fresh
  Samples Reach StepFacts PropsVerdict PropsIteration PropsLimits.

(** With damping, the largest error of an iterate never exceeds that of the
    iterate before. *)
Definition C76_statement : Prop :=
  forall func jac rf0 s0 rf s me rf1 s1 e,
  let M := model_from_function_and_jacobian (func : vec f64 -> vec f64) jac in
  fresh rf0 -> sp_resolution_method (rf_parameters rf0) = NewtonRaphson ->
  sp_damping (rf_parameters rf0) = true ->
  loop_head M rf0 s0 rf s me ->
  iteration M rf s = Ret (rf1, s1, Ok e) ->
  ngtb (amax e) me = false.

(** False: the step is halved once and the errors are not compared again. For
    x^2 = 2 from 1/100 the first iterate is about 50, where x^2 - 2 is above
    2000. *)
Theorem C76_errors_never_increase_refuted : ~ C76_statement.
Proof.
  intros H.
  set (rf0 := sample_rf (params6 1 50 NewtonRaphson true) [ndec 1 100] (jac_its 1) (abs_conf 1)).
  assert (C : check_iteration (model_from_function_and_jacobian sq2 sq2_jac) rf0 (user_model_new 1) 0
    (fun _ _ me _ _ e => ngtb (amax e) me && nltb me (Fz 2) && nltb (Fz 2000) (amax e)) = true)
    by (vm_compute; reflexivity).
  apply check_iteration_true in C.
  destruct C as (rf & s & me & rf1 & s1 & e & Hl & _ & Hi & Hp).
  apply andb_prop in Hp. destruct Hp as (Hp & _). apply andb_prop in Hp. destruct Hp as (Hp & _).
  rewrite (H sq2 sq2_jac rf0 (user_model_new 1) rf s me rf1 s1 e) in Hp;
    [discriminate Hp|apply sample_fresh; reflexivity|reflexivity|reflexivity|exact Hl|exact Hi].
Qed.
Print Assumptions C76_errors_never_increase_refuted.

(** What holds, for every model whose jacobian is analytical and whose function
    [get_jacobian] leaves the state alone: when the
    largest error increases, it increased at the proposed point [x] too, and the
    new iterate is the middle of the current and the proposed points. *)
Theorem C76_increase_partial :
  forall (IF : Inverter f64) St EI EU (M : Model f64 St EI EU)
    rf0 s0 rf s t me rf' s' t' e,
  (forall s, jacobian_provided M s = true) ->
  (forall s s' r, get_jacobian M s = Ret (s', r) -> s' = s) ->
  sp_resolution_method (rf_parameters rf0) = NewtonRaphson ->
  sp_damping (rf_parameters rf0) = true ->
  loop_head (traced M) rf0 s0 rf (s, t) me ->
  iteration (traced M) rf (s, t) = Ret (rf', (s', t'), Ok e) ->
  ngtb (amax e) me = true ->
  exists x s2 r2 v1 e1 d u,
    evaluate M (set_iteratives M s x) = Ret (s2, r2) /\
    get_residuals M s2 = Ret v1 /\
    evaluate_stopping_residuals (rf_residuals_config rf0) v1 = Ret e1 /\
    ngtb (amax e1) me = true /\
    halfway (get_iteratives M s) x d /\
    evaluate M (set_iteratives M s2 d) = Ret (s', Ok u).
Proof.
  intros IF St EI EU M rf0 s0 rf s t me rf' s' t' e HP HJ HM HD Hl Hi Hinc.
  assert (Hc := loop_head_config _ _ _ _ _ _ Hl). destruct Hc as (Hp & _ & _ & Hrc & _).
  destruct (loop_head_error _ _ _ _ _ _ Hl) as (e0' & He0 & ->).
  apply (iteration_full (traced M)) in Hi.
  destruct Hi as (rf1 & [s1 t1] & g & [s2 t2] & r2 & e0 & e1 & Hs & _ & H0 & He & Hr2 & H1 & Hd & _).
  apply (analytic_compute_step M HP) in Hs.
  destruct Hs as (sx & b & [= <- ->] & _ & Hsx).
  assert (s1 = s) by (destruct Hsx as [->|(r & Hsx)]; [reflexivity|eapply HJ; exact Hsx]). subst s1.
  assert (E0 : e0' = e0).
  { unfold evaluate_errors in He0, H0. cbn [traced get_residuals fst] in He0, H0.
    rewrite Hrc in H0. congruence. }
  subst e0'.
  apply traced_set_eval_inv in He. destruct He as (s3 & He & [= -> ->]).
  rewrite Hp, HM, HD in Hd. cbn [is_quasi_newton andb negb] in Hd.
  rewrite Bool.andb_true_r in Hd.
  destruct (ngtb (amax e1) (amax e0)) eqn:G.
  - destruct Hd as (d & u & Hd & Hev & _). apply traced_set_eval_inv in Hev.
    destruct Hev as (s4 & Hev & [= -> _]).
    unfold evaluate_errors in H1. cbn [traced get_residuals fst] in H1.
    destruct (get_residuals M s3) as [v1|] eqn:Ev; [|discriminate H1]. cbn [bind] in H1.
    rewrite Hrc in H1. exists g, s3, r2, v1, e1, d, u.
    repeat split; try assumption; apply damped_halfway in Hd; apply Hd.
  - destruct Hd as (_ & ->). congruence.
Qed.
Print Assumptions C76_increase_partial.

(** The increase of the refutation is one of those. *)
Example C76_case :
  let rf0 := sample_rf (params6 1 50 NewtonRaphson true) [ndec 1 100] (jac_its 1) (abs_conf 1) in
  check_iteration (traced (model_from_function_and_jacobian sq2 sq2_jac)) rf0 (user_model_new 1, []) 0
    (fun _ p me _ p1 e => ngtb (amax e) me &&
       Nat.eqb (evaluations (snd p1)) (2 + evaluations (snd p))) = true.
Proof. vm_compute. reflexivity. Qed.
