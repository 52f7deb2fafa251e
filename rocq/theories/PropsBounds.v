(** C91: the bounds of the variables and the result of [solve]. *)
From Coq Require Import Reals Lra.
From Flocq Require Import Core BinarySingleNaN.
From Verif Require Import Base Num Linalg Residuals Iteratives UserModel Jacobian Solver Trace
  F64 F64Facts F64Arith Tactics FlowFacts FlagFacts Samples Fresh Reach StepFacts PropsLimits PropsStep PropsNorm
  PropsRun VerdictFacts.
Open Scope nat_scope.

(** As one would expect from [min_value] and [max_value]: the point that is
    reported as the solution lies within them. *)
Definition C91_statement : Prop :=
  forall St EI EU (M : Model f64 St EI EU) rf s rf' s' ps,
  keeps_iteratives M -> limits_of (rf_iters_params rf) ps -> Forall accepted ps ->
  in_box ps (rf_initial_guess rf) -> solve M rf s = Ret (rf', s', Ok tt) ->
  in_box ps (get_iteratives M s').

(** A root of this function is 3/2; it is -1 at 1 and 1/2 at 2. *)
Definition hill (x : vec f64) : vec f64 :=
  map (fun a => nmul (nsub a (ndiv (Fz 3) (Fz 2))) (nsub (Fz 3) a)) x.
(** At most 1, with the perturbation 1. *)
Definition C91_params : iterative_params_fd f64 :=
  mkIterativeParamsFD (mkIterativeParams ninf ninf (Fz (-100)) (Fz 1)) PMax (Fz 1) (Fz 1).
Definition C91_model := scripted_model 1 hill None always_ok always_ok.
Definition C91_rf : rootfinder f64 :=
  sample_rf (params6 1 50 NewtonRaphson true) [Fz 1] [iterative_of_params_fd C91_params] (abs_conf 1).

(** From 1 the step leads to 1 again (the bound), where the error is larger than
    at the last perturbed point 2: the solver goes half the way between the two,
    to 3/2, which solves the equation. *)
Lemma C91_run : check_run (solve C91_model C91_rf (scripted_init 1))
  (fun rf s r => is_ok r && Nat.eqb (rf_iter rf) 1 &&
     match sc_x s with [a] => neqb a (ndiv (Fz 3) (Fz 2)) && nltb (Fz 1) a | _ => false end) = true.
Proof. vm_compute. reflexivity. Qed.

Theorem C91_refuted : ~ C91_statement.
Proof.
  intros H; pose proof C91_run as W; apply check_run_true in W.
  destruct W as (rf' & s' & r & E & W).
  rewrite !andb_true_iff in W; destruct W as [[W0 _] W].
  destruct r as [[]|]; [|discriminate W0].
  destruct (sc_x s') as [|a [|]] eqn:Xs; try discriminate W.
  rewrite andb_true_iff in W; destruct W as [_ W].
  assert (G : get_iteratives C91_model s' = [a]) by exact Xs.
  assert (A : accepted (fd_params C91_params)) by (repeat split).
  specialize (H _ _ _ C91_model C91_rf (scripted_init 1) rf' s' [fd_params C91_params] (scripted_keeps _ _ _ _ _)
    ltac:(right; exists [C91_params]; split; reflexivity) (Forall_cons _ A (Forall_nil _))).
  rewrite G in H.
  assert (B : in_box [fd_params C91_params] (rf_initial_guess C91_rf)).
  { intros [|[|i]] p v Hp Hv; try discriminate Hp; injection Hp as <-; injection Hv as <-.
    split; vm_compute; reflexivity. }
  destruct (H B E 0 _ a eq_refl eq_refl) as [_ Q].
  apply leb_true_inv in Q; apply ltb_true_inv in W; cbn [max_value fd_params C91_params] in Q; lra.
Qed.
Print Assumptions C91_refuted.

Section Bounds.
Context {IF : Inverter f64} {St EI EU : Type} (M : Model f64 St EI EU) (K : keeps_iteratives M).

Lemma result_head rf s rf' s' r : solve M rf s = Ret (rf', s', r) ->
  r = Ok tt \/ r = Err NonConvergenceError \/ r = Err FinalEvaluationError ->
  exists me, loop_head M rf s rf' s' me.
Proof.
  intros H Hr; destruct (solve_heads _ _ _ _ _ _ H)
    as [(x & -> & _ & _)|[(me & Hh & _)|(rf1 & s1 & me & x & _ & _ & Hit & ->)]].
  - destruct Hr as [Hr|[Hr|Hr]]; discriminate Hr.
  - exists me; exact Hh.
  - apply iteration_no_verdict in Hit; destruct Hit as (H1 & H2).
    destruct Hr as [Hr|[Hr|Hr]]; congruence.
Qed.

(** Without damping every iterate, hence the result, is within the bounds:
    analytical jacobians and finite differences, all methods. *)
Theorem C91_undamped rf s rf' s' r ps :
  sp_damping (rf_parameters rf) = false -> limits_of (rf_iters_params rf) ps -> Forall accepted ps ->
  in_box ps (rf_initial_guess rf) -> solve M rf s = Ret (rf', s', r) ->
  r = Ok tt \/ r = Err NonConvergenceError \/ r = Err FinalEvaluationError ->
  in_box ps (get_iteratives M s').
Proof.
  intros D L A B H Hr; destruct (result_head _ _ _ _ _ H Hr) as [me Hh].
  exact (C65_box M K rf s rf' s' me ps D L A B Hh).
Qed.

Lemma damped_inside rf0 s0 rf s me ps :
  (forall s, jacobian_provided M s = true) -> limits_of (rf_iters_params rf0) ps -> Forall accepted ps ->
  bounds_halvable ps -> in_box ps (rf_initial_guess rf0) -> loop_head M rf0 s0 rf s me ->
  in_box ps (get_iteratives M s).
Proof.
  intros P L A Hv B H; induction H as [s r e rf E U _ _|rf s me rf1 s1 e H IH C I].
  - rewrite (ki_evaluate M K _ _ _ _ E); exact B.
  - apply iteration_full in I.
    destruct I as (rf2 & s2 & g & s3 & r3 & e0 & e1 & S1 & _ & _ & E2 & _ & _ & G & _).
    assert (Bg : in_box ps g).
    { eapply C18_proposed_iterate_in_box; [exact L|apply ordered_accepted, A|exact H|exact S1]. }
    pose proof (analytic_step_point M K _ _ _ _ _ (P s) S1) as X.
    match type of G with (if ?b then _ else _) => destruct b end.
    + destruct G as (dd & u & Gd & Ge & _); rewrite X in Gd.
      rewrite (ki_evaluate M K _ _ _ _ Ge).
      exact (damped_box ps _ _ _ Hv IH Bg Gd).
    + destruct G as [-> _]; rewrite (ki_evaluate M K _ _ _ _ E2); exact Bg.
Qed.

(** With damping and an analytical jacobian, when the bounds can be halved. *)
Theorem C91_damped rf s rf' s' r ps :
  (forall s, jacobian_provided M s = true) -> limits_of (rf_iters_params rf) ps -> Forall accepted ps ->
  bounds_halvable ps -> in_box ps (rf_initial_guess rf) -> solve M rf s = Ret (rf', s', r) ->
  r = Ok tt \/ r = Err NonConvergenceError \/ r = Err FinalEvaluationError ->
  in_box ps (get_iteratives M s').
Proof.
  intros P L A Hv B H Hr; destruct (result_head _ _ _ _ _ H Hr) as [me Hh].
  exact (damped_inside rf s rf' s' me ps P L A Hv B Hh).
Qed.
End Bounds.
Print Assumptions C91_undamped.
Print Assumptions C91_damped.

(** A damped run of [x^2 = 2] from 1/8 for a variable that must not be negative,
    without a maximum: the first step is halved. *)
Definition C91_positive : iterative_params f64 := mkIterativeParams ninf ninf (Fz 0) ninf.
Example C91_case :
  Forall accepted [C91_positive] /\ bounds_halvable [C91_positive] /\
  check_run (solve (traced (scripted_model 1 sq2 (Some sq2_jac) always_ok always_ok))
      (sample_rf (params6 1 50 NewtonRaphson true) [ndec 1 8] [iterative_of_params C91_positive] (abs_conf 1))
      (scripted_init 1, []))
    (fun rf p r => is_ok r &&
       match points (snd p) with
       | _ :: [a] :: [b] :: _ => neqb a (ndec 129 16) && neqb b (ndec 131 32)
       | _ => false
       end) = true.
Proof.
  split; [repeat constructor|]; split.
  - constructor; [|constructor]; split; [left|split; [right; reflexivity|left]];
      (apply C39_halvable; [reflexivity|left; reflexivity]).
  - vm_compute; reflexivity.
Qed.
