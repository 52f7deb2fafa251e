(** Concrete cases of the theorems on exact arithmetic (C27, C29, C30, C56, C62)
    and what rounding does to C27. *)
From Coq Require Import Reals Lra.
From Verif Require Import Base Num Linalg Residuals Iteratives UserModel Jacobian Solver
  RNum LuFacts XR PropsQuasi PropsFD ExactFacts ExactRun PropsExact Util1d Props1d F64 F64Facts Samples.
Open Scope R_scope.

(** ** C27: one step on x^2 - 2 from 1 *)
Definition quad (a : R) : R := a * a - 2.
Definition quad_state : user_model XR :=
  mkUserModel [Fin 1] [Fin (-1)] [Fin 0] 1.

(** Finite differences with the perturbation 1: the slope is
    (2^2 - 2) - (1 - 2) = 3, the next point 1 + 1/3. *)
Definition quad_rf (its : list (iterative XR)) : rootfinder XR :=
  mkRootFinder (mkSolverParameters 1 (Fin 0) 10 NewtonRaphson false) [Fin 1]
    its (all_abs 1) false 0 None jacobian_matrix_new None None None true.

Lemma quad_at (M : Model XR (user_model XR) Empty_set Empty_set) :
  get_iteratives M = um_inputs -> get_residuals M = um_get_residuals ->
  at_point M 1 (adapter_good 1) (fun _ => True) (one_dim quad) (fun _ => vzeros 1) [1] quad_state.
Proof.
  intros E1 E2; unfold at_point; rewrite E1, E2; repeat split; cbn; unfold quad.
  repeat f_equal; lra.
Qed.

Example C27_case : exists rf' s',
  compute_step (model_from_function (vector_of quad)) (quad_rf [constant_step 1]) quad_state
  = Ret (rf', s', Ok [Fin (1 + / 3)]).
Proof.
  assert (FP := adapter_problem 1 (fun _ => True) (vector_of quad) (one_dim quad)
                  (fun x _ => one_dim_lift quad x) default_jacobian_provided
                  (default_get_jacobian um_inputs)).
  assert (WB := abs_well_behaved _ 1 _ _ _ _ FP).
  assert (HA := quad_at (model_from_function (vector_of quad)) eq_refl eq_refl).
  assert (P : perturbed_by 1 (fun _ => True) [constant_step 1] [1] [1]).
  { split; [reflexivity|]; split; [reflexivity|]; split.
    - intros [|j] Hj; [apply R1_neq_R0|lia].
    - intros j Hj; exact I. }
  destruct (step_at _ _ _ _ _ _ _ _ _ WB (quad_rf [constant_step 1]) [1] quad_state
    (fd_matrix 1 (residuals_of (one_dim quad) (fun _ => vzeros 1)) [1] [1]) [1 + 1])
    as (s1 & _ & S1); try reflexivity.
  - constructor; [intros v w; apply default_unlimited|constructor].
  - left; reflexivity.
  - exact HA.
  - right; exists [1]; split; [reflexivity|]; split; [exact P|]; split; reflexivity.
  - assert (EJ : fd_matrix 1 (residuals_of (one_dim quad) (fun _ => vzeros 1)) [1] [1] = [[3]]).
    { apply (mat_ext _ _ 1); [apply fd_matrix_is_mat|split; [reflexivity|]|].
      - intros [|i] Hi; [reflexivity|lia].
      - intros [|i] [|j] Hi Hj; try lia; unfold fd_matrix, fd_column; cbn [seq map].
        assert (ES : shift [1] 0 (vent [1] 0) = [1 + 1]) by reflexivity.
        rewrite ES, !residuals_1; cbn; unfold quad; lra. }
    rewrite EJ, lu_inverse_1 in S1; destruct (Reqb 3 0) eqn:Z; [apply Reqb_true in Z; lra|].
    destruct S1 as (_ & _ & _ & _ & S1); eexists; exists s1; eapply eq_trans; [exact S1|]; do 3 f_equal.
    unfold newton_point; rewrite residuals_1; unfold quad; cbn; do 2 f_equal; lra.
Qed.

(** ** C29 and C30: 2 x + y = 3, x + y = 2 from (0, 0) *)
Definition sys_A : mat R := [[2; 1]; [1; 1]].
Definition sys_b : vec R := [3; 2].

Lemma sys_square : square 2 sys_A.
Proof. split; [reflexivity|]; intros [|[|i]] Hi; [reflexivity|reflexivity|lia]. Qed.
Lemma sys_regular : ~ singular 2 sys_A.
Proof.
  intros (x & Lx & (i & Hi & Nz) & H).
  assert (H0 := H 0%nat ltac:(lia)); assert (H1 := H 1%nat ltac:(lia)).
  destruct x as [|a [|b [|]]]; try discriminate Lx.
  unfold app in H0, H1; cbn in H0, H1, Nz.
  destruct i as [|[|i]]; [| |lia]; cbn in Nz; lra.
Qed.

Example C29_case : exists s',
  compute_jacobian_from_finite_difference (model_from_function (affine_fun sys_A sys_b))
    (mkUserModel [Fin 0; Fin 0] [Fin (-3); Fin (-2)] [Fin 0; Fin 0] 2)
    [Fin 5; Fin (-7)] (all_abs 2)
  = Ret (s', Ok [[Fin 2; Fin 1]; [Fin 1; Fin 1]]).
Proof.
  assert (FP := adapter_problem 2 (fun _ => True) (affine_fun sys_A sys_b)
    (fun x => vsub_raw (mat_vec sys_A x) sys_b)
    (fun x _ Lx => affine_fun_lift 2 sys_A sys_b x sys_square eq_refl Lx)
    default_jacobian_provided (default_get_jacobian um_inputs)).
  apply (C29_affine _ 2 _ _ _ sys_A sys_b FP (affine_fun_affine 2 sys_A sys_b sys_square eq_refl)
    sys_square [0; 0] [5; -7]).
  - repeat split; cbn; repeat f_equal; lra.
  - reflexivity.
  - intros [|[|j]] Hj; cbn; lra || lia.
Qed.

(** Broyden's method with damping and finite differences. *)
Example C30_case : exists rf rf' s' x y,
  rootfinder_new (mkSolverParameters 2 (Fin 0) 10
    (QuasiNewton (JacobianUpdate BroydenFirstMethod)) true) [Fin 0; Fin 0]
    (fd_iteratives 2) (all_abs 2) = Ret rf /\
  solve (model_from_function (affine_fun sys_A sys_b)) rf (user_model_new 2) = Ret (rf', s', Ok tt) /\
  um_inputs s' = [Fin x; Fin y] /\ rf_iter rf' = 1%nat /\ x = 1 /\ y = 1.
Proof.
  eexists.
  edestruct (C30_solved_in_one_iteration 2 sys_A sys_b [0; 0] 0 10
    (QuasiNewton (JacobianUpdate BroydenFirstMethod)) true) as [_ S];
    [exact sys_square|exact sys_regular|reflexivity|reflexivity|lra|lia|].
  edestruct S as [(rf' & s' & x & S1 & S2 & Lx & S3) _]; [reflexivity|].
  destruct x as [|a [|b [|]]]; try discriminate Lx.
  exists rf', s', a, b; split; [reflexivity|]; split; [exact S1|]; split; [exact S2|].
  destruct S3 as [(_ & _ & S3)|[S3 S4]].
  - exfalso; specialize (S3 0%nat ltac:(lia)); unfold app in S3; cbn in S3.
    assert (Rabs (2 * 0 + (1 * 0 + 0) - 3) = 3); [|].
    { replace (2 * 0 + (1 * 0 + 0) - 3) with (- (3)) by lra; rewrite Rabs_Ropp; apply Rabs_pos_eq; lra. }
    lra.
  - assert (H0 := S4 0%nat ltac:(lia)); assert (H1 := S4 1%nat ltac:(lia)).
    unfold app in H0, H1; cbn in H0, H1; split; [exact S3|]; lra.
Qed.

(** ** C56 and C62 on x^2 - 2: both sides move from 1 to 3/2 *)
Definition quad_deriv (a : R) : R := 2 * a.

Example C56_case : solver1d (Fin 1) (on_finite quad) (on_finite quad_deriv) 1 (Fin (/ 10)) = Fin (3 / 2)
  /\ exists rf rf' s',
  rootfinder_new (mkSolverParameters 1 (Fin (/ 10)) 1 NewtonRaphson false) [Fin 1]
    (jac_iteratives 1) (all_abs 1) = Ret rf /\
  solve (model_from_function_and_jacobian (vector_of quad) (matrix_of quad_deriv)) rf
    (user_model_new 1) = Ret (rf', s', Err NonConvergenceError) /\ um_inputs s' = [Fin (3 / 2)].
Proof.
  assert (E : solver1d (Fin 1) (on_finite quad) (on_finite quad_deriv) 1 (Fin (/ 10)) = Fin (3 / 2)).
  { unfold solver1d; cbn [solver1d_loop].
    change (on_finite quad (Fin 1)) with (Fin (quad 1)).
    change (on_finite quad_deriv (Fin 1)) with (Fin (quad_deriv 1)).
    unfold ngtb; cbn [nltb nabs Num_XR xltb xabs].
    assert (A : Rabs (quad 1) = 1).
    { unfold quad; replace (1 * 1 - 2) with (- (1)) by lra; rewrite Rabs_Ropp; apply Rabs_R1. }
    rewrite A; destruct (Rltb (/ 10) 1) eqn:T; [|apply Rltb_false in T; lra].
    rewrite fin_div, fin_sub by (unfold quad_deriv; lra); f_equal; unfold quad, quad_deriv; field. }
  split; [exact E|]; eexists.
  edestruct (C56_solver1d quad quad_deriv 1 (Fin (/ 10)) 1) as
    [(rf' & s' & y & S1 & S2 & S3)|(rf' & s' & k & y & Hk & S1 & _ & S2 & _)]; [reflexivity| |].
  - rewrite E in S1; injection S1 as <-; exists rf', s'; split; [reflexivity|].
    split; [|exact S2]; rewrite S3; cbn [xltb].
    assert (A : Rabs (quad (3 / 2)) = / 4).
    { unfold quad; replace (3 / 2 * (3 / 2) - 2) with (/ 4) by field; apply Rabs_pos_eq; lra. }
    rewrite A; destruct (Rltb (/ 10) (/ 4)) eqn:T; [reflexivity|apply Rltb_false in T; lra].
  - exfalso; assert (k = O) as -> by lia; cbn in S1; injection S1 as <-; unfold quad_deriv in S2; lra.
Qed.

(** The derivative 2 x vanishes at 0: the other branch of C56. *)
Example C56_singular_case : exists rf rf' s',
  rootfinder_new (mkSolverParameters 1 (Fin (/ 10)) 5 NewtonRaphson false) [Fin 0]
    (jac_iteratives 1) (all_abs 1) = Ret rf /\
  solve (model_from_function_and_jacobian (vector_of quad) (matrix_of quad_deriv)) rf
    (user_model_new 1) = Ret (rf', s', Err (JacobianError InvalidJacobianInverseError)).
Proof.
  eexists.
  pose proof (solve_1 quad quad_deriv (fun a => a) (Fin (/ 10)) false (fun _ => True)
    (jac_iteratives 1) (um_get_jacobian (matrix_of quad_deriv)) (fun _ => true)) as S.
  specialize (S ltac:(intros rf1 a s _ _ _; left; exists (one_dim_jac quad_deriv); split;
    [apply analytic_1|split; reflexivity]) ltac:(intros; split; [exact I|discriminate])
    (conj (default_jac_unlimited 1) eq_refl) 0 5%nat _ I eq_refl).
  assert (E : newton1 quad quad_deriv (Fin (/ 10)) 5 0 = (O, 0, true)).
  { cbn [newton1 xltb].
    assert (A : Rabs (quad 0) = 2).
    { unfold quad; replace (0 * 0 - 2) with (- (2)) by lra; rewrite Rabs_Ropp; apply Rabs_pos_eq; lra. }
    rewrite A; destruct (Rltb (/ 10) 2) eqn:T; [|apply Rltb_false in T; lra].
    destruct (Reqb (quad_deriv 0) 0) eqn:Z; [reflexivity|].
    apply Reqb_false in Z; unfold quad_deriv in Z; lra. }
  rewrite E in S; destruct S as (rf' & s' & _ & S & _).
  exists rf', s'; split; [reflexivity|exact S].
Qed.

(** A step of the path of C62, from 3 to 11/6; from 0 no step is possible and
    the run reports the singular jacobian (C56_singular_case). *)
Example C62_case :
  newton_path 1 (one_dim_jac quad_deriv) (one_dim quad) (fun x => amax (one_dim quad x)) 1 1
    [3] [11 / 6] /\
  singular 1 (one_dim_jac quad_deriv [0]).
Proof.
  split.
  - apply path_step with (x' := [11 / 6]) (H := [[/ 6]]).
    + cbn; unfold quad; rewrite Rabs_pos_eq; lra.
    + split; [reflexivity|]; intros [|i] Hi; [reflexivity|lia].
    + intros [|i] [|j] Hi Hj; try lia; unfold prod; cbn; unfold quad_deriv; split; field.
    + reflexivity.
    + intros [|i] Hi; [|lia]; unfold app; cbn; unfold quad; field.
    + constructor.
  - exists [1]; split; [reflexivity|]; split.
    + exists O; split; [lia|cbn; lra].
    + intros [|i] Hi; [|lia]; unfold app; cbn; unfold quad_deriv; lra.
Qed.

(** ** C27 with rounding *)

(** The documented formula, evaluated on the doubles at hand. *)
Definition C27_f64_statement : Prop :=
  forall f (rf : rootfinder f64) x s rf' s' next inv,
  rf_debug rf = false -> rf_residuals_config rf = abs_conf (length x) ->
  (forall it v w, In it (rf_iters_params rf) -> it_step_limitation it v w = nadd v w) ->
  sp_resolution_method (rf_parameters rf) = NewtonRaphson ->
  um_inputs s = x -> um_left s = f x -> um_right s = vzeros (length x) ->
  um_problem_size s = length x ->
  compute_step (model_from_function f) rf s = Ret (rf', s', Ok next) ->
  jm_inverse (rf_jacobian rf') = Some inv ->
  next = vadd_raw x (mat_vec (mat_neg inv) (f x)).

(** F(x) = x - 1 at 1/2, perturbed by 10^17: the code starts the step from
    1/2 + 10^17, which has lost the 1/2, and proposes 0 instead of 1. *)
Definition C27_shift (x : vec f64) : vec f64 := map (fun a => nsub a (Fz 1)) x.
Definition C27_rf : rootfinder f64 :=
  sample_rf (params6 1 10 NewtonRaphson false) [Fz 0]
    [mkIterative (fun v w => nadd v w) (fun _ => Ret (Fz 100000000000000000)) true] (abs_conf 1).
Definition C27_half : f64 := ndiv (Fz 1) (Fz 2).
Definition C27_start : user_model f64 :=
  mkUserModel [C27_half] (C27_shift [C27_half]) (vzeros 1) 1.

Theorem C27_rounding_refuted : ~ C27_f64_statement.
Proof.
  intros H.
  assert (W : match compute_step (model_from_function C27_shift) C27_rf C27_start with
    | Ret (rf', _, Ok [v]) =>
        match jm_inverse (rf_jacobian rf') with
        | Some inv => nltb v C27_half &&
            match vadd_raw [C27_half] (mat_vec (mat_neg inv) (C27_shift [C27_half])) with
            | [w] => nltb C27_half w
            | _ => false
            end
        | None => false
        end
    | _ => false
    end = true) by (vm_compute; reflexivity).
  destruct (compute_step (model_from_function C27_shift) C27_rf C27_start)
    as [[[rf' s'] [next|]]|] eqn:E; try discriminate W.
  destruct next as [|v [|]]; try discriminate W.
  destruct (jm_inverse (rf_jacobian rf')) as [inv|] eqn:EI; [|discriminate W].
  specialize (H C27_shift C27_rf [C27_half] C27_start rf' s' [v] inv eq_refl eq_refl
    ltac:(intros it a b [<-|[]]; reflexivity) eq_refl eq_refl eq_refl eq_refl eq_refl E EI).
  rewrite <- H in W; apply andb_prop in W; destruct W as [W1 W2].
  apply ltb_true_inv in W1; apply ltb_true_inv in W2; lra.
Qed.
Print Assumptions C27_rounding_refuted.
