(** One-dimensional problems in exact arithmetic: C55 (convex functions), C56
    (agreement with the reference solvers), and C62 (Newton-Raphson is Newton's
    method, in every dimension). *)
From Coq Require Import Reals Lra.
From Verif Require Import Base Num Linalg Residuals Iteratives UserModel Jacobian Solver
  RNum LuFacts XR PropsQuasi PropsFD ExactFacts ExactRun PropsExact Util1d.
Open Scope R_scope.

Lemma new_fields (p : solver_parameters XR) guess its conf rf : rootfinder_new p guess its conf = Ret rf ->
  rf = mkRootFinder p guess its conf false 0 None jacobian_matrix_new None None None true.
Proof.
  intros E; unfold rootfinder_new in E.
  repeat match type of E with (if ?c then _ else _) = _ => destruct c; [discriminate|] end.
  congruence.
Qed.

(** ** C62 *)

(** [k] steps of Newton's method lead from [x] to [y], every step starting from
    a point whose error is above the tolerance. *)
Inductive newton_path (n : nat) (J : vec R -> mat R) (r : vec R -> vec R) (err : vec R -> R)
  (tol : R) : nat -> vec R -> vec R -> Prop :=
| path_stay x : newton_path n J r err tol O x x
| path_step k x x' y H :
    err x > tol -> square n H -> inverse_of n (J x) H -> length x' = n ->
    (forall i, (i < n)%nat -> vent x' i = vent x i - app n H (r x) i) ->
    newton_path n J r err tol k x' y ->
    newton_path n J r err tol (S k) x y.

Lemma run_path n (J : vec R -> mat R) (r : vec R -> vec R) err tol :
  (forall x, length x = n -> square n (J x) /\ length (r x) = n) ->
  forall budget x k y b, length x = n -> newton_run J r err (Fin tol) budget x = (k, y, b) ->
  length y = n /\ newton_path n J r err tol k x y.
Proof.
  intros HJ; induction budget as [|budget IH]; intros x k y b Lx Q; cbn [newton_run] in Q.
  - injection Q as <- <- <-; split; [exact Lx|constructor].
  - cbn [xltb] in Q; destruct (Rltb tol (err x)) eqn:T.
    2: { injection Q as <- <- <-; split; [exact Lx|constructor]. }
    destruct (HJ x Lx) as [MJ LR].
    destruct (lu_inverse (J x)) as [H|] eqn:EH.
    2: { injection Q as <- <- <-; split; [exact Lx|constructor]. }
    destruct (newton_run J r err (Fin tol) budget (newton_point r H x)) as [[k' y'] b'] eqn:R1.
    injection Q as <- <- <-.
    destruct (C60_inverse n (J x) H MJ EH) as [MH IN].
    assert (Lw : length (newton_point r H x) = n) by (apply (newton_point_length n); assumption).
    destruct (IH _ _ _ _ Lw R1) as [Ly PA]; split; [exact Ly|].
    apply path_step with (x' := newton_point r H x) (H := H); auto.
    + apply Rltb_true in T; lra.
    + intros i Hi; apply (newton_point_entry n); assumption.
Qed.

(** The largest absolute residual. *)
Definition is_error (n : nat) (r : vec R -> vec R) (x : vec R) (e : R) : Prop :=
  (forall i, (i < n)%nat -> Rabs (vent (r x) i) <= e) /\
  (n = O /\ e = 0 \/ exists i, (i < n)%nat /\ Rabs (vent (r x) i) = e).

Lemma amax_attained (v : vec R) : v = [] /\ amax v = 0 \/
  exists i, (i < length v)%nat /\ Rabs (vent v i) = amax v.
Proof.
  destruct v as [|a v].
  - left; split; [reflexivity|]; cbn [amax]; exact Rabs_R0.
  - right; cbn [amax].
    assert (K : forall l c, (exists i, (i < length l)%nat /\ Rabs (vent l i) =
        fold_left (fun a b : R => let b := nabs b in if ngeb a b then a else b) l c) \/
      c = fold_left (fun a b : R => let b := nabs b in if ngeb a b then a else b) l c).
    { induction l as [|b l IH]; intros c; cbn [fold_left]; [right; reflexivity|].
      destruct (IH (if ngeb c (nabs b) then c else nabs b)) as [(i & Hi & Q)|Q].
      - left; exists (S i); split; [cbn; lia|exact Q].
      - destruct (ngeb c (nabs b)); [right; exact Q|].
        left; exists O; split; [cbn; lia|exact Q]. }
    destruct (K v (nabs a)) as [(i & Hi & Q)|Q].
    + exists (S i); split; [cbn; lia|exact Q].
    + exists O; split; [cbn; lia|exact Q].
Qed.

Lemma amax_is_error n r x : length (r x) = n -> is_error n r x (amax (r x)).
Proof.
  intros Lr; split.
  - intros i Hi; apply amax_le; [apply amax_nonneg|lra|rewrite Lr; exact Hi].
  - destruct (amax_attained (r x)) as [[Q1 Q2]|(i & Hi & Q)].
    + left; rewrite Q1 in Lr; split; [symmetry; exact Lr|exact Q2].
    + right; exists i; split; [rewrite <- Lr; exact Hi|exact Q].
Qed.

Theorem C62_newton_method : forall n func jac (f : vec R -> vec R) (J : vec R -> mat R)
  x0 tol maxit rf,
  (forall x, length x = n -> func (lift x) = lift (f x) /\ length (f x) = n) ->
  (forall x, length x = n -> jac (lift x) = liftm (J x) /\ square n (J x)) ->
  length x0 = n ->
  rootfinder_new (mkSolverParameters n (Fin tol) maxit NewtonRaphson false) (lift x0)
    (jac_iteratives n) (all_abs n) = Ret rf ->
  exists rf' s' k y,
    newton_path n J f (fun x => amax (f x)) tol k x0 y /\ length y = n /\
    is_error n f y (amax (f y)) /\ (k <= maxit)%nat /\
    ((solve (model_from_function_and_jacobian func jac) rf (user_model_new n)
      = Ret (rf', s', Ok tt) /\ um_inputs s' = lift y /\ rf_iter rf' = k /\ amax (f y) <= tol) \/
     (solve (model_from_function_and_jacobian func jac) rf (user_model_new n)
      = Ret (rf', s', Err NonConvergenceError) /\
      um_inputs s' = lift y /\ rf_iter rf' = k /\ k = maxit /\ amax (f y) > tol) \/
     (solve (model_from_function_and_jacobian func jac) rf (user_model_new n)
      = Ret (rf', s', Err (JacobianError InvalidJacobianInverseError)) /\
      rf_iter rf' = S k /\ (k < maxit)%nat /\ amax (f y) > tol /\ singular n (J y))).
Proof.
  intros n func jac f J x0 tol maxit rf Hf HJ Lx HN; apply new_fields in HN.
  set (D := fun _ : vec R => True).
  assert (FP := adapter_problem n D func f (fun x _ => Hf x) (fun _ => true) (um_get_jacobian jac)).
  assert (WB := abs_well_behaved _ n _ _ _ _ FP).
  assert (HA := adapter_analytic n D func f (fun x _ => Hf x) jac J (fun x _ => HJ x)).
  set (M := model_from_function_and_jacobian func jac) in *.
  assert (RES : forall x, length x = n -> residuals_of f (fun _ => vzeros n) x = f x).
  { intros x Q; unfold residuals_of; apply (vec_ext _ _ n).
    - apply (len_sub n); [apply Hf; exact Q|apply repeat_length].
    - apply Hf; exact Q.
    - intros i Hi; rewrite (ent_sub n); [|apply Hf; exact Q|apply repeat_length|exact Hi].
      replace (vent (vzeros n) i) with 0 by (symmetry; exact (nth_repeat 0 n i)); lra. }
  set (U := residuals_of f (fun _ => vzeros n)) in *.
  assert (SOL := newton_solve M n (all_abs n) (adapter_good n) D f (fun _ => vzeros n) U
    (fun x => vabs (U x)) WB (jac_iteratives n) J (fun x => x) (Fin tol) false (fun _ => True)).
  specialize (SOL ltac:(intros rf1 x s _ _ _; left; exists J; auto)).
  specialize (SOL ltac:(intros; split; [exact I|]; split; [exact I|discriminate])).
  specialize (SOL rf (user_model_new n) x0).
  assert (NC : newton_config n (all_abs n) rf).
  { subst rf; repeat split; [apply default_jac_unlimited|].
    cbn [rf_iters_params]; unfold jac_iteratives, default_vec_iteratives.
    rewrite map_length, repeat_length; reflexivity. }
  assert (MI : sp_max_iter (rf_parameters rf) = maxit) by (subst rf; reflexivity).
  rewrite MI in SOL.
  specialize (SOL NC ltac:(subst rf; reflexivity) ltac:(subst rf; reflexivity)
    ltac:(subst rf; reflexivity) ltac:(subst rf; reflexivity) ltac:(subst rf; reflexivity)
    ltac:(subst rf; reflexivity) Lx I I (fresh_good n)).
  destruct (newton_run J U (fun x => amax (vabs (U x))) (Fin tol) maxit x0) as [[k y] sing] eqn:ER.
  assert (HJU : forall x, length x = n -> square n (J x) /\ length (U x) = n).
  { intros x Q; split; [apply HJ; exact Q|rewrite RES by exact Q; apply Hf; exact Q]. }
  destruct (run_path n J U _ tol HJU maxit x0 k y sing Lx ER) as [Ly PA].
  destruct (newton_run_steps _ _ _ _ _ _ _ _ _ ER) as (S1 & S2 & S3).
  assert (PA' : newton_path n J f (fun x => amax (f x)) tol k x0 y).
  { clear - PA RES Lx; induction PA as [x|k x x' y H E1 MH IN L' F' PA' IH]; [constructor|].
    apply path_step with (x' := x') (H := H); auto.
    - rewrite amax_vabs, RES in E1 by exact Lx; exact E1.
    - intros i Hi; rewrite F', RES by assumption; reflexivity. }
  assert (EE : amax (vabs (U y)) = amax (f y)) by (rewrite amax_vabs, RES by exact Ly; reflexivity).
  rewrite EE in S2, S3; cbn [xltb] in S2, S3.
  destruct SOL as (rf' & s' & _ & SOL); exists rf', s', k, y.
  split; [exact PA'|]; split; [exact Ly|]; split; [apply amax_is_error, Hf, Ly|].
  split; [exact S1|].
  destruct sing.
  - destruct SOL as [SOL SI]; right; right; split; [exact SOL|]; split; [exact SI|].
    destruct (S3 eq_refl) as (T1 & T2 & T3); split; [exact T3|].
    apply Rltb_true in T1; split; [lra|].
    apply C60_fails_only_on_singular; [apply HJ; exact Ly|exact T2].
  - destruct SOL as (SOL & SA & SI); cbn beta in SOL; rewrite EE in SOL; cbn [xltb] in SOL.
    destruct (Rltb tol (amax (f y))) eqn:T.
    + right; left; split; [exact SOL|]; split; [apply SA|]; split; [exact SI|].
      apply Rltb_true in T; split; [|lra].
      destruct (S2 eq_refl) as [Q|Q]; [discriminate|exact Q].
    + left; split; [exact SOL|]; split; [apply SA|]; split; [exact SI|].
      apply Rltb_false in T; exact T.
Qed.
Print Assumptions C62_newton_method.

(** ** Functions of one variable *)

(** A real function as a scalar function of the model; the values at
    non-finite arguments do not matter. *)
Definition on_finite (f : R -> R) (a : XR) : XR :=
  match a with Fin r => Fin (f r) | _ => XNaN end.
(** The same as a vector function and as a 1 x 1 matrix. *)
Definition vector_of (f : R -> R) : vec XR -> vec XR := map (on_finite f).
Definition matrix_of (f : R -> R) (v : vec XR) : mat XR := [map (on_finite f) v].

Definition one_dim (f : R -> R) : vec R -> vec R := map f.
Definition one_dim_jac (f : R -> R) (v : vec R) : mat R := [map f v].

Lemma one_dim_lift f x : length x = 1%nat ->
  vector_of f (lift x) = lift (one_dim f x) /\ length (one_dim f x) = 1%nat.
Proof.
  intros Lx; destruct x as [|a [|]]; try discriminate; split; reflexivity.
Qed.
Lemma one_dim_jac_lift f x : length x = 1%nat ->
  matrix_of f (lift x) = liftm (one_dim_jac f x) /\ square 1 (one_dim_jac f x).
Proof.
  intros Lx; destruct x as [|a [|]]; try discriminate; split; [reflexivity|].
  split; [reflexivity|]; intros [|i] Hi; [reflexivity|lia].
Qed.

Lemma newton_point_1 (f : R -> R) j a :
  newton_point (one_dim f) [[1 / j]] [a] = [a - f a / j].
Proof.
  unfold newton_point, one_dim; cbn [map mat_neg mat_vec dot map2 fold_left vadd_raw].
  cbn [nneg nmul nadd Num_R]; f_equal; unfold Rdiv; lra.
Qed.

Section OneDim.
Context (f : R -> R) (J : R -> R) (tol : XR).

(** Newton's method on numbers. *)
Fixpoint newton1 (budget : nat) (a : R) : nat * R * bool :=
  match budget with
  | O => (O, a, false)
  | S budget' =>
      if xltb tol (Fin (Rabs (f a))) then
        if Reqb (J a) 0 then (O, a, true)
        else let '(k, y, b) := newton1 budget' (a - f a / J a) in (S k, y, b)
      else (O, a, false)
  end.

Lemma newton_run_1 (Jm : vec R -> mat R) (U : vec R -> vec R) (err : vec R -> R) :
  (forall a, Jm [a] = [[J a]]) -> (forall a, U [a] = [f a]) -> (forall a, err [a] = Rabs (f a)) ->
  forall budget a, newton_run Jm U err tol budget [a] =
    let '(k, y, b) := newton1 budget a in (k, [y], b).
Proof.
  intros HJ HU HE; induction budget as [|budget IH]; intros a; cbn [newton_run newton1]; [reflexivity|].
  rewrite HE; destruct (xltb tol (Fin (Rabs (f a)))); [|reflexivity].
  rewrite HJ, lu_inverse_1; destruct (Reqb (J a) 0); [reflexivity|].
  assert (E : newton_point U [[1 / J a]] [a] = [a - f a / J a]).
  { rewrite <- newton_point_1; unfold newton_point; rewrite HU; reflexivity. }
  rewrite E, IH; destruct (newton1 budget (a - f a / J a)) as [[k y] b]; reflexivity.
Qed.

Lemma newton1_budget : forall budget a, (fst (fst (newton1 budget a)) <= budget)%nat.
Proof.
  induction budget as [|budget IH]; intros a; cbn [newton1]; [reflexivity|].
  destruct (xltb tol (Fin (Rabs (f a)))); [|apply Nat.le_0_l].
  destruct (Reqb (J a) 0); [apply Nat.le_0_l|].
  specialize (IH (a - f a / J a)); destruct (newton1 budget (a - f a / J a)) as [[k y] b].
  cbn [fst] in *; lia.
Qed.
End OneDim.

(** [solve] on one equation, any damping, analytical derivative or finite
    differences. *)
Section Solve1.
Context (f J : R -> R) (zf : R -> R) (tol : XR) (damping : bool) (P : R -> Prop)
  (its : list (iterative XR)) (get_jac : user_model XR ->
     outcome (user_model XR * result (jacobian_values XR) (model_error Empty_set Empty_set)))
  (provided : user_model XR -> bool).

Let M := mkModel um_problem_size um_set_iteratives um_inputs (um_evaluate (vector_of f))
      um_get_residuals provided get_jac default_get_memory default_set_memory
      show_infallible show_infallible.

Context
  (HS : forall rf a s, rf_iters_params rf = its -> P a ->
     at_point M 1 (adapter_good 1) (fun _ => True) (one_dim f) (fun _ => vzeros 1) [a] s ->
     jacobian_source M 1 (all_abs 1) (adapter_good 1) (fun _ => True) (one_dim f)
       (fun _ => vzeros 1) (residuals_of (one_dim f) (fun _ => vzeros 1)) rf [a] s [[J a]] [zf a])
  (HP : forall a, P a -> xltb tol (Fin (Rabs (f a))) = true -> J a <> 0 ->
     P (a - f a / J a) /\ (damping = true -> Rabs (f (a - f a / J a)) <= Rabs (f (zf a))))
  (HI : Forall unlimited its /\ length its = 1%nat).

Lemma residuals_1 a : residuals_of (one_dim f) (fun _ => vzeros 1) [a] = [f a].
Proof. cbn; f_equal; lra. Qed.

Lemma solve_1 x0 maxit rf : P x0 ->
  rootfinder_new (mkSolverParameters 1 tol maxit NewtonRaphson damping) [Fin x0] its (all_abs 1)
  = Ret rf ->
  let '(k, y, sing) := newton1 f J tol maxit x0 in
  exists rf' s', P y /\
    if sing : bool then
      solve M rf (user_model_new 1) = Ret (rf', s', Err (JacobianError InvalidJacobianInverseError)) /\
      rf_iter rf' = S k
    else
      solve M rf (user_model_new 1)
      = Ret (rf', s', if xltb tol (Fin (Rabs (f y))) then Err NonConvergenceError else Ok tt) /\
      um_inputs s' = [Fin y] /\ rf_iter rf' = k.
Proof.
  intros Px HN; apply new_fields in HN.
  assert (FP := adapter_problem 1 (fun _ => True) (vector_of f) (one_dim f)
                  (fun x _ => one_dim_lift f x) provided get_jac).
  assert (WB := abs_well_behaved _ 1 _ _ _ _ FP); fold M in FP, WB.
  set (U := residuals_of (one_dim f) (fun _ => vzeros 1)) in *.
  assert (EU : forall a, amax (vabs (U [a])) = Rabs (f a)).
  { intros a; rewrite amax_vabs; unfold U; rewrite residuals_1; reflexivity. }
  assert (SOL := newton_solve M 1 (all_abs 1) (adapter_good 1) (fun _ => True) (one_dim f)
    (fun _ => vzeros 1) U (fun x => vabs (U x)) WB its (fun v => [map J v]) (map zf) tol damping
    (fun v => match v with [a] => P a | _ => False end)).
  assert (H1 : forall rf x s, rf_iters_params rf = its ->
    match x with [a] => P a | _ => False end ->
    at_point M 1 (adapter_good 1) (fun _ => True) (one_dim f) (fun _ => vzeros 1) x s ->
    jacobian_source M 1 (all_abs 1) (adapter_good 1) (fun _ => True) (one_dim f)
       (fun _ => vzeros 1) U rf x s [map J x] (map zf x)).
  { intros rf1 x s EI Px1 HA; destruct x as [|a [|]]; try contradiction; apply HS; assumption. }
  specialize (SOL H1); clear H1.
  assert (H2 : forall x H, match x with [a] => P a | _ => False end -> length x = 1%nat ->
    xltb tol (Fin (amax (vabs (U x)))) = true -> lu_inverse [map J x] = Some H ->
    match newton_point U H x with [a] => P a | _ => False end /\ True /\
    (damping = true -> amax (vabs (U (newton_point U H x))) <= amax (vabs (U (map zf x))))).
  { intros x H Px1 Lx T EH; destruct x as [|a [|]]; try contradiction.
    cbn [map] in *; rewrite EU in T; rewrite lu_inverse_1 in EH.
    destruct (Reqb (J a) 0) eqn:Z; [discriminate|]; injection EH as <-; apply Reqb_false in Z.
    assert (EN : newton_point U [[1 / J a]] [a] = [a - f a / J a]).
    { rewrite <- newton_point_1; unfold newton_point, U; rewrite residuals_1; reflexivity. }
    rewrite EN, !EU; destruct (HP a Px1 T Z) as [Q1 Q2]; auto. }
  specialize (SOL H2 rf (user_model_new 1) [x0]); clear H2.
  assert (MI : sp_max_iter (rf_parameters rf) = maxit) by (subst rf; reflexivity).
  rewrite MI in SOL.
  assert (NC : newton_config 1 (all_abs 1) rf).
  { subst rf; repeat split; apply HI. }
  specialize (SOL NC ltac:(subst rf; reflexivity) ltac:(subst rf; reflexivity)
    ltac:(subst rf; reflexivity) ltac:(subst rf; reflexivity) ltac:(subst rf; reflexivity)
    ltac:(subst rf; reflexivity) eq_refl Px I (fresh_good 1)).
  rewrite (newton_run_1 f J tol) in SOL; [|reflexivity|intros; apply residuals_1|exact EU].
  destruct (newton1 f J tol maxit x0) as [[k y] sing].
  destruct SOL as (rf' & s' & S0 & SOL); exists rf', s'; split; [exact S0|].
  destruct sing; [exact SOL|]; cbn beta in SOL; rewrite EU in SOL.
  destruct SOL as (S1 & S2 & S3); split; [exact S1|]; split; [apply S2|exact S3].
Qed.
End Solve1.

(** ** C56 *)
Lemma solver1d_newton1 f df tol : forall budget a,
  let '(k, y, sing) := newton1 f df tol budget a in
  if sing : bool then
    (k < budget)%nat /\ xltb tol (Fin (Rabs (f y))) = true /\ df y = 0 /\
    solver1d (Fin a) (on_finite f) (on_finite df) k tol = Fin y
  else solver1d (Fin a) (on_finite f) (on_finite df) budget tol = Fin y.
Proof.
  unfold solver1d; induction budget as [|budget IH]; intros a; cbn [newton1 solver1d_loop]; [reflexivity|].
  change (on_finite f (Fin a)) with (Fin (f a)).
  change (nabs (Fin (f a))) with (Fin (Rabs (f a))).
  unfold ngtb; cbn [nltb Num_XR].
  destruct (xltb tol (Fin (Rabs (f a)))) eqn:T; [|reflexivity].
  destruct (Reqb (df a) 0) eqn:Z.
  - apply Reqb_true in Z; split; [lia|]; split; [exact T|]; split; [exact Z|reflexivity].
  - apply Reqb_false in Z.
    change (on_finite df (Fin a)) with (Fin (df a)); rewrite fin_div by exact Z; rewrite fin_sub.
    specialize (IH (a - f a / df a)); destruct (newton1 f df tol budget (a - f a / df a)) as [[k y] sing].
    destruct sing; [|exact IH]; destruct IH as (I1 & I2 & I3 & I4).
    split; [lia|]; split; [exact I2|]; split; [exact I3|].
    cbn [solver1d_loop]; change (on_finite f (Fin a)) with (Fin (f a)).
    change (nabs (Fin (f a))) with (Fin (Rabs (f a))); unfold ngtb; cbn [nltb Num_XR]; rewrite T.
    change (on_finite df (Fin a)) with (Fin (df a)); rewrite fin_div by exact Z; rewrite fin_sub.
    exact I4.
Qed.

Lemma analytic_1 f df : analytic (model_from_function_and_jacobian (vector_of f) (matrix_of df)) 1
  (all_abs 1) (adapter_good 1) (fun _ => True) (one_dim f) (fun _ => vzeros 1) (one_dim_jac df).
Proof.
  apply adapter_analytic; [intros x _; apply one_dim_lift|intros x _; apply one_dim_jac_lift].
Qed.

(** The run of [solve] with at most [maxit] iterations ends where [solver1d]
    with the same budget ends (so, [maxit] being arbitrary, all iterates are the
    same), unless the derivative vanishes at an iterate which is not accepted:
    there the division of [solver1d] has no meaning and [solve] reports the
    singular jacobian. *)
Theorem C56_solver1d : forall f df x0 tol maxit rf,
  rootfinder_new (mkSolverParameters 1 tol maxit NewtonRaphson false) [Fin x0]
    (jac_iteratives 1) (all_abs 1) = Ret rf ->
  let r := solve (model_from_function_and_jacobian (vector_of f) (matrix_of df)) rf
             (user_model_new 1) in
  (exists rf' s' y, solver1d (Fin x0) (on_finite f) (on_finite df) maxit tol = Fin y /\
     um_inputs s' = [Fin y] /\
     r = Ret (rf', s', if xltb tol (Fin (Rabs (f y))) then Err NonConvergenceError else Ok tt)) \/
  (exists rf' s' k y, (k < maxit)%nat /\
     solver1d (Fin x0) (on_finite f) (on_finite df) k tol = Fin y /\
     xltb tol (Fin (Rabs (f y))) = true /\ df y = 0 /\
     r = Ret (rf', s', Err (JacobianError InvalidJacobianInverseError)) /\ rf_iter rf' = S k).
Proof.
  intros f df x0 tol maxit rf HN r.
  pose proof (solver1d_newton1 f df tol maxit x0) as K.
  pose proof (solve_1 f df (fun a => a) tol false (fun _ => True) (jac_iteratives 1)
    (um_get_jacobian (matrix_of df)) (fun _ => true)) as S.
  specialize (S ltac:(intros rf1 a s _ _ _; left; exists (one_dim_jac df); split;
    [apply analytic_1|split; reflexivity])).
  specialize (S ltac:(intros; split; [exact I|discriminate])).
  specialize (S (conj (default_jac_unlimited 1) eq_refl) x0 maxit rf I HN).
  destruct (newton1 f df tol maxit x0) as [[k y] sing].
  destruct S as (rf' & s' & _ & S); destruct sing.
  - right; exists rf', s', k, y; destruct K as (K1 & K2 & K3 & K4), S as [S1 S2]; repeat split; auto.
  - left; exists rf', s', y; destruct S as (S1 & S2 & S3); repeat split; auto.
Qed.
Print Assumptions C56_solver1d.

(** *** The variant with finite differences *)

(** An iterative without limits, perturbed by [dx]. *)
Definition constant_step (dx : R) : iterative XR :=
  mkIterative (step_limitation default_iterative_params) (fun _ => Ret (Fin dx)) true.

Definition quotient (f : R -> R) (dx a : R) : R := (f (a + dx) - f a) / dx.

Lemma solver1d_fd_newton1 f dx tol : dx <> 0 -> forall budget a,
  let '(k, y, sing) := newton1 f (quotient f dx) tol budget a in
  if sing : bool then
    (k < budget)%nat /\ xltb tol (Fin (Rabs (f y))) = true /\ quotient f dx y = 0 /\
    solver1d_fd (Fin a) (on_finite f) k tol (Fin dx) = Fin y
  else solver1d_fd (Fin a) (on_finite f) budget tol (Fin dx) = Fin y.
Proof.
  intros Ndx; unfold solver1d_fd; induction budget as [|budget IH]; intros a;
    cbn [newton1 solver1d_fd_loop]; [reflexivity|].
  assert (FD : forall a, finite_diff (Fin a) (Fin (f a)) (on_finite f) (Fin dx)
                         = Fin (quotient f dx a)).
  { intros c; unfold finite_diff; rewrite fin_add.
    change (on_finite f (Fin (c + dx))) with (Fin (f (c + dx))); rewrite fin_sub, fin_div by exact Ndx.
    reflexivity. }
  change (on_finite f (Fin a)) with (Fin (f a)).
  change (nabs (Fin (f a))) with (Fin (Rabs (f a))).
  unfold ngtb; cbn [nltb Num_XR].
  destruct (xltb tol (Fin (Rabs (f a)))) eqn:T; [|reflexivity].
  destruct (Reqb (quotient f dx a) 0) eqn:Z.
  - apply Reqb_true in Z; split; [lia|]; split; [exact T|]; split; [exact Z|reflexivity].
  - apply Reqb_false in Z.
    rewrite FD, fin_div by exact Z; rewrite fin_sub.
    specialize (IH (a - f a / quotient f dx a)).
    destruct (newton1 f (quotient f dx) tol budget (a - f a / quotient f dx a)) as [[k y] sing].
    destruct sing; [|exact IH]; destruct IH as (I1 & I2 & I3 & I4).
    split; [lia|]; split; [exact I2|]; split; [exact I3|].
    cbn [solver1d_fd_loop]; change (on_finite f (Fin a)) with (Fin (f a)).
    change (nabs (Fin (f a))) with (Fin (Rabs (f a))); unfold ngtb; cbn [nltb Num_XR]; rewrite T.
    rewrite FD, fin_div by exact Z; rewrite fin_sub; exact I4.
Qed.

Theorem C56_solver1d_fd : forall f dx x0 tol maxit rf, dx <> 0 ->
  rootfinder_new (mkSolverParameters 1 tol maxit NewtonRaphson false) [Fin x0]
    [constant_step dx] (all_abs 1) = Ret rf ->
  let r := solve (model_from_function (vector_of f)) rf (user_model_new 1) in
  (exists rf' s' y, solver1d_fd (Fin x0) (on_finite f) maxit tol (Fin dx) = Fin y /\
     um_inputs s' = [Fin y] /\
     r = Ret (rf', s', if xltb tol (Fin (Rabs (f y))) then Err NonConvergenceError else Ok tt)) \/
  (exists rf' s' k y, (k < maxit)%nat /\
     solver1d_fd (Fin x0) (on_finite f) k tol (Fin dx) = Fin y /\
     xltb tol (Fin (Rabs (f y))) = true /\ quotient f dx y = 0 /\
     r = Ret (rf', s', Err (JacobianError InvalidJacobianInverseError)) /\ rf_iter rf' = S k).
Proof.
  intros f dx x0 tol maxit rf Ndx HN r.
  pose proof (solver1d_fd_newton1 f dx tol Ndx maxit x0) as K.
  pose proof (solve_1 f (quotient f dx) (fun a => a + dx) tol false (fun _ => True) [constant_step dx]
    (default_get_jacobian um_inputs) default_jacobian_provided) as S.
  assert (H1 : forall (rf1 : rootfinder XR) a s, rf_iters_params rf1 = [constant_step dx] -> True ->
     at_point (model_from_function (vector_of f)) 1 (adapter_good 1) (fun _ => True) (one_dim f)
       (fun _ => vzeros 1) [a] s ->
     jacobian_source (model_from_function (vector_of f)) 1 (all_abs 1) (adapter_good 1)
       (fun _ => True) (one_dim f) (fun _ => vzeros 1)
       (residuals_of (one_dim f) (fun _ => vzeros 1)) rf1 [a] s [[quotient f dx a]] [a + dx]).
  { intros rf1 a s EI _ HA; right; exists [dx]; split; [reflexivity|]; split; [|split].
    - rewrite EI; split; [reflexivity|]; split; [reflexivity|]; split.
      + intros [|j] Hj; [exact Ndx|lia].
      + intros j Hj; exact I.
    - symmetry; apply (mat_ext _ _ 1).
      + apply fd_matrix_is_mat.
      + split; [reflexivity|]; intros [|i] Hi; [reflexivity|lia].
      + intros [|i] [|j] Hi Hj; try lia; unfold fd_matrix, fd_column.
        cbn [seq map].
        assert (ES : shift [a] 0 (vent [dx] 0) = [a + dx]) by reflexivity.
        rewrite ES, !residuals_1; reflexivity.
    - reflexivity. }
  specialize (S H1); clear H1.
  specialize (S ltac:(intros; split; [exact I|discriminate])).
  assert (H3 : Forall unlimited [constant_step dx] /\ length [constant_step dx] = 1%nat).
  { split; [|reflexivity]; constructor; [|constructor]; intros v w; apply default_unlimited. }
  specialize (S H3 x0 maxit rf I HN).
  destruct (newton1 f (quotient f dx) tol maxit x0) as [[k y] sing].
  destruct S as (rf' & s' & _ & S); destruct sing.
  - right; exists rf', s', k, y; destruct K as (K1 & K2 & K3 & K4), S as [S1 S2]; repeat split; auto.
  - left; exists rf', s', y; destruct S as (S1 & S2 & S3); repeat split; auto.
Qed.
Print Assumptions C56_solver1d_fd.

(** ** C55 *)

Record convex_increasing (f df : R -> R) (r : R) : Prop := {
  ci_derivative : forall x, derivable_pt_lim f x (df x);
  ci_convex : forall x y t, 0 <= t <= 1 -> f (t * y + (1 - t) * x) <= t * f y + (1 - t) * f x;
  ci_increasing : forall x y, x < y -> f x < f y;
  ci_root : f r = 0 }.

Section Convex.
Context (f df : R -> R) (r : R) (C : convex_increasing f df r).

(** A convex function is above its tangents. *)
Lemma above_tangent x y : f x + df x * (y - x) <= f y.
Proof.
  destruct (Req_dec x y) as [->|NE]; [lra|].
  destruct (Rle_lt_dec (f x + df x * (y - x)) (f y)) as [|G]; [assumption|exfalso].
  set (g := f x + df x * (y - x) - f y) in *.
  assert (Hg : 0 < g) by (unfold g; lra).
  assert (Ha : 0 < Rabs (y - x)) by (apply Rabs_pos_lt; lra).
  assert (He : 0 < g / (2 * Rabs (y - x))) by (apply Rdiv_lt_0_compat; lra).
  destruct (ci_derivative _ _ _ C x _ He) as [delta HD].
  set (t := Rmin 1 (delta / (2 * Rabs (y - x)))).
  assert (Hd : 0 < delta / (2 * Rabs (y - x))).
  { apply Rdiv_lt_0_compat; [apply cond_pos|lra]. }
  assert (Ht : 0 < t <= 1).
  { unfold t; split; [apply Rmin_glb_lt; lra|apply Rmin_l]. }
  assert (Hh : Rabs (t * (y - x)) < delta).
  { rewrite Rabs_mult, (Rabs_pos_eq t) by lra.
    apply Rle_lt_trans with (delta / (2 * Rabs (y - x)) * Rabs (y - x)).
    - apply Rmult_le_compat_r; [lra|apply Rmin_r].
    - assert (P := cond_pos delta).
      replace (delta / (2 * Rabs (y - x)) * Rabs (y - x)) with (delta / 2) by (field; lra); lra. }
  assert (Nh : t * (y - x) <> 0) by (apply Rmult_integral_contrapositive; lra).
  specialize (HD _ Nh Hh).
  assert (CV := ci_convex _ _ _ C x y t ltac:(lra)).
  replace (t * y + (1 - t) * x) with (x + t * (y - x)) in CV by lra.
  set (q := f (x + t * (y - x)) - f x) in *.
  assert (Q1 : q <= t * (f y - f x)) by (unfold q; lra).
  (* the difference quotient is close to the derivative *)
  assert (Q2 : Rabs (q - df x * (t * (y - x))) <= g / 2 * t).
  { replace (q - df x * (t * (y - x))) with ((q / (t * (y - x)) - df x) * (t * (y - x)))
      by (field; split; lra).
    rewrite Rabs_mult.
    apply Rle_trans with (g / (2 * Rabs (y - x)) * Rabs (t * (y - x))).
    - apply Rmult_le_compat_r; [apply Rabs_pos|left; exact HD].
    - rewrite Rabs_mult, (Rabs_pos_eq t) by lra; right; field; lra. }
  assert (Q3 : - (g / 2 * t) <= q - df x * (t * (y - x))).
  { assert (L := Rle_abs (- (q - df x * (t * (y - x))))); rewrite Rabs_Ropp in L; lra. }
  assert (Q4 : t * (df x * (y - x) - g / 2) <= t * (f y - f x)) by lra.
  apply Rmult_le_reg_l in Q4; [unfold g in *; lra|lra].
Qed.

Lemma slope_positive x : 0 < df x.
Proof.
  assert (T := above_tangent x (x - 1)); assert (I := ci_increasing _ _ _ C (x - 1) x ltac:(lra)); lra.
Qed.
Lemma slope_increasing x y : x <= y -> df x <= df y.
Proof.
  intros [L| ->]; [|lra].
  assert (T1 := above_tangent x y); assert (T2 := above_tangent y x).
  apply Rmult_le_reg_r with (y - x); lra.
Qed.
Lemma above_root x : r <= x -> 0 <= f x.
Proof.
  rewrite <- (ci_root _ _ _ C); intros [L| ->]; [left; apply (ci_increasing _ _ _ C), L|lra].
Qed.
Lemma abs_above x : r <= x -> Rabs (f x) = f x.
Proof. intros H; apply Rabs_pos_eq, above_root, H. Qed.

Lemma step_stays x : r <= x -> r <= x - f x / df x <= x.
Proof.
  intros Hx; assert (S := slope_positive x); assert (A := above_root x Hx).
  assert (T := above_tangent x r); rewrite (ci_root _ _ _ C) in T.
  split.
  - apply Rmult_le_reg_r with (df x); [exact S|].
    replace ((x - f x / df x) * df x) with (x * df x - f x) by (field; lra); lra.
  - assert (0 <= f x / df x); [|lra].
    apply Rmult_le_pos; [exact A|left; apply Rinv_0_lt_compat, S].
Qed.
Lemma step_shrinks x : r <= x -> f (x - f x / df x) <= f x.
Proof.
  intros Hx; destruct (step_stays x Hx) as [_ [L| ->]]; [left; apply (ci_increasing _ _ _ C), L|lra].
Qed.
Lemma step_progress x x0 t : r <= x <= x0 -> t < f x -> 0 < t -> x - f x / df x <= x - t / df x0.
Proof.
  intros Hx F T; assert (S := slope_positive x); assert (S0 := slope_positive x0).
  assert (SI := slope_increasing x x0 ltac:(lra)).
  assert (t / df x0 <= f x / df x); [|lra].
  apply Rle_trans with (t / df x).
  - apply Rmult_le_compat_l; [lra|apply Rinv_le_contravar; lra].
  - apply Rmult_le_compat_r; [left; apply Rinv_0_lt_compat, S|lra].
Qed.

Lemma xltb_abs t x : r <= x -> xltb (Fin t) (Fin (Rabs (f x))) = Rltb t (f x).
Proof. intros H; cbn [xltb]; rewrite abs_above by exact H; reflexivity. Qed.

Lemma convex_run t x0 : 0 < t -> forall budget a, r <= a <= x0 ->
  let '(k, y, sing) := newton1 f df (Fin t) budget a in
  sing = false /\ r <= y <= a /\
  (f y <= t \/ t < f y /\ y <= a - INR budget * (t / df x0)).
Proof.
  intros Ht; induction budget as [|budget IH]; intros a Ha; cbn [newton1].
  - split; [reflexivity|]; split; [lra|]; cbn [INR]; destruct (Rle_lt_dec (f a) t); [left|right]; lra.
  - rewrite xltb_abs by apply Ha; destruct (Rltb t (f a)) eqn:T.
    + apply Rltb_true in T.
      destruct (Reqb (df a) 0) eqn:Z.
      { apply Reqb_true in Z; assert (S := slope_positive a); lra. }
      destruct (step_stays a (proj1 Ha)) as [S1 S2].
      assert (SP := step_progress a x0 t Ha T Ht).
      specialize (IH (a - f a / df a) ltac:(lra)).
      destruct (newton1 f df (Fin t) budget (a - f a / df a)) as [[k y] sing].
      destruct IH as (I1 & I2 & I3); split; [exact I1|]; split; [lra|].
      destruct I3 as [I3|I3]; [left; exact I3|right; rewrite S_INR; lra].
    + apply Rltb_false in T; split; [reflexivity|]; split; [lra|left; lra].
Qed.

(** One more unit of budget: the run stops at the same point if it is accepted,
    and at a point strictly closer to the root otherwise. *)
Lemma convex_more t : 0 < t -> forall budget a, r <= a ->
  let '(_, y, _) := newton1 f df (Fin t) budget a in
  let '(_, y', _) := newton1 f df (Fin t) (S budget) a in
  (f y <= t -> y' = y) /\ (t < f y -> y' = y - f y / df y /\ y' < y).
Proof.
  intros Ht; induction budget as [|budget IH]; intros a Ha; cbn [newton1].
  - rewrite xltb_abs by apply Ha; destruct (Rltb t (f a)) eqn:T.
    + apply Rltb_true in T; assert (S := slope_positive a).
      destruct (Reqb (df a) 0) eqn:Z; [apply Reqb_true in Z; lra|].
      split; [lra|]; intros _; split; [reflexivity|].
      assert (0 < f a / df a) by (apply Rdiv_lt_0_compat; lra); lra.
    + apply Rltb_false in T; split; [reflexivity|lra].
  - rewrite xltb_abs by apply Ha; destruct (Rltb t (f a)) eqn:T.
    + destruct (Reqb (df a) 0) eqn:Z.
      { apply Reqb_true in Z; assert (S := slope_positive a); lra. }
      specialize (IH (a - f a / df a) (proj1 (step_stays a Ha))).
      cbn [newton1] in IH.
      destruct (newton1 f df (Fin t) budget (a - f a / df a)) as [[k y] sing].
      destruct (if xltb (Fin t) (Fin (Rabs (f (a - f a / df a)))) then _ else _) as [[k' y'] sing'].
      exact IH.
    + apply Rltb_false in T; split; [reflexivity|lra].
Qed.

Context (t : R) (damping : bool).

Lemma convex_solve x0 maxit rf : 0 < t -> r <= x0 ->
  rootfinder_new (mkSolverParameters 1 (Fin t) maxit NewtonRaphson damping) [Fin x0]
    (jac_iteratives 1) (all_abs 1) = Ret rf ->
  let '(k, y, _) := newton1 f df (Fin t) maxit x0 in
  exists rf' s',
    solve (model_from_function_and_jacobian (vector_of f) (matrix_of df)) rf (user_model_new 1)
    = Ret (rf', s', if Rltb t (f y) then Err NonConvergenceError else Ok tt) /\
    um_inputs s' = [Fin y] /\ rf_iter rf' = k.
Proof.
  intros Ht Hx HN.
  pose proof (solve_1 f df (fun a => a) (Fin t) damping (fun a => r <= a) (jac_iteratives 1)
    (um_get_jacobian (matrix_of df)) (fun _ => true)) as S.
  specialize (S ltac:(intros rf1 a s _ _ _; left; exists (one_dim_jac df); split;
    [apply analytic_1|split; reflexivity])).
  assert (HP : forall a, r <= a -> xltb (Fin t) (Fin (Rabs (f a))) = true -> df a <> 0 ->
     r <= a - f a / df a /\ (damping = true -> Rabs (f (a - f a / df a)) <= Rabs (f a))).
  { intros a Ha _ _; destruct (step_stays a Ha) as [S1 S2]; split; [exact S1|]; intros _.
    rewrite !abs_above by assumption; apply step_shrinks, Ha. }
  specialize (S HP (conj (default_jac_unlimited 1) eq_refl) x0 maxit rf Hx HN).
  pose proof (convex_run t x0 Ht maxit x0 ltac:(lra)) as CR.
  destruct (newton1 f df (Fin t) maxit x0) as [[k y] sing].
  destruct CR as (-> & Hy & _); destruct S as (rf' & s' & _ & S1 & S2 & S3).
  exists rf', s'; rewrite xltb_abs in S1 by apply Hy; auto.
Qed.
End Convex.

(** [solve] returns Ok for every budget of at least
    (x0 - r) f'(x0) / tolerance iterations, with and without damping. *)
Theorem C55_converges : forall f df r x0 tol maxit damping rf,
  convex_increasing f df r -> r <= x0 -> 0 < tol ->
  (x0 - r) * df x0 <= INR maxit * tol ->
  rootfinder_new (mkSolverParameters 1 (Fin tol) maxit NewtonRaphson damping) [Fin x0]
    (jac_iteratives 1) (all_abs 1) = Ret rf ->
  exists rf' s' y,
    solve (model_from_function_and_jacobian (vector_of f) (matrix_of df)) rf (user_model_new 1)
    = Ret (rf', s', Ok tt) /\
    um_inputs s' = [Fin y] /\ r <= y <= x0 /\ 0 <= f y <= tol /\ (rf_iter rf' <= maxit)%nat.
Proof.
  intros f df r x0 tol maxit damping rf C Hx Ht HM HN.
  pose proof (convex_solve f df r C tol damping x0 maxit rf Ht Hx HN) as S.
  pose proof (convex_run f df r C tol x0 Ht maxit x0 ltac:(lra)) as CR.
  pose proof (newton1_budget f df (Fin tol) maxit x0) as NB.
  destruct (newton1 f df (Fin tol) maxit x0) as [[k y] sing].
  destruct S as (rf' & s' & S1 & S2 & S3), CR as (_ & Hy & CR).
  assert (A := above_root f df r C y (proj1 Hy)).
  assert (Fy : f y <= tol).
  { destruct CR as [|[F L]]; [assumption|exfalso].
    assert (SP := slope_positive f df r C x0).
    assert (r < y).
    { destruct (proj1 Hy) as [|E]; [assumption|]; rewrite <- E, (ci_root _ _ _ C) in F; lra. }
    assert (INR maxit * (tol / df x0) < x0 - r) by lra.
    assert (INR maxit * tol < (x0 - r) * df x0).
    { apply Rmult_lt_compat_r with (r := df x0) in H0; [|exact SP].
      replace (INR maxit * (tol / df x0) * df x0) with (INR maxit * tol) in H0 by (field; lra); lra. }
    lra. }
  exists rf', s', y; split; [|rewrite S3; repeat split; try lra; try exact S2; exact NB].
  destruct (Rltb tol (f y)) eqn:T; [apply Rltb_true in T; lra|exact S1].
Qed.
Print Assumptions C55_converges.

(** The iterates decrease and stay above the root: [y m] being the point where
    the run with a budget of [m] iterations ends (the [m]-th iterate, as long as
    no iterate is accepted), it is accepted exactly when the run returns Ok; the
    run with one more iteration ends at the same point if it is accepted and at a
    smaller one otherwise. *)
Theorem C55_monotone : forall f df r x0 tol damping,
  convex_increasing f df r -> r <= x0 -> 0 < tol ->
  exists y : nat -> R, y O = x0 /\ forall m,
    r <= y m /\ (f (y m) <= tol -> y (S m) = y m) /\
    (tol < f (y m) -> y (S m) = y m - f (y m) / df (y m) /\ y (S m) < y m) /\
    forall rf,
    rootfinder_new (mkSolverParameters 1 (Fin tol) m NewtonRaphson damping) [Fin x0]
      (jac_iteratives 1) (all_abs 1) = Ret rf ->
    exists rf' s',
      solve (model_from_function_and_jacobian (vector_of f) (matrix_of df)) rf (user_model_new 1)
      = Ret (rf', s', if Rltb tol (f (y m)) then Err NonConvergenceError else Ok tt) /\
      um_inputs s' = [Fin (y m)].
Proof.
  intros f df r x0 tol damping C Hx Ht.
  exists (fun m => snd (fst (newton1 f df (Fin tol) m x0))); split; [reflexivity|]; intros m.
  pose proof (fun rf => convex_solve f df r C tol damping x0 m rf Ht Hx) as S.
  pose proof (convex_run f df r C tol x0 Ht m x0 ltac:(lra)) as CR.
  pose proof (convex_more f df r C tol Ht m x0 Hx) as CM.
  destruct (newton1 f df (Fin tol) m x0) as [[k y] sing].
  destruct (newton1 f df (Fin tol) (Datatypes.S m) x0) as [[k' y'] sing'].
  cbn [fst snd]; destruct CM as [CM1 CM2]; split; [apply CR|]; split; [exact CM1|]; split; [exact CM2|].
  intros rf HN; destruct (S rf HN) as (rf' & s' & S1 & S2 & _); exists rf', s'; auto.
Qed.
Print Assumptions C55_monotone.

(** *** A case: exp x - 1 *)
Lemma exp_convex_increasing : convex_increasing (fun x => exp x - 1) exp 0.
Proof.
  constructor.
  - intros x; replace (exp x) with (exp x - 0) by lra.
    apply (derivable_pt_lim_minus exp (fct_cte 1)); [apply derivable_pt_lim_exp|apply derivable_pt_lim_const].
  - intros x y t Ht; set (z := t * y + (1 - t) * x).
    assert (T : forall w, exp z * (1 + (w - z)) <= exp w).
    { intros w; replace w with (z + (w - z)) at 2 by lra; rewrite exp_plus.
      apply Rmult_le_compat_l; [left; apply exp_pos|apply exp_ineq1_le]. }
    assert (T1 := Rmult_le_compat_l t _ _ ltac:(lra) (T y)).
    assert (T2 := Rmult_le_compat_l (1 - t) _ _ ltac:(lra) (T x)).
    assert (E : t * (exp z * (1 + (y - z))) + (1 - t) * (exp z * (1 + (x - z))) = exp z)
      by (unfold z; ring).
    lra.
  - intros x y L; assert (X := exp_increasing x y L); lra.
  - rewrite exp_0; lra.
Qed.

Example C55_case : exists rf rf' s' y,
  rootfinder_new (mkSolverParameters 1 (Fin (1 / 10)) 30 NewtonRaphson false) [Fin 1]
    (jac_iteratives 1) (all_abs 1) = Ret rf /\
  solve (model_from_function_and_jacobian (vector_of (fun x => exp x - 1)) (matrix_of exp)) rf
    (user_model_new 1) = Ret (rf', s', Ok tt) /\
  um_inputs s' = [Fin y] /\ 0 <= y <= 1 /\ exp y - 1 <= 1 / 10.
Proof.
  eexists; 
  edestruct (C55_converges (fun x => exp x - 1) exp 0 1 (1 / 10) 30 false) as (rf' & s' & y & H).
  - exact exp_convex_increasing.
  - lra.
  - lra.
  - assert (E := exp_le_3); cbn [INR]; lra.
  - reflexivity.
  - exists rf', s', y; split; [reflexivity|]; decompose [and] H; repeat split; auto; lra.
Qed.
