(** In exact arithmetic, Newton-Raphson runs are runs of Newton's method. *)
From Coq Require Import Reals Lra.
From Verif Require Import Base Num Linalg Residuals Iteratives UserModel Jacobian Solver
  RNum LuFacts XR PropsFD ExactFacts.
Open Scope R_scope.

(** ** Newton's method

    [J x] is the jacobian used at [x], [U] the residuals, [err] the error which
    is compared to the tolerance. The result is the number of completed steps,
    the point reached, and whether the method stopped on a singular jacobian. *)
Section Newton.
Context (J : vec R -> mat R) (U : vec R -> vec R) (err : vec R -> R) (tol : XR).

Fixpoint newton_run (budget : nat) (x : vec R) : nat * vec R * bool :=
  match budget with
  | O => (O, x, false)
  | S budget' =>
      if xltb tol (Fin (err x)) then
        match lu_inverse (J x) with
        | Some H =>
            let '(k, y, b) := newton_run budget' (newton_point U H x) in (S k, y, b)
        | None => (O, x, true)
        end
      else (O, x, false)
  end.

Lemma newton_run_steps : forall budget x k y b, newton_run budget x = (k, y, b) ->
  (k <= budget)%nat /\
  (b = false -> xltb tol (Fin (err y)) = false \/ k = budget) /\
  (b = true -> xltb tol (Fin (err y)) = true /\ lu_inverse (J y) = None /\ (k < budget)%nat).
Proof.
  induction budget as [|budget IH]; intros x k y b Q; cbn [newton_run] in Q.
  - injection Q as <- <- <-; repeat split; auto; discriminate.
  - destruct (xltb tol (Fin (err x))) eqn:T.
    + destruct (lu_inverse (J x)) as [H|] eqn:EH.
      * destruct (newton_run budget (newton_point U H x)) as [[k' y'] b'] eqn:R1.
        injection Q as <- <- <-; destruct (IH _ _ _ _ R1) as (I1 & I2 & I3).
        split; [lia|]; split; [intros Z; destruct (I2 Z); [auto|right; lia]|].
        intros Z; destruct (I3 Z) as (? & ? & ?); repeat split; auto; lia.
      * injection Q as <- <- <-; repeat split; auto; try discriminate; lia.
    + injection Q as <- <- <-; repeat split; auto; try discriminate; lia.
Qed.
End Newton.

Section Run.
Context {St EI EU : Type} (M : Model XR St EI EU) (n : nat) (conf : residuals_config)
  (Good : St -> Prop) (D : vec R -> Prop) (L Rg U E : vec R -> vec R)
  (WB : well_behaved M n conf Good D L Rg U E).

Notation at_point := (at_point M n Good D L Rg).
Notation source := (jacobian_source M n conf Good D L Rg U).

(** The configuration of a Newton-Raphson run without limits. *)
Definition newton_config (rf : rootfinder XR) : Prop :=
  rf_debug rf = false /\ rf_residuals_config rf = conf /\
  Forall unlimited (rf_iters_params rf) /\ length (rf_iters_params rf) = n /\
  sp_resolution_method (rf_parameters rf) = NewtonRaphson.

Context (its : list (iterative XR)) (J : vec R -> mat R) (z : vec R -> vec R)
  (tol : XR) (damping : bool) (P : vec R -> Prop).
Notation err := (fun x => amax (E x)).

(** [P] is kept by the method, contains only points where the problem can be
    evaluated, and where the jacobian used is [J], computed with a last
    evaluation at [z x]; with damping, a step from [P] never increases the
    error. *)
Context (HJ : forall rf x s, rf_iters_params rf = its -> P x -> at_point x s ->
           source rf x s (J x) (z x))
  (HP : forall x H, P x -> length x = n -> xltb tol (Fin (err x)) = true ->
     lu_inverse (J x) = Some H ->
     P (newton_point U H x) /\ D (newton_point U H x) /\
     (damping = true -> amax (E (newton_point U H x)) <= amax (E (z x)))).

Lemma newton_iterate : forall left fuel rf s x, (left < fuel)%nat ->
  newton_config rf -> rf_iters_params rf = its -> sp_tolerance (rf_parameters rf) = tol ->
  sp_damping (rf_parameters rf) = damping -> P x -> at_point x s ->
  (rf_iter rf + left = sp_max_iter (rf_parameters rf))%nat ->
  rf_valid_last rf = true ->
  let '(k, y, sing) := newton_run J U err tol left x in
  exists rf' s', P y /\ rf_parameters rf' = rf_parameters rf /\ rf_valid_last rf' = true /\
    if sing : bool then
      iterate M fuel rf s (Fin (err x))
      = Ret (rf', s', Err (JacobianError InvalidJacobianInverseError)) /\
      rf_iter rf' = S (rf_iter rf + k)
    else
      iterate M fuel rf s (Fin (err x)) = Ret (rf', s', Ok (Fin (err y))) /\
      at_point y s' /\ rf_iter rf' = (rf_iter rf + k)%nat.
Proof.
  induction left as [|left IH]; intros fuel rf s x LF (ND & HC & HU & LI & HM) EI1 HT HD Px HA HN HV;
    (destruct fuel as [|fuel]; [lia|]); cbn [newton_run iterate].
  - exists rf, s; split; [exact Px|]; split; [reflexivity|]; split; [exact HV|].
    replace (Nat.ltb (rf_iter rf) (sp_max_iter (rf_parameters rf))) with false
      by (symmetry; apply Nat.ltb_ge; lia).
    rewrite andb_false_r; split; [reflexivity|]; split; [exact HA|lia].
  - replace (Nat.ltb (rf_iter rf) (sp_max_iter (rf_parameters rf))) with true
      by (symmetry; apply Nat.ltb_lt; lia).
    rewrite andb_true_r; unfold ngtb; rewrite HT; cbn [nltb Num_XR].
    destruct (xltb tol (Fin (amax (E x)))) eqn:ET.
    2: { exists rf, s; split; [exact Px|]; split; [reflexivity|]; split; [exact HV|].
         split; [reflexivity|]; split; [exact HA|lia]. }
    pose proof (HJ rf x s EI1 Px HA) as JS.
    assert (CJ : computes_jacobian rf) by (left; rewrite HM; reflexivity).
    destruct (lu_inverse (J x)) as [H|] eqn:EH.
    + assert (Lx : length x = n) by apply HA.
      destruct (HP x H Px Lx ET EH) as (P1 & D1 & NW).
      destruct (iteration_at M n conf Good D L Rg U E WB rf x s (J x) (z x) H ND HC HU LI CJ HA JS EH D1)
        as (rf1 & s1 & A1 & V1 & F1 & F2 & F3 & F4 & F5 & F6 & EI2).
      { unfold no_worse; rewrite HD; destruct damping; [right; apply NW; reflexivity|left; reflexivity]. }
      rewrite EI2; cbn [bind]; rewrite lift_amax.
      assert (NC : newton_config rf1).
      { split; [exact F4|]; split; [exact F2|]; rewrite F3, F1; auto. }
      specialize (IH fuel rf1 s1 (newton_point U H x) ltac:(lia) NC).
      rewrite F1, F3, F5 in IH.
      specialize (IH EI1 HT HD P1 A1 ltac:(lia) V1).
      destruct (newton_run J U err tol left (newton_point U H x)) as [[k y] b].
      destruct IH as (rf' & s' & I1 & I2 & I3 & I4); exists rf', s'.
      split; [exact I1|]; split; [exact I2|]; split; [exact I3|].
      destruct b; [destruct I4 as (I4 & I5)|destruct I4 as (I4 & I5 & I6)]; rewrite I4.
      * split; [reflexivity|lia].
      * split; [reflexivity|]; split; [exact I5|lia].
    + destruct (step_at M n conf Good D L Rg U E WB (set_iter rf (S (rf_iter rf))) x s (J x) (z x)
                  ND HC HU LI CJ HA JS) as (s1 & A1 & EQ).
      rewrite EH in EQ; destruct EQ as [j EQ].
      unfold iteration; rewrite EQ; cbn [bind].
      eexists _, s1; split; [exact Px|]; split; [|split; [|split; [reflexivity|]]]; cbn; auto; lia.
Qed.

Theorem newton_solve : forall rf s x0, 
  newton_config rf -> rf_iters_params rf = its -> sp_tolerance (rf_parameters rf) = tol ->
  sp_damping (rf_parameters rf) = damping -> rf_iter rf = O -> rf_valid_last rf = true ->
  rf_initial_guess rf = lift x0 -> length x0 = n -> P x0 -> D x0 -> Good s ->
  let '(k, y, sing) := newton_run J U err tol (sp_max_iter (rf_parameters rf)) x0 in
  exists rf' s', P y /\
    if sing : bool then
      solve M rf s = Ret (rf', s', Err (JacobianError InvalidJacobianInverseError)) /\
      rf_iter rf' = S k
    else
      solve M rf s = Ret (rf', s', if xltb tol (Fin (err y)) then Err NonConvergenceError else Ok tt) /\
      at_point y s' /\ rf_iter rf' = k.
Proof.
  intros rf s x0 NC EI1 HT HD H0 HV HG Lx Px Dx Gs.
  destruct (wb_eval _ _ _ _ _ _ _ _ _ WB s x0 Gs Dx Lx) as (s1 & E1 & P1).
  unfold solve; rewrite HG, E1; cbn [bind]; unfold solve_from.
  assert (NC' := NC); destruct NC' as (ND & HC & HU & LI & HM).
  rewrite (errors_at M n conf Good D L Rg U E WB rf x0 s1 HC P1); cbn [bind].
  unfold when_debug; rewrite ND; cbn [bind]; rewrite lift_amax.
  pose proof (newton_iterate (sp_max_iter (rf_parameters rf)) (S (sp_max_iter (rf_parameters rf)))
    rf s1 x0 ltac:(lia) NC EI1 HT HD Px P1 ltac:(lia) HV) as K.
  destruct (newton_run J U err tol (sp_max_iter (rf_parameters rf)) x0) as [[k y] sing].
  destruct K as (rf' & s' & K1 & K2 & K3 & K4); exists rf', s'; split; [exact K1|].
  rewrite H0 in K4; cbn [plus] in K4.
  destruct sing; [destruct K4 as (-> & K5)|destruct K4 as (-> & K5 & K6)]; cbn [bind].
  - split; [reflexivity|exact K5].
  - split; [|split; [exact K5|exact K6]].
    unfold verdict, ngtb; rewrite K2, HT, K3; reflexivity.
Qed.
End Run.
