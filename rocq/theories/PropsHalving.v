(** C89: with damping Newton-Raphson is Newton's method with the step halved once
    when it makes the error larger; what follows on convex functions and on
    rewritten systems (C72). *)
From Coq Require Import Reals Lra.
From Verif Require Import Base Num Linalg Residuals Iteratives UserModel Jacobian Solver
  RNum LuFacts XR PropsQuasi PropsFD ExactFacts ExactRun PropsExact Util1d Props1d LocalFacts
  QuasiRun DampedRun PropsInvariance.
Open Scope R_scope.

Section Halving.
Context (J : vec R -> mat R) (U E : vec R -> vec R) (z : vec R -> vec R) (tol : XR) (damping : bool).

(** The method on real vectors: the number of iterations, the last point, and
    whether a matrix could not be inverted there. *)
Fixpoint damped_run (budget : nat) (x : vec R) : nat * vec R * bool :=
  match budget with
  | O => (O, x, false)
  | S budget' =>
      if xltb tol (Fin (amax (E x))) then
        match lu_inverse (J x) with
        | Some H =>
            let '(k, y, b) := damped_run budget' (kept_point E damping (z x) (newton_point U H x)) in
            (S k, y, b)
        | None => (O, x, true)
        end
      else (O, x, false)
  end.

Lemma damped_run_steps : forall budget x k y b, damped_run budget x = (k, y, b) ->
  (k <= budget)%nat /\
  (b = false -> xltb tol (Fin (amax (E y))) = false \/ k = budget) /\
  (b = true -> xltb tol (Fin (amax (E y))) = true /\ lu_inverse (J y) = None /\ (k < budget)%nat).
Proof.
  induction budget as [|budget IH]; intros x k y b Q; cbn [damped_run] in Q.
  - injection Q as <- <- <-; split; [lia|]; split; [auto|discriminate].
  - destruct (xltb tol (Fin (amax (E x)))) eqn:T.
    2: { injection Q as <- <- <-; split; [lia|]; split; [auto|discriminate]. }
    destruct (lu_inverse (J x)) as [H|] eqn:EH.
    2: { injection Q as <- <- <-; split; [lia|]; split; [discriminate|].
         intros _; split; [exact T|]; split; [exact EH|lia]. }
    destruct (damped_run budget _) as [[k' y'] b'] eqn:R1; injection Q as <- <- <-.
    destruct (IH _ _ _ _ R1) as (I1 & I2 & I3); split; [lia|]; split.
    + intros Q; destruct (I2 Q) as [|]; [left; assumption|right; lia].
    + intros Q; destruct (I3 Q) as (? & ? & ?); repeat split; auto; lia.
Qed.
End Halving.

Section Run.
Context {St EI EU : Type} (M : Model XR St EI EU) (n : nat) (conf : residuals_config)
  (Good : St -> Prop) (D : vec R -> Prop) (L Rg U E : vec R -> vec R)
  (WB : well_behaved M n conf Good D L Rg U E).
Notation at_point := (at_point M n Good D L Rg).
Notation source := (jacobian_source M n conf Good D L Rg U).
Context (its : list (iterative XR)) (J : vec R -> mat R) (z : vec R -> vec R)
  (tol : XR) (damping : bool) (P : vec R -> Prop).
Notation next H x := (kept_point E damping (z x) (newton_point U H x)).

(** [P] is kept by the method and contains only points where the problem can be
    evaluated, so can the points in between. *)
Context (HJ : forall rf x s, rf_iters_params rf = its -> P x -> at_point x s ->
           source rf x s (J x) (z x))
  (HP : forall x H, P x -> length x = n -> xltb tol (Fin (amax (E x))) = true ->
     lu_inverse (J x) = Some H ->
     P (next H x) /\ D (newton_point U H x) /\ D (midpoint (z x) (newton_point U H x))).

Lemma damped_iterate : forall left fuel rf s x, (left < fuel)%nat ->
  newton_config n conf rf -> rf_iters_params rf = its -> sp_tolerance (rf_parameters rf) = tol ->
  sp_damping (rf_parameters rf) = damping -> P x -> at_point x s ->
  (rf_iter rf + left = sp_max_iter (rf_parameters rf))%nat ->
  rf_valid_last rf = true ->
  let '(k, y, sing) := damped_run J U E z tol damping left x in
  exists rf' s', P y /\ rf_parameters rf' = rf_parameters rf /\ rf_valid_last rf' = true /\
    if sing : bool then
      iterate M fuel rf s (Fin (amax (E x)))
      = Ret (rf', s', Err (JacobianError InvalidJacobianInverseError)) /\
      rf_iter rf' = S (rf_iter rf + k)
    else
      iterate M fuel rf s (Fin (amax (E x))) = Ret (rf', s', Ok (Fin (amax (E y)))) /\
      at_point y s' /\ rf_iter rf' = (rf_iter rf + k)%nat.
Proof.
  induction left as [|left IH]; intros fuel rf s x LF (ND & HC & HU & LI & HM) EI1 HT HD Px HA HN HV;
    (destruct fuel as [|fuel]; [lia|]); cbn [damped_run iterate].
  - exists rf, s; split; [exact Px|]; split; [reflexivity|]; split; [exact HV|].
    replace (Nat.ltb (rf_iter rf) (sp_max_iter (rf_parameters rf))) with false
      by (symmetry; apply Nat.ltb_ge; lia).
    rewrite andb_false_r; split; [reflexivity|]; split; [exact HA|lia].
  - replace (Nat.ltb (rf_iter rf) (sp_max_iter (rf_parameters rf))) with true
      by (symmetry; apply Nat.ltb_lt; lia).
    rewrite andb_true_r; unfold ngtb; rewrite HT; cbn [nltb Num_XR].
    destruct (xltb tol (Fin (amax (E x)))) eqn:ET.
    2: { exists rf, s; split; [exact Px|]; split; [reflexivity|]; split; [exact HV|].
         split; [reflexivity|]; split; [exact HA|lia]. }
    pose proof (HJ rf x s EI1 Px HA) as JS.
    assert (CJ : computes_jacobian rf) by (left; rewrite HM; reflexivity).
    destruct (step_at M n conf Good D L Rg U E WB (set_iter rf (S (rf_iter rf))) x s (J x) (z x)
                ND HC HU LI CJ HA JS) as (s1 & A1 & EQ).
    destruct (lu_inverse (J x)) as [H|] eqn:EH.
    + assert (Lx : length x = n) by apply HA.
      destruct (HP x H Px Lx ET EH) as (P1 & D1 & D2).
      destruct EQ as (_ & MH & _ & _ & EQ).
      assert (LW : length (newton_point U H x) = n) by (apply (newton_point_length n); assumption).
      set (rf0 := set_jacobian (set_iter rf (S (rf_iter rf))) (exact_jacobian (J x) H)) in *.
      destruct (update_kept M n conf Good D L Rg U E WB rf0 (z x) s1 (newton_point U H x))
        as (rf1 & s2 & y0 & Y & A2 & V1 & SE & QU); auto.
      destruct SE as (F1 & F2 & F3 & F4 & F5 & F6); change (rf_parameters rf0) with (rf_parameters rf) in *.
      change (rf_residuals_config rf0) with (rf_residuals_config rf) in F2.
      change (rf_iters_params rf0) with (rf_iters_params rf) in F3.
      change (rf_debug rf0) with (rf_debug rf) in F4.
      change (rf_iter rf0) with (S (rf_iter rf)) in F5.
      unfold iteration; rewrite EQ; cbn [bind]; rewrite QU; cbn [bind]; rewrite lift_amax.
      rewrite HD in Y; rewrite <- Y in P1; rewrite <- Y.
      assert (NC : newton_config n conf rf1).
      { split; [rewrite F4; exact ND|]; split; [rewrite F2; exact HC|]; rewrite F3, F1; auto. }
      specialize (IH fuel rf1 s2 y0 ltac:(lia) NC).
      rewrite F1, F3, F5 in IH.
      specialize (IH EI1 HT HD P1 A2 ltac:(lia) V1).
      destruct (damped_run J U E z tol damping left y0) as [[k y] b].
      destruct IH as (rf' & s' & I1 & I2 & I3 & I4); exists rf', s'.
      split; [exact I1|]; split; [exact I2|]; split; [exact I3|].
      destruct b; [destruct I4 as (I4 & I5)|destruct I4 as (I4 & I5 & I6)]; rewrite I4.
      * split; [reflexivity|lia].
      * split; [reflexivity|]; split; [exact I5|lia].
    + destruct EQ as [j EQ].
      unfold iteration; rewrite EQ; cbn [bind].
      eexists _, s1; split; [exact Px|]; split; [|split; [|split; [reflexivity|]]]; cbn; auto; lia.
Qed.

Theorem damped_solve : forall rf s x0,
  newton_config n conf rf -> rf_iters_params rf = its -> sp_tolerance (rf_parameters rf) = tol ->
  sp_damping (rf_parameters rf) = damping -> rf_iter rf = O -> rf_valid_last rf = true ->
  rf_initial_guess rf = lift x0 -> length x0 = n -> P x0 -> D x0 -> Good s ->
  let '(k, y, sing) := damped_run J U E z tol damping (sp_max_iter (rf_parameters rf)) x0 in
  exists rf' s', P y /\
    if sing : bool then
      solve M rf s = Ret (rf', s', Err (JacobianError InvalidJacobianInverseError)) /\
      rf_iter rf' = S k
    else
      solve M rf s
      = Ret (rf', s', if xltb tol (Fin (amax (E y))) then Err NonConvergenceError else Ok tt) /\
      at_point y s' /\ rf_iter rf' = k.
Proof.
  intros rf s x0 NC EI1 HT HD H0 HV HG Lx Px Dx Gs.
  destruct (wb_eval _ _ _ _ _ _ _ _ _ WB s x0 Gs Dx Lx) as (s1 & E1 & P1).
  unfold solve; rewrite HG, E1; cbn [bind]; unfold solve_from.
  assert (NC' := NC); destruct NC' as (ND & HC & HU & LI & HM).
  rewrite (errors_at M n conf Good D L Rg U E WB rf x0 s1 HC P1); cbn [bind].
  unfold when_debug; rewrite ND; cbn [bind]; rewrite lift_amax.
  pose proof (damped_iterate (sp_max_iter (rf_parameters rf)) (S (sp_max_iter (rf_parameters rf)))
    rf s1 x0 ltac:(lia) NC EI1 HT HD Px P1 ltac:(lia) HV) as K.
  destruct (damped_run J U E z tol damping (sp_max_iter (rf_parameters rf)) x0) as [[k y] sing].
  destruct K as (rf' & s' & K1 & K2 & K3 & K4); exists rf', s'; split; [exact K1|].
  rewrite H0 in K4; cbn [plus] in K4.
  destruct sing; [destruct K4 as (-> & K5)|destruct K4 as (-> & K5 & K6)]; cbn [bind].
  - split; [reflexivity|exact K5].
  - split; [|split; [exact K5|exact K6]].
    unfold verdict, ngtb; rewrite K2, HT, K3; reflexivity.
Qed.
End Run.

(** ** C89 *)

(** One iteration as documented: Newton's step, or half of it if the error would
    be larger at its end. *)
Definition damped_step (n : nat) (J : vec R -> mat R) (r : vec R -> vec R) (err : vec R -> R)
  (x x' : vec R) : Prop :=
  exists H w, square n H /\ inverse_of n (J x) H /\ length w = n /\
    (forall i, (i < n)%nat -> vent w i = vent x i - app n H (r x) i) /\ length x' = n /\
    (err w <= err x /\ x' = w \/
     err x < err w /\ forall i, (i < n)%nat -> vent x' i = (vent x i + vent w i) / 2).

(** [k] iterations lead from [x] to [y], each from a point above the tolerance. *)
Inductive damped_path (n : nat) (J : vec R -> mat R) (r : vec R -> vec R) (err : vec R -> R)
  (tol : R) : nat -> vec R -> vec R -> Prop :=
| damped_stay x : damped_path n J r err tol O x x
| damped_move k x x' y : err x > tol -> damped_step n J r err x x' ->
    damped_path n J r err tol k x' y -> damped_path n J r err tol (S k) x y.

Lemma kept_length n E d z w : length z = n -> length w = n -> length (kept_point E d z w) = n.
Proof.
  intros Lz Lw; unfold kept_point; destruct (d && _); [|exact Lw].
  rewrite midpoint_length; congruence.
Qed.

Lemma damped_run_path n (J : vec R -> mat R) (r E : vec R -> vec R) (err : vec R -> R) tol :
  (forall x, length x = n -> square n (J x) /\ length (r x) = n /\ amax (E x) = err x) ->
  forall budget x k y b, length x = n ->
  damped_run J r E (fun x => x) (Fin tol) true budget x = (k, y, b) ->
  length y = n /\ damped_path n J r err tol k x y.
Proof.
  intros HJ; induction budget as [|budget IH]; intros x k y b Lx Q; cbn [damped_run] in Q.
  - injection Q as <- <- <-; split; [exact Lx|constructor].
  - destruct (HJ x Lx) as (MJ & LR & EX); rewrite EX in Q.
    cbn [xltb] in Q; destruct (Rltb tol (err x)) eqn:T.
    2: { injection Q as <- <- <-; split; [exact Lx|constructor]. }
    destruct (lu_inverse (J x)) as [H|] eqn:EH.
    2: { injection Q as <- <- <-; split; [exact Lx|constructor]. }
    destruct (damped_run J r E _ (Fin tol) true budget _) as [[k' y'] b'] eqn:R1.
    injection Q as <- <- <-.
    destruct (C60_inverse n (J x) H MJ EH) as [MH IN].
    assert (Lw : length (newton_point r H x) = n) by (apply (newton_point_length n); assumption).
    assert (Lk := kept_length n E true x _ Lx Lw).
    destruct (IH _ _ _ _ Lk R1) as [Ly PA]; split; [exact Ly|].
    apply damped_move with (x' := kept_point E true x (newton_point r H x)); [|clear IH R1 PA|exact PA].
    { apply Rltb_true in T; lra. }
    exists H, (newton_point r H x); split; [exact MH|]; split; [exact IN|]; split; [exact Lw|].
    split; [intros i Hi; apply (newton_point_entry n); assumption|]; split; [exact Lk|].
    unfold kept_point; destruct (HJ _ Lw) as (_ & _ & EW); rewrite EX, EW; cbn [andb].
    destruct (Rltb (err x) (err (newton_point r H x))) eqn:C; [right|left].
    + apply Rltb_true in C; split; [exact C|]; intros i Hi; apply midpoint_entry; congruence.
    + apply Rltb_false in C; split; [exact C|reflexivity].
Qed.

Theorem C89_damped_newton : forall n func jac (f : vec R -> vec R) (J : vec R -> mat R)
  x0 tol maxit rf,
  (forall x, length x = n -> func (lift x) = lift (f x) /\ length (f x) = n) ->
  (forall x, length x = n -> jac (lift x) = liftm (J x) /\ square n (J x)) ->
  length x0 = n ->
  rootfinder_new (mkSolverParameters n (Fin tol) maxit NewtonRaphson true) (lift x0)
    (jac_iteratives n) (all_abs n) = Ret rf ->
  exists rf' s' k y,
    damped_path n J f (fun x => amax (f x)) tol k x0 y /\ length y = n /\
    is_error n f y (amax (f y)) /\ (k <= maxit)%nat /\
    ((solve (model_from_function_and_jacobian func jac) rf (user_model_new n)
      = Ret (rf', s', Ok tt) /\ um_inputs s' = lift y /\ rf_iter rf' = k /\ amax (f y) <= tol) \/
     (solve (model_from_function_and_jacobian func jac) rf (user_model_new n)
      = Ret (rf', s', Err NonConvergenceError) /\
      um_inputs s' = lift y /\ rf_iter rf' = k /\ k = maxit /\ amax (f y) > tol) \/
     (solve (model_from_function_and_jacobian func jac) rf (user_model_new n)
      = Ret (rf', s', Err (JacobianError InvalidJacobianInverseError)) /\
      rf_iter rf' = S k /\ (k < maxit)%nat /\ amax (f y) > tol /\ singular n (J y))).
Proof.
  intros n func jac f J x0 tol maxit rf Hf HJ Lx HN; apply new_fields in HN.
  set (D := fun _ : vec R => True).
  assert (FP := adapter_problem n D func f (fun x _ => Hf x) (fun _ => true) (um_get_jacobian jac)).
  assert (WB := abs_well_behaved _ n _ _ _ _ FP).
  assert (HA := adapter_analytic n D func f (fun x _ => Hf x) jac J (fun x _ => HJ x)).
  set (M := model_from_function_and_jacobian func jac) in *.
  assert (RES : forall x, length x = n -> residuals_of f (fun _ => vzeros n) x = f x).
  { intros x Q; unfold residuals_of; apply (vec_ext _ _ n).
    - apply (len_sub n); [apply Hf; exact Q|apply repeat_length].
    - apply Hf; exact Q.
    - intros i Hi; rewrite (ent_sub n); [|apply Hf; exact Q|apply repeat_length|exact Hi].
      replace (vent (vzeros n) i) with 0 by (symmetry; exact (nth_repeat 0 n i)); lra. }
  set (U := residuals_of f (fun _ => vzeros n)) in *.
  assert (SOL := damped_solve M n (all_abs n) (adapter_good n) D f (fun _ => vzeros n) U
    (fun x => vabs (U x)) WB (jac_iteratives n) J (fun x => x) (Fin tol) true (fun _ => True)).
  specialize (SOL ltac:(intros rf1 x s _ _ _; left; exists J; auto)).
  specialize (SOL ltac:(intros; repeat split)).
  specialize (SOL rf (user_model_new n) x0).
  assert (NC : newton_config n (all_abs n) rf).
  { subst rf; repeat split; [apply default_jac_unlimited|].
    cbn [rf_iters_params]; unfold jac_iteratives, default_vec_iteratives.
    rewrite map_length, repeat_length; reflexivity. }
  assert (MI : sp_max_iter (rf_parameters rf) = maxit) by (subst rf; reflexivity).
  rewrite MI in SOL.
  specialize (SOL NC ltac:(subst rf; reflexivity) ltac:(subst rf; reflexivity)
    ltac:(subst rf; reflexivity) ltac:(subst rf; reflexivity) ltac:(subst rf; reflexivity)
    ltac:(subst rf; reflexivity) Lx I I (fresh_good n)).
  destruct (damped_run J U (fun x => vabs (U x)) (fun x => x) (Fin tol) true maxit x0)
    as [[k y] sing] eqn:ER.
  assert (EE : forall y, length y = n -> amax (vabs (U y)) = amax (f y)).
  { intros v Lv; rewrite amax_vabs, RES by exact Lv; reflexivity. }
  assert (HJU : forall x, length x = n -> square n (J x) /\ length (U x) = n /\
    amax (vabs (U x)) = amax (f x)).
  { intros x Q; split; [apply HJ; exact Q|]; split; [rewrite RES by exact Q; apply Hf; exact Q|auto]. }
  destruct (damped_run_path n J U (fun x => vabs (U x)) (fun x => amax (f x)) tol HJU
    maxit x0 k y sing Lx ER) as [Ly PA].
  destruct (damped_run_steps _ _ _ _ _ _ _ _ _ _ _ ER) as (S1 & S2 & S3).
  assert (PA' : damped_path n J f (fun x => amax (f x)) tol k x0 y).
  { clear - PA RES Lx; induction PA as [x|k x x' y E1 (H & w & MH & IN & Lw & F' & L' & Q) PA' IH];
      [constructor|].
    apply damped_move with (x' := x'); [exact E1| |exact (IH L')].
    exists H, w; split; [exact MH|]; split; [exact IN|]; split; [exact Lw|].
    split; [|split; [exact L'|exact Q]].
    intros i Hi; rewrite F', RES by assumption; reflexivity. }
  rewrite (EE y Ly) in S2, S3; cbn [xltb] in S2, S3.
  destruct SOL as (rf' & s' & _ & SOL); exists rf', s', k, y.
  split; [exact PA'|]; split; [exact Ly|]; split; [apply amax_is_error, Hf, Ly|].
  split; [exact S1|].
  destruct sing.
  - destruct SOL as [SOL SI]; right; right; split; [exact SOL|]; split; [exact SI|].
    destruct (S3 eq_refl) as (T1 & T2 & T3); split; [exact T3|].
    apply Rltb_true in T1; split; [lra|].
    apply C60_fails_only_on_singular; [apply HJ; exact Ly|exact T2].
  - destruct SOL as (SOL & SA & SI); cbn beta in SOL; rewrite (EE y Ly) in SOL; cbn [xltb] in SOL.
    destruct (Rltb tol (amax (f y))) eqn:T.
    + right; left; split; [exact SOL|]; split; [apply SA|]; split; [exact SI|].
      apply Rltb_true in T; split; [|lra].
      destruct (S2 eq_refl) as [Q|Q]; [discriminate|exact Q].
    + left; split; [exact SOL|]; split; [apply SA|]; split; [exact SI|].
      apply Rltb_false in T; exact T.
Qed.
Print Assumptions C89_damped_newton.

(** ** Rewritten systems (C72) *)

Lemma damped_first n J f e t k x y : damped_path n J f e t (S k) x y ->
  exists x', e x > t /\ damped_step n J f e x x' /\ damped_path n J f e t k x' y.
Proof.
  intros P; remember (S k) as m eqn:EM; destruct P as [|m' x x' y T D P]; [discriminate|].
  injection EM as ->; exists x'; auto.
Qed.
Lemma damped_none n J f e t x y : damped_path n J f e t O x y -> y = x.
Proof. intros P; remember O as m eqn:EM; destruct P; [reflexivity|discriminate]. Qed.

Lemma damped_cut n J f e t : forall k m x y, damped_path n J f e t (k + m) x y ->
  exists w, damped_path n J f e t k x w /\ damped_path n J f e t m w y.
Proof.
  induction k as [|k IH]; intros m x y P.
  - exists x; split; [constructor|exact P].
  - cbn [Nat.add] in P; apply damped_first in P; destruct P as (x' & T & D & P').
    destruct (IH m x' y P') as (w & P1 & P2); exists w; split; [|exact P2].
    apply damped_move with (x' := x'); assumption.
Qed.

Section DampedChange.
Context (n : nat) (A : mat R) (b : vec R)
  (comb : (nat -> R) -> nat -> R)
  (comb_inj : forall u v, (forall i, (i < n)%nat -> comb u i = comb v i) ->
     forall k, (k < n)%nat -> u k = v k)
  (f1 f2 : vec R -> vec R) (J1 J2 : vec R -> mat R)
  (HF : forall z x, change n A b z x -> forall i, (i < n)%nat ->
     vent (f2 z) i = comb (vent (f1 x)) i)
  (HJ : forall z x, change n A b z x -> forall w i, (i < n)%nat ->
     ap n (J2 z) w i = comb (ap n (J1 x) (ap n A w)) i)
  (e1 e2 : vec R -> R) (HE : forall z x, change n A b z x -> e1 x = e2 z).

Lemma damped_step_change z x z' x' : change n A b z x ->
  damped_step n J1 f1 e1 x x' -> damped_step n J2 f2 e2 z z' -> change n A b z' x'.
Proof.
  intros C (H1 & w1 & _ & I1 & L1 & Q1 & M1 & K1) (H2 & w2 & _ & I2 & L2 & Q2 & M2 & K2).
  assert (CW : change n A b w2 w1)
    by exact (step_change n A b comb comb_inj f1 f2 J1 J2 HF HJ z x H1 H2 w2 w1 C I1 I2 L2 L1 Q1 Q2).
  rewrite (HE z x C), (HE w2 w1 CW) in K1.
  destruct K1 as [[T1 ->]|[T1 K1]], K2 as [[T2 ->]|[T2 K2]]; try lra; [exact CW|].
  split; [exact M2|]; split; [exact M1|]; intros i Hi; rewrite K1 by exact Hi.
  destruct C as (_ & _ & C), CW as (_ & _ & CW); rewrite (C i Hi), (CW i Hi).
  assert (Q3 : app n A z' i = (app n A z i + app n A w2 i) / 2).
  { unfold app, Rdiv; rewrite <- rsum_plus, <- rsum_scal_r; apply rsum_ext; intros k Hk.
    rewrite K2 by exact Hk; unfold Rdiv; ring. }
  rewrite Q3; lra.
Qed.

Lemma damped_path_change t1 t2 : forall k x y, damped_path n J1 f1 e1 t1 k x y ->
  forall z y2, change n A b z x -> damped_path n J2 f2 e2 t2 k z y2 -> change n A b y2 y.
Proof.
  intros k x y P1; induction P1 as [x|k x x' y T1 D1 P1 IH]; intros z y2 C P2.
  - apply damped_none in P2; rewrite P2; exact C.
  - apply damped_first in P2; destruct P2 as (z' & T2 & D2 & P2').
    apply (IH z'); [|exact P2'].
    apply (damped_step_change z x); assumption.
Qed.
End DampedChange.

(** Reordered equations, exchanged members, other unknowns: the damped method
    does the same as well. *)
Theorem C72_same_run_damped :
  forall n A Ai b p q sg func1 jac1 f1 J1 func2 jac2 f2 J2 x0 z0 tol maxit rf1 rf2,
  inverse_of n A Ai -> reordering n p q -> signs n sg ->
  computes n func1 jac1 f1 J1 -> computes n func2 jac2 f2 J2 ->
  (forall z x, change n A b z x -> forall i, (i < n)%nat ->
     vent (f2 z) i = sg i * vent (f1 x) (p i)) ->
  (forall z x, change n A b z x -> forall i j, (i < n)%nat -> (j < n)%nat ->
     ment (J2 z) i j = sg i * rsum n (fun l => ment (J1 x) (p i) l * ment A l j)) ->
  change n A b z0 x0 ->
  rootfinder_new (mkSolverParameters n (Fin tol) maxit NewtonRaphson true) (lift x0)
    (jac_iteratives n) (all_abs n) = Ret rf1 ->
  rootfinder_new (mkSolverParameters n (Fin tol) maxit NewtonRaphson true) (lift z0)
    (jac_iteratives n) (all_abs n) = Ret rf2 ->
  exists rf1' s1' rf2' s2' v,
    solve (model_from_function_and_jacobian func1 jac1) rf1 (user_model_new n) = Ret (rf1', s1', v) /\
    solve (model_from_function_and_jacobian func2 jac2) rf2 (user_model_new n) = Ret (rf2', s2', v) /\
    rf_iter rf1' = rf_iter rf2' /\
    (v = Ok tt \/ v = Err NonConvergenceError ->
     exists z x, change n A b z x /\ um_inputs s1' = lift x /\ um_inputs s2' = lift z).
Proof.
  intros n A Ai b p q sg func1 jac1 f1 J1 func2 jac2 f2 J2 x0 z0 tol maxit
    rf1 rf2 IA RE SG [F1 G1] [F2 G2] HF HJ C N1 N2.
  destruct (C89_damped_newton n func1 jac1 f1 J1 x0 tol maxit rf1 F1 G1 ltac:(apply C) N1)
    as (q1 & t1 & k1 & y1 & P1 & L1 & _ & B1 & E1).
  destruct (C89_damped_newton n func2 jac2 f2 J2 z0 tol maxit rf2 F2 G2 ltac:(apply C) N2)
    as (q2 & t2 & k2 & y2 & P2 & L2 & _ & B2 & E2).
  set (comb := fun (u : nat -> R) (i : nat) => sg i * u (p i)).
  assert (INJ : forall u v, (forall i, (i < n)%nat -> comb u i = comb v i) ->
     forall k, (k < n)%nat -> u k = v k).
  { intros u v Q k Hk; destruct (RE k Hk) as (_ & Hq & _ & PQ).
    specialize (Q (q k) Hq); unfold comb in Q; rewrite PQ in Q.
    destruct (SG (q k) Hq) as [S|S]; rewrite S in Q; lra. }
  assert (ZERO : forall u, (forall k, (k < n)%nat -> u k = 0) ->
     forall i, (i < n)%nat -> comb u i = 0).
  { intros u Q i Hi; unfold comb; rewrite Q; [lra|apply RE; exact Hi]. }
  assert (HJ' : forall z x, change n A b z x -> forall w i, (i < n)%nat ->
     ap n (J2 z) w i = comb (ap n (J1 x) (ap n A w)) i).
  { intros z x CZ w i Hi; unfold comb; rewrite ap_ap; unfold ap, prod; rewrite <- rsum_scal_l.
    apply rsum_ext; intros j Hj; rewrite (HJ z x CZ i j Hi Hj); ring. }
  assert (ERR : forall z x, change n A b z x -> amax (f1 x) = amax (f2 z)).
  { intros z x CZ; assert (LX : length (f1 x) = n) by apply F1, CZ.
    assert (LZ : length (f2 z) = n) by apply F2, CZ.
    assert (AB : forall i, (i < n)%nat -> Rabs (vent (f2 z) i) = Rabs (vent (f1 x) (p i))).
    { intros i Hi; rewrite (HF z x CZ i Hi); destruct (SG i Hi) as [-> | ->]; [f_equal; ring|].
      rewrite <- (Rabs_Ropp (vent (f1 x) (p i))); f_equal; ring. }
    apply Rle_antisym.
    - apply amax_le; [|intros i Hi; rewrite LX in Hi]; [apply amax_nonneg|].
      destruct (RE i Hi) as (_ & Hq & _ & PQ); rewrite <- PQ, <- (AB (q i) Hq).
      apply amax_entry; rewrite LZ; exact Hq.
    - apply amax_le; [|intros i Hi; rewrite LZ in Hi]; [apply amax_nonneg|].
      rewrite (AB i Hi); apply amax_entry; rewrite LX; apply RE; exact Hi. }
  assert (PC : forall k x y z w, damped_path n J1 f1 (fun x => amax (f1 x)) tol k x y ->
    change n A b z x -> damped_path n J2 f2 (fun x => amax (f2 x)) tol k z w -> change n A b w y).
  { intros k x y z w Q1 CZ Q2.
    exact (damped_path_change n A b comb INJ f1 f2 J1 J2 HF HJ' _ _ ERR _ _ k x y Q1 z w CZ Q2). }
  destruct (Nat.lt_trichotomy k1 k2) as [LT|[EQ|LT]].
  - exfalso.
    replace k2 with (k1 + S (k2 - S k1))%nat in P2 by lia.
    destruct (damped_cut _ _ _ _ _ _ _ _ _ P2) as (w & PA & PB).
    apply damped_first in PB; destruct PB as (w' & T & (H & _ & _ & I & _) & _).
    assert (CW := PC k1 x0 y1 z0 w P1 C PA).
    rewrite <- (ERR w y1 CW) in T.
    destruct E1 as [(_ & _ & _ & Q)|[(_ & _ & _ & Q & _)|(_ & _ & _ & _ & Q)]]; [lra|lia|].
    exact (regular_change n A Ai b IA comb ZERO J1 J2 HJ' w y1 H CW I Q).
  - subst k2; assert (CY := PC k1 x0 y1 z0 y2 P1 C P2).
    assert (EE := ERR y2 y1 CY).
    destruct E1 as [(E1 & U1 & K1 & T1)|[(E1 & U1 & K1 & M1 & T1)|(E1 & K1 & M1 & T1 & S1)]],
      E2 as [(E2 & U2 & K2 & T2)|[(E2 & U2 & K2 & M2 & T2)|(E2 & K2 & M2 & T2 & S2)]];
      try lra; try lia.
    + exists q1, t1, q2, t2, (Ok tt); split; [exact E1|]; split; [exact E2|]; split; [congruence|].
      intros _; exists y2, y1; auto.
    + exists q1, t1, q2, t2, (Err NonConvergenceError).
      split; [exact E1|]; split; [exact E2|]; split; [congruence|].
      intros _; exists y2, y1; auto.
    + exists q1, t1, q2, t2, (Err (JacobianError InvalidJacobianInverseError)).
      split; [exact E1|]; split; [exact E2|]; split; [congruence|].
      intros [Q|Q]; discriminate.
  - exfalso.
    replace k1 with (k2 + S (k1 - S k2))%nat in P1 by lia.
    destruct (damped_cut _ _ _ _ _ _ _ _ _ P1) as (w & PA & PB).
    apply damped_first in PB; destruct PB as (w' & T & (H & _ & _ & I & _) & _).
    assert (CW := PC k2 x0 w z0 y2 PA C P2).
    rewrite (ERR y2 w CW) in T.
    destruct E2 as [(_ & _ & _ & Q)|[(_ & _ & _ & Q & _)|(_ & _ & _ & _ & Q)]]; [lra|lia|].
    exact (singular_change n A Ai b IA comb INJ ZERO J1 J2 HJ' y2 w H CW I Q).
Qed.
Print Assumptions C72_same_run_damped.

Example C72_case_damped : forall maxit tol, exists rf1 rf2 rf1' s1' rf2' s2' v,
  rootfinder_new (mkSolverParameters 2 (Fin tol) maxit NewtonRaphson true) (lift [2; 1])
    (jac_iteratives 2) (all_abs 2) = Ret rf1 /\
  rootfinder_new (mkSolverParameters 2 (Fin tol) maxit NewtonRaphson true) (lift [1; 0])
    (jac_iteratives 2) (all_abs 2) = Ret rf2 /\
  solve (model_from_function_and_jacobian (on_pair pair_f1) (on_pair_m pair_J1)) rf1
    (user_model_new 2) = Ret (rf1', s1', v) /\
  solve (model_from_function_and_jacobian (on_pair pair_f2) (on_pair_m pair_J2)) rf2
    (user_model_new 2) = Ret (rf2', s2', v) /\
  rf_iter rf1' = rf_iter rf2'.
Proof.
  intros maxit tol; eexists; eexists.
  edestruct (C72_same_run_damped 2 pair_A [[1 / 2; 0]; [0; 1]] [0; 1] (fun i => (1 - i)%nat)
    (fun i => (1 - i)%nat) (fun i => match i with O => -1 | _ => 1 end)
    (on_pair pair_f1) (on_pair_m pair_J1) pair_f1 pair_J1
    (on_pair pair_f2) (on_pair_m pair_J2) pair_f2 pair_J2 [2; 1] [1; 0] tol maxit)
    as (rf1' & s1' & rf2' & s2' & v & E1 & E2 & E3 & _).
  - intros i j Hi Hj; destruct i as [|[|]], j as [|[|]]; try lia;
      cbv [prod rsum ment nth pair_A delta Nat.eqb]; split; lra.
  - intros [|[|i]] Hi; repeat split; lia.
  - intros [|[|i]] Hi; auto; lia.
  - exact pair_computes1.
  - exact pair_computes2.
  - intros z x CZ i Hi; apply pair_change in CZ; destruct CZ as (u & w & -> & ->).
    destruct i as [|[|i]]; try lia; cbv [vent nth pair_f1 pair_f2 Nat.sub]; ring.
  - intros z x CZ i j Hi Hj; apply pair_change in CZ; destruct CZ as (u & w & -> & ->).
    destruct i as [|[|i]], j as [|[|j]]; try lia;
      cbv [rsum ment vent nth pair_J1 pair_J2 pair_A Nat.sub]; ring.
  - split; [reflexivity|]; split; [reflexivity|]; intros [|[|i]] Hi; try lia;
      cbv [vent nth app rsum ment pair_A]; lra.
  - reflexivity.
  - reflexivity.
  - exists rf1', s1', rf2', s2', v; split; [reflexivity|]; split; [reflexivity|]; auto.
Qed.

(** ** C90: convex increasing functions, from any guess *)

(** Newton's step or, if it makes the error larger, half of it. *)
Definition moves (f df : R -> R) (a c : R) : Prop :=
  c = a - f a / df a \/
  Rabs (f a) < Rabs (f (a - f a / df a)) /\ c = (a + (a - f a / df a)) / 2.

Inductive walk (f df : R -> R) (t : R) : nat -> R -> R -> Prop :=
| walk_stay a : walk f df t O a a
| walk_step k a c y : t < Rabs (f a) -> moves f df a c -> walk f df t k c y ->
    walk f df t (S k) a y.

Lemma inverse_1 (j : R) H : j <> 0 -> square 1 H -> inverse_of 1 [[j]] H -> ment H 0 0 = / j.
Proof.
  intros Nj _ I; destruct (I O O ltac:(lia) ltac:(lia)) as [Q _].
  unfold prod in Q; cbn [rsum] in Q; change (ment [[j]] 0 0) with j in Q.
  change (delta 0 0) with 1 in Q; apply Rmult_eq_reg_l with j; [|exact Nj]; rewrite Rinv_r by exact Nj.
  lra.
Qed.

Lemma one_point (v : vec R) : length v = 1%nat -> exists a, v = [a].
Proof. destruct v as [|a [|]]; try discriminate; eauto. Qed.

Section Walk.
Context (f df : R -> R) (Ndf : forall a, df a <> 0) (t : R).

Lemma newton_1 H a w : square 1 H -> inverse_of 1 (one_dim_jac df [a]) H ->
  (forall i, (i < 1)%nat -> vent [w] i = vent [a] i - app 1 H (one_dim f [a]) i) ->
  w = a - f a / df a.
Proof.
  intros SH I Q; specialize (Q O ltac:(lia)); unfold app in Q; cbn [rsum] in Q.
  rewrite (inverse_1 (df a) H (Ndf a) SH I) in Q; cbn [vent nth one_dim map] in Q.
  rewrite Q; unfold Rdiv; lra.
Qed.

Lemma amax_1 a : amax (one_dim f [a]) = Rabs (f a).
Proof. reflexivity. Qed.

Lemma newton_walk k x y :
  newton_path 1 (one_dim_jac df) (one_dim f) (fun x => amax (one_dim f x)) t k x y ->
  forall a, x = [a] -> exists c, y = [c] /\ walk f df t k a c.
Proof.
  intros P; induction P as [x|k x x' y H T SH I L E P IH]; intros a Q.
  - exists a; split; [exact Q|constructor].
  - subst x; apply one_point in L; destruct L as [c ->].
    destruct (IH c eq_refl) as (d & -> & W); exists d; split; [reflexivity|].
    apply walk_step with (c := c); [exact T| |exact W].
    left; exact (newton_1 H a c SH I E).
Qed.

Lemma damped_walk k x y :
  damped_path 1 (one_dim_jac df) (one_dim f) (fun x => amax (one_dim f x)) t k x y ->
  forall a, x = [a] -> exists c, y = [c] /\ walk f df t k a c.
Proof.
  intros P; induction P as [x|k x x' y T (H & w & SH & I & Lw & E & L & K) P IH]; intros a Q.
  - exists a; split; [exact Q|constructor].
  - subst x; apply one_point in L, Lw; destruct L as [c ->], Lw as [w' ->].
    destruct (IH c eq_refl) as (d & -> & W); exists d; split; [reflexivity|].
    apply walk_step with (c := c); [exact T| |exact W].
    assert (EW := newton_1 H a w' SH I E); unfold moves; rewrite <- EW.
    destruct K as [[_ K]|[K1 K2]]; [left; injection K as ->; reflexivity|right].
    rewrite !amax_1 in K1; split; [exact K1|exact (K2 O ltac:(lia))].
Qed.
End Walk.

Section ConvexWalk.
Context (f df : R -> R) (r : R) (C : convex_increasing f df r) (t : R) (Ht : 0 < t).

Lemma below_root x : x < r -> f x < 0.
Proof. intros L; rewrite <- (ci_root _ _ _ C); apply (ci_increasing _ _ _ C), L. Qed.

Lemma slope_0 x : df x <> 0.
Proof. assert (S := slope_positive f df r C x); lra. Qed.

Lemma larger_after x y : r <= y -> f x <= f y -> x <= y.
Proof.
  intros Hy L; destruct (Rle_lt_dec x y) as [|G]; [assumption|].
  assert (I := ci_increasing _ _ _ C y x G); lra.
Qed.

(** From the right, the step is never halved. *)
Lemma walk_right X : forall k a y, walk f df t k a y -> r <= a <= X ->
  r <= y /\ y <= a - INR k * (t / df X).
Proof.
  intros k a y W; induction W as [a|k a c y T Mv W IH]; intros Ha.
  - cbn [INR]; lra.
  - destruct (step_stays f df r C a (proj1 Ha)) as [S1 S2].
    assert (A0 := abs_above f df r C a (proj1 Ha)).
    assert (EC : c = a - f a / df a).
    { destruct Mv as [|[Q _]]; [assumption|exfalso].
      rewrite A0, (abs_above f df r C _ S1) in Q.
      assert (S3 := step_shrinks f df r C a (proj1 Ha)); lra. }
    rewrite A0 in T.
    assert (SP := step_progress f df r C a X t Ha T Ht).
    subst c; destruct (IH ltac:(lra)) as [I1 I2]; split; [exact I1|rewrite S_INR; lra].
Qed.

(** From the left: each step makes some progress and does not go beyond [X]. *)
Lemma step_left a c x0 : x0 <= a < r -> t < Rabs (f a) -> moves f df a c ->
  a + t / (2 * df r) <= c <= r - f x0 / df x0.
Proof.
  intros Ha T Mv.
  assert (F0 := below_root a (proj2 Ha)).
  assert (SA := slope_positive f df r C a); assert (SR := slope_positive f df r C r).
  assert (S0 := slope_positive f df r C x0).
  assert (I1 := slope_increasing f df r C a r ltac:(lra)).
  assert (I2 := slope_increasing f df r C x0 a (proj1 Ha)).
  rewrite Rabs_left in T by exact F0.
  set (d := - f a / df a).
  assert (D1 : t / df r <= d).
  { apply Rle_trans with (t / df a).
    - apply Rmult_le_compat_l; [lra|apply Rinv_le_contravar; lra].
    - apply Rmult_le_compat_r; [left; apply Rinv_0_lt_compat, SA|lra]. }
  assert (D0 : 0 < t / df r) by (apply Rdiv_lt_0_compat; lra).
  assert (FX : f x0 <= f a).
  { destruct (proj1 Ha) as [L| ->]; [left; apply (ci_increasing _ _ _ C), L|lra]. }
  assert (D2 : d <= - f x0 / df x0).
  { apply Rle_trans with (- f a / df x0).
    - apply Rmult_le_compat_l; [lra|apply Rinv_le_contravar; lra].
    - apply Rmult_le_compat_r; [left; apply Rinv_0_lt_compat, S0|lra]. }
  assert (EW : a - f a / df a = a + d) by (unfold d; field; lra).
  assert (EX : r - f x0 / df x0 = r + - f x0 / df x0) by (field; lra).
  assert (EH : t / (2 * df r) = t / df r / 2) by (field; lra).
  rewrite EX, EH; unfold moves in Mv; rewrite EW in Mv.
  destruct Mv as [-> |[_ ->]]; lra.
Qed.

Lemma walk_left x0 : x0 <= r -> forall k a y, walk f df t k a y -> x0 <= a < r -> t < Rabs (f y) ->
  INR k * t <= 2 * (r - a) * df r + t + (- f x0 / df x0) * df (r - f x0 / df x0).
Proof.
  intros Hx k a y W; set (X := r - f x0 / df x0).
  assert (SR := slope_positive f df r C r); assert (SX := slope_positive f df r C X).
  assert (S0 := slope_positive f df r C x0).
  assert (FX : 0 <= - f x0 / df x0).
  { apply Rmult_le_pos; [|left; apply Rinv_0_lt_compat, S0].
    destruct Hx as [L| ->]; [assert (B := below_root x0 L); lra|rewrite (ci_root _ _ _ C); lra]. }
  assert (EX : X = r + - f x0 / df x0) by (unfold X; field; lra).
  assert (HX : 0 <= (- f x0 / df x0) * df X) by (apply Rmult_le_pos; lra).
  induction W as [a|k a c y T Mv W IH]; intros Ha Ty.
  - cbn [INR]; assert (0 <= 2 * (r - a) * df r) by (apply Rmult_le_pos; lra); lra.
  - destruct (step_left a c x0 Ha T Mv) as [P1 P2]; fold X in P2.
    destruct (Rlt_le_dec c r) as [L|G].
    + specialize (IH ltac:(assert (0 < t / (2 * df r)) by (apply Rdiv_lt_0_compat; lra); lra) Ty).
      rewrite S_INR.
      assert (Q : t <= 2 * (c - a) * df r).
      { apply Rle_trans with (2 * (t / (2 * df r)) * df r); [right; field; lra|].
        apply Rmult_le_compat_r; lra. }
      lra.
    + destruct (walk_right X k c y W ltac:(lra)) as [Q1 Q2].
      rewrite S_INR.
      assert (Q3 : INR k * (t / df X) <= - f x0 / df x0) by lra.
      apply Rmult_le_compat_r with (r := df X) in Q3; [|lra].
      replace (INR k * (t / df X) * df X) with (INR k * t) in Q3 by (field; lra).
      assert (0 <= 2 * (r - a) * df r) by (apply Rmult_le_pos; lra); lra.
Qed.
End ConvexWalk.

(** From the left of the root the first steps may go far beyond it, to [X] at
    most; with damping they are halved until they do not. *)
Theorem C90_from_the_left : forall f df r x0 tol maxit damping rf,
  convex_increasing f df r -> x0 < r -> 0 < tol ->
  let X := r - f x0 / df x0 in
  2 * (r - x0) * df r + tol + (X - r) * df X < INR maxit * tol ->
  rootfinder_new (mkSolverParameters 1 (Fin tol) maxit NewtonRaphson damping) [Fin x0]
    (jac_iteratives 1) (all_abs 1) = Ret rf ->
  exists rf' s' y,
    solve (model_from_function_and_jacobian (vector_of f) (matrix_of df)) rf (user_model_new 1)
    = Ret (rf', s', Ok tt) /\
    um_inputs s' = [Fin y] /\ Rabs (f y) <= tol /\ (rf_iter rf' <= maxit)%nat.
Proof.
  intros f df r x0 tol maxit damping rf C Hx Ht X HM HN.
  assert (Ndf := slope_0 f df r C).
  assert (K : exists rf' s' k y c, y = [c] /\ walk f df tol k x0 c /\ (k <= maxit)%nat /\
    ((solve (model_from_function_and_jacobian (vector_of f) (matrix_of df)) rf (user_model_new 1)
      = Ret (rf', s', Ok tt) /\ um_inputs s' = lift y /\ rf_iter rf' = k /\
      amax (one_dim f y) <= tol) \/
     (k = maxit /\ amax (one_dim f y) > tol) \/ singular 1 (one_dim_jac df y))).
  { destruct damping.
    - destruct (C89_damped_newton 1 (vector_of f) (matrix_of df) (one_dim f) (one_dim_jac df) [x0]
        tol maxit rf (one_dim_lift f) (one_dim_jac_lift df) eq_refl HN)
        as (rf' & s' & k & y & P & _ & _ & B & E).
      destruct (damped_walk f df Ndf tol k _ y P x0 eq_refl) as (c & EC & W).
      exists rf', s', k, y, c; split; [exact EC|]; split; [exact W|]; split; [exact B|].
      destruct E as [E|[(_ & _ & _ & E1 & E2)|(_ & _ & _ & _ & E)]]; auto.
    - destruct (C62_newton_method 1 (vector_of f) (matrix_of df) (one_dim f) (one_dim_jac df) [x0]
        tol maxit rf (one_dim_lift f) (one_dim_jac_lift df) eq_refl HN)
        as (rf' & s' & k & y & P & _ & _ & B & E).
      destruct (newton_walk f df Ndf tol k _ y P x0 eq_refl) as (c & EC & W).
      exists rf', s', k, y, c; split; [exact EC|]; split; [exact W|]; split; [exact B|].
      destruct E as [E|[(_ & _ & _ & E1 & E2)|(_ & _ & _ & _ & E)]]; auto. }
  destruct K as (rf' & s' & k & y & c & -> & W & B & [(E & U & I & T)|[[Q T]|Q]]).
  - exists rf', s', c; split; [exact E|]; split; [exact U|]; split; [exact T|rewrite I; exact B].
  - exfalso; subst k; unfold amax in T; cbn in T.
    assert (WL := walk_left f df r C tol Ht x0 ltac:(lra) maxit x0 c W ltac:(lra) T).
    fold X in WL; replace (- f x0 / df x0) with (X - r) in WL by (unfold X; field; apply Ndf); lra.
  - exfalso; destruct Q as (v & Lv & (i & Hi & Nv) & Z); apply Nv.
    specialize (Z O ltac:(lia)); cbv [app rsum ment one_dim_jac nth map] in Z.
    destruct i as [|i]; [|lia]; assert (N := Ndf c).
    apply Rmult_eq_reg_l with (df c); [|exact N]; lra.
Qed.
Print Assumptions C90_from_the_left.

Lemma above_any (a : R) : exists m, a < INR m.
Proof.
  exists (Z.to_nat (up a)); destruct (archimed a) as [Q _].
  destruct (Z_le_dec 0 (up a)) as [L|L].
  - rewrite INR_IZR_INZ, Z2Nat.id by exact L; lra.
  - assert (N : (up a <= 0)%Z) by lia; apply IZR_le in N.
    assert (P := pos_INR (Z.to_nat (up a))); lra.
Qed.

(** From anywhere: some budget is enough. *)
Theorem C90_converges : forall f df r x0 tol damping,
  convex_increasing f df r -> 0 < tol ->
  exists enough, forall maxit rf, (enough <= maxit)%nat ->
  rootfinder_new (mkSolverParameters 1 (Fin tol) maxit NewtonRaphson damping) [Fin x0]
    (jac_iteratives 1) (all_abs 1) = Ret rf ->
  exists rf' s' y,
    solve (model_from_function_and_jacobian (vector_of f) (matrix_of df)) rf (user_model_new 1)
    = Ret (rf', s', Ok tt) /\
    um_inputs s' = [Fin y] /\ Rabs (f y) <= tol.
Proof.
  intros f df r x0 tol damping C Ht.
  set (X := r - f x0 / df x0).
  set (B := Rmax ((x0 - r) * df x0) (2 * (r - x0) * df r + tol + (X - r) * df X)).
  destruct (above_any (B / tol)) as [m Hm]; exists m; intros maxit rf Hk HN.
  assert (HB : B < INR maxit * tol).
  { apply le_INR in Hk.
    replace B with (B / tol * tol) by (field; lra); apply Rmult_lt_compat_r; lra. }
  destruct (Rlt_le_dec x0 r) as [L|G].
  - destruct (C90_from_the_left f df r x0 tol maxit damping rf C L Ht) as (rf' & s' & y & E & U & T & _).
    + fold X; eapply Rle_lt_trans; [apply Rmax_r|exact HB].
    + exact HN.
    + exists rf', s', y; auto.
  - destruct (C55_converges f df r x0 tol maxit damping rf C G Ht) as (rf' & s' & y & E & U & _ & T & _).
    + left; eapply Rle_lt_trans; [apply Rmax_l|exact HB].
    + exact HN.
    + exists rf', s', y; split; [exact E|]; split; [exact U|rewrite Rabs_pos_eq; lra].
Qed.
Print Assumptions C90_converges.

(** *** Cases: exp x - 1 from -3 *)

Lemma exp_m3 : exp (-3) = / exp 3.
Proof. rewrite <- exp_Ropp; f_equal; lra. Qed.
Lemma exp_3 : 8 <= exp 3 /\ 0 < exp (-3) <= 1 / 8.
Proof.
  assert (E1 : 2 <= exp 1) by (assert (T := exp_ineq1 1 ltac:(lra)); lra).
  assert (E3 : exp 3 = exp 1 * (exp 1 * exp 1)) by (rewrite <- !exp_plus; f_equal; lra).
  assert (E2 : 4 <= exp 1 * exp 1).
  { replace 4 with (2 * 2) by lra; apply Rmult_le_compat; lra. }
  assert (E8 : 8 <= exp 3).
  { rewrite E3; replace 8 with (2 * 4) by lra; apply Rmult_le_compat; lra. }
  split; [exact E8|]; rewrite exp_m3; split; [apply Rinv_0_lt_compat; lra|].
  replace (1 / 8) with (/ 8) by lra; apply Rinv_le_contravar; lra.
Qed.

(** Newton's step from -3 leads to e^3 - 4, where the error is larger: the
    solver goes half the way. *)
Example C89_case : forall rf,
  rootfinder_new (mkSolverParameters 1 (Fin (1 / 4)) 1 NewtonRaphson true) [Fin (-3)]
    (jac_iteratives 1) (all_abs 1) = Ret rf ->
  exists rf' s',
    solve (model_from_function_and_jacobian (vector_of (fun x => exp x - 1)) (matrix_of exp)) rf
      (user_model_new 1) = Ret (rf', s', Err NonConvergenceError) /\
    um_inputs s' = [Fin ((-3 + (exp 3 - 4)) / 2)].
Proof.
  intros rf HN; set (f := fun x => exp x - 1).
  assert (C := exp_convex_increasing : convex_increasing f exp 0).
  destruct (C89_damped_newton 1 (vector_of f) (matrix_of exp) (one_dim f) (one_dim_jac exp) [-3]
    (1 / 4) 1 rf (one_dim_lift f) (one_dim_jac_lift exp) eq_refl HN)
    as (rf' & s' & k & y & P & _ & _ & B & E).
  destruct (damped_walk f exp (slope_0 f exp 0 C) (1 / 4) k _ y P (-3) eq_refl) as (c & -> & W).
  destruct exp_3 as [E1 E2].
  assert (EW : -3 - f (-3) / exp (-3) = exp 3 - 4).
  { unfold f; rewrite exp_m3; field; lra. }
  assert (F0 : Rabs (f (-3)) < 1) by (unfold f; rewrite Rabs_left; lra).
  assert (FW : 1 < Rabs (f (exp 3 - 4))).
  { assert (T := exp_ineq1 (exp 3 - 4) ltac:(lra)); unfold f; rewrite Rabs_pos_eq; lra. }
  assert (F1 : 1 / 4 < Rabs (f ((-3 + (exp 3 - 4)) / 2))).
  { assert (T := exp_ineq1 ((-3 + (exp 3 - 4)) / 2) ltac:(lra)); unfold f; rewrite Rabs_pos_eq; lra. }
  assert (F3 : 1 / 4 < Rabs (f (-3))) by (unfold f; rewrite Rabs_left; lra).
  assert (K : k = O /\ c = -3 \/ k = 1%nat /\ c = (-3 + (exp 3 - 4)) / 2).
  { clear E W; destruct k as [|[|k]]; [left|right|lia].
    - apply damped_none in P; injection P as ->; auto.
    - split; [reflexivity|].
      destruct (damped_first _ _ _ _ _ _ _ _ P) as (x' & _ & (H & w & SH & I & Lw & EE & Lx & KK) & PP).
      apply one_point in Lw; destruct Lw as [w' ->].
      rewrite (newton_1 f exp (slope_0 f exp 0 C) H (-3) w' SH I EE), EW in KK.
      apply damped_none in PP; subst x'.
      destruct KK as [[KK _]|[_ KK]]; [exfalso|exact (KK O ltac:(lia))].
      rewrite !amax_1 in KK; lra. }
  exists rf', s'; destruct E as [(_ & _ & _ & T)|[(E & U & _ & Q & T)|(_ & _ & Q & _ & T)]].
  - exfalso; rewrite amax_1 in T; destruct K as [[_ ->]|[_ ->]]; lra.
  - split; [exact E|]; rewrite U; destruct K as [[Z _]|[_ ->]]; [lia|reflexivity].
  - exfalso; destruct T as (v & Lv & (i & Hi & Nv) & Z); apply Nv.
    specialize (Z O ltac:(lia)); cbv [app rsum ment one_dim_jac nth map] in Z.
    destruct i as [|i]; [|lia]; assert (N := exp_pos c).
    apply Rmult_eq_reg_l with (exp c); lra.
Qed.

Example C90_case : exists enough, forall maxit rf, (enough <= maxit)%nat ->
  rootfinder_new (mkSolverParameters 1 (Fin (1 / 1000)) maxit NewtonRaphson true) [Fin (-3)]
    (jac_iteratives 1) (all_abs 1) = Ret rf ->
  exists rf' s' y,
    solve (model_from_function_and_jacobian (vector_of (fun x => exp x - 1)) (matrix_of exp)) rf
      (user_model_new 1) = Ret (rf', s', Ok tt) /\
    um_inputs s' = [Fin y] /\ Rabs (exp y - 1) <= 1 / 1000.
Proof.
  apply (C90_converges _ exp 0 (-3) (1 / 1000) true exp_convex_increasing); lra.
Qed.

(** *** The other three shapes *)

Record curved_monotone (g dg : R -> R) (r : R) : Prop := {
  cm_derivative : forall x, derivable_pt_lim g x (dg x);
  cm_curved :
    (forall x y t, 0 <= t <= 1 -> g (t * y + (1 - t) * x) <= t * g y + (1 - t) * g x) \/
    (forall x y t, 0 <= t <= 1 -> g (t * y + (1 - t) * x) >= t * g y + (1 - t) * g x);
  cm_monotone : (forall x y, x < y -> g x < g y) \/ (forall x y, x < y -> g x > g y);
  cm_root : g r = 0 }.

(** Each becomes convex and increasing when the axes are turned. *)
Lemma turned g dg r : curved_monotone g dg r ->
  exists s t, (s = 1 \/ s = -1) /\ (t = 1 \/ t = -1) /\
    convex_increasing (fun x => s * g (t * x)) (fun x => s * (t * dg (t * x))) (t * r).
Proof.
  intros [HD HC HM HR].
  assert (DER : forall s t x, derivable_pt_lim (fun x => s * g (t * x)) x (s * (t * dg (t * x)))).
  { intros s t x.
    apply (derivable_pt_lim_scal (fun x => g (t * x)) s x (t * dg (t * x))).
    rewrite (Rmult_comm t (dg (t * x))).
    apply (derivable_pt_lim_comp (fun x => t * x) g x t (dg (t * x))); [|apply HD].
    replace t with (t * 1) at 1 by ring.
    apply (derivable_pt_lim_scal id t x 1), derivable_pt_lim_id. }
  assert (ROOT : forall s t, t = 1 \/ t = -1 -> s * g (t * (t * r)) = 0).
  { intros s t [-> | ->]; [replace (1 * (1 * r)) with r by ring|replace (-1 * (-1 * r)) with r by ring];
      rewrite HR; ring. }
  assert (LIN : forall t u x y, t * (u * y + (1 - u) * x) = u * (t * y) + (1 - u) * (t * x))
    by (intros; ring).
  destruct HC as [HC|HC], HM as [HM|HM].
  - exists 1, 1; split; [auto|]; split; [auto|]; constructor; auto.
    + intros x y u Hu; rewrite LIN; specialize (HC (1 * x) (1 * y) u Hu); lra.
    + intros x y L; specialize (HM (1 * x) (1 * y) ltac:(lra)); lra.
  - exists 1, (-1); split; [auto|]; split; [auto|]; constructor; auto.
    + intros x y u Hu; rewrite LIN; specialize (HC (-1 * x) (-1 * y) u Hu); lra.
    + intros x y L; specialize (HM (-1 * y) (-1 * x) ltac:(lra)); lra.
  - exists (-1), (-1); split; [auto|]; split; [auto|]; constructor; auto.
    + intros x y u Hu; rewrite LIN; specialize (HC (-1 * x) (-1 * y) u Hu); lra.
    + intros x y L; specialize (HM (-1 * y) (-1 * x) ltac:(lra)); lra.
  - exists (-1), 1; split; [auto|]; split; [auto|]; constructor; auto.
    + intros x y u Hu; rewrite LIN; specialize (HC (1 * x) (1 * y) u Hu); lra.
    + intros x y L; specialize (HM (1 * x) (1 * y) ltac:(lra)); lra.
Qed.

Theorem C90_any_shape : forall g dg r x0 tol damping,
  curved_monotone g dg r -> 0 < tol ->
  exists enough, forall maxit rf, (enough <= maxit)%nat ->
  rootfinder_new (mkSolverParameters 1 (Fin tol) maxit NewtonRaphson damping) [Fin x0]
    (jac_iteratives 1) (all_abs 1) = Ret rf ->
  exists rf' s' y,
    solve (model_from_function_and_jacobian (vector_of g) (matrix_of dg)) rf (user_model_new 1)
    = Ret (rf', s', Ok tt) /\
    um_inputs s' = [Fin y] /\ Rabs (g y) <= tol.
Proof.
  intros g dg r x0 tol damping C Ht.
  destruct (turned g dg r C) as (s & t & Hs & Htt & CI).
  assert (SS : s * s = 1) by (destruct Hs as [-> | ->]; lra).
  assert (TT : t * t = 1) by (destruct Htt as [-> | ->]; lra).
  set (f := fun x => s * g (t * x)) in *; set (df := fun x => s * (t * dg (t * x))) in *.
  destruct (C90_converges f df (t * r) (t * x0) tol damping CI Ht) as [enough HE].
  exists enough; intros maxit rf Lm HN.
  destruct (rootfinder_new (mkSolverParameters 1 (Fin tol) maxit NewtonRaphson damping) [Fin (t * x0)]
    (jac_iteratives 1) (all_abs 1)) as [rf1|] eqn:HN1; [|discriminate HN1].
  destruct (HE maxit rf1 Lm HN1) as (rf1' & s1' & y1 & E1 & U1 & T1).
  assert (IA : inverse_of 1 [[t]] [[t]]).
  { intros [|i] [|j] Hi Hj; try lia; unfold prod, delta, ment; cbn; split; lra. }
  assert (RE : reordering 1 (fun i => i) (fun i => i)) by (intros i Hi; auto).
  assert (SG : signs 1 (fun _ => s)) by (intros i _; exact Hs).
  assert (C1 : computes 1 (vector_of f) (matrix_of df) (one_dim f) (one_dim_jac df))
    by (split; intros x Lx; [apply one_dim_lift|apply one_dim_jac_lift]; exact Lx).
  assert (C2 : computes 1 (vector_of g) (matrix_of dg) (one_dim g) (one_dim_jac dg))
    by (split; intros x Lx; [apply one_dim_lift|apply one_dim_jac_lift]; exact Lx).
  assert (CH : forall z x, change 1 [[t]] [0] z x -> exists a, z = [a] /\ x = [t * a] /\ t * (t * a) = a).
  { intros z x (Lz & Lx & Q); destruct z as [|a [|]]; try discriminate; destruct x as [|c [|]]; try discriminate.
    specialize (Q O ltac:(lia)); unfold app, vent, ment in Q; cbn in Q.
    exists a; split; [reflexivity|]; split; [f_equal; lra|]; rewrite <- Rmult_assoc, TT; ring. }
  assert (HF : forall z x, change 1 [[t]] [0] z x -> forall i, (i < 1)%nat ->
     vent (one_dim g z) i = s * vent (one_dim f x) i).
  { intros z x Q i Hi; destruct (CH z x Q) as (a & -> & -> & TA); destruct i as [|i]; [|lia].
    unfold vent; cbn; unfold f; rewrite TA, <- Rmult_assoc, SS; ring. }
  assert (HJ : forall z x, change 1 [[t]] [0] z x -> forall i j, (i < 1)%nat -> (j < 1)%nat ->
     ment (one_dim_jac dg z) i j = s * rsum 1 (fun l => ment (one_dim_jac df x) i l * ment [[t]] l j)).
  { intros z x Q i j Hi Hj; destruct (CH z x Q) as (a & -> & -> & TA).
    destruct i as [|i]; [|lia]; destruct j as [|j]; [|lia].
    unfold ment; cbn; unfold df; rewrite TA.
    transitivity (s * s * (t * t) * dg a); [rewrite SS, TT|]; ring. }
  assert (CX : change 1 [[t]] [0] [x0] [t * x0]).
  { split; [reflexivity|]; split; [reflexivity|]; intros [|i] Hi; [|lia]; unfold app, vent, ment; cbn; lra. }
  assert (RUN : exists rf1' s1' rf2' s2' v,
    solve (model_from_function_and_jacobian (vector_of f) (matrix_of df)) rf1 (user_model_new 1)
      = Ret (rf1', s1', v) /\
    solve (model_from_function_and_jacobian (vector_of g) (matrix_of dg)) rf (user_model_new 1)
      = Ret (rf2', s2', v) /\
    rf_iter rf1' = rf_iter rf2' /\
    (v = Ok tt \/ v = Err NonConvergenceError ->
     exists z x, change 1 [[t]] [0] z x /\ um_inputs s1' = lift x /\ um_inputs s2' = lift z)).
  { destruct damping.
    - exact (C72_same_run_damped 1 [[t]] [[t]] [0] (fun i => i) (fun i => i) (fun _ => s)
        _ _ _ _ _ _ _ _ [t * x0] [x0] tol maxit rf1 rf IA RE SG C1 C2 HF HJ CX HN1 HN).
    - exact (C72_same_run 1 [[t]] [[t]] [0] (fun i => i) (fun i => i) (fun _ => s)
        _ _ _ _ _ _ _ _ [t * x0] [x0] tol maxit rf1 rf IA RE SG C1 C2 HF HJ CX HN1 HN). }
  destruct RUN as (rfa & sa & rf2 & s2 & v & R1 & R2 & _ & P).
  rewrite E1 in R1; injection R1 as <- <- <-.
  destruct (P (or_introl eq_refl)) as (z & x & Q & I1 & I2).
  destruct (CH z x Q) as (a & -> & -> & TA).
  exists rf2, s2, a; split; [exact R2|]; split; [exact I2|].
  rewrite I1 in U1; injection U1 as U1; subst y1.
  unfold f in T1; rewrite TA, Rabs_mult in T1.
  replace (Rabs s) with 1 in T1; [lra|].
  destruct Hs as [-> | ->]; [rewrite Rabs_R1; reflexivity|].
  rewrite <- Rabs_Ropp; replace (- -1) with 1 by lra; rewrite Rabs_R1; reflexivity.
Qed.
Print Assumptions C90_any_shape.

(** 1 - exp x is decreasing and concave; from 3 the run succeeds. *)
Example C90_concave : forall tol damping, 0 < tol ->
  exists enough, forall maxit rf, (enough <= maxit)%nat ->
  rootfinder_new (mkSolverParameters 1 (Fin tol) maxit NewtonRaphson damping) [Fin 3]
    (jac_iteratives 1) (all_abs 1) = Ret rf ->
  exists rf' s' y,
    solve (model_from_function_and_jacobian (vector_of (fun x => 1 - exp x))
      (matrix_of (fun x => - exp x))) rf (user_model_new 1) = Ret (rf', s', Ok tt) /\
    um_inputs s' = [Fin y] /\ Rabs (1 - exp y) <= tol.
Proof.
  intros tol damping Ht; apply (C90_any_shape (fun x => 1 - exp x) (fun x => - exp x) 0 3 tol damping);
    [|exact Ht].
  destruct exp_convex_increasing as [DE CE IE _].
  constructor.
  - intros x; replace (- exp x) with (0 - exp x) by lra.
    apply (derivable_pt_lim_minus (fct_cte 1) exp); [apply derivable_pt_lim_const|apply derivable_pt_lim_exp].
  - right; intros x y t H; specialize (CE x y t H); cbv beta in CE; lra.
  - right; intros x y L; specialize (IE x y L); cbv beta in IE; lra.
  - rewrite exp_0; lra.
Qed.
