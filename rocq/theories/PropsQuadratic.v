(** C100: the convergence of Newton-Raphson in floating point is quadratic down
    to the level of the roundings. *)
From Coq Require Import Reals Lra Lia ZArith List Bool.
From Flocq Require Import Core BinarySingleNaN.
From Verif Require Import Base Num F64 Linalg Residuals Iteratives UserModel Jacobian Solver
  F64Facts F64Arith LimitFacts RNum ExactFacts LocalFacts PropsNorm PropsAccuracy PropsFD PropsStep PropsSlope
  Samples FloatRun PropsFloat LuFloat PropsInverse PropsSettle PropsWithin.
Import ListNotations.
Open Scope R_scope.

(** The distance of the root after [k] iterations, when an iteration brings a
    distance [d] below [(c * d + q) * (d + delta) + a]. *)
Fixpoint level (c q delta a d : R) (k : nat) : R :=
  match k with
  | O => d
  | Datatypes.S k => level c q delta a ((c * d + q) * (d + delta) + a) k
  end.

(** What is promised about the outcome [o] of a run with distances [D]. *)
Definition promised_levels (func : vec f64 -> vec f64) (n : nat) (xs : nat -> R) (r sigma e : R) (D : nat -> R)
  (tol : f64) (maxit : nat)
  (o : outcome (rootfinder f64 * user_model f64 * result unit (solver_error Empty_set Empty_set))) : Prop :=
  exists rf' s' y, um_inputs s' = y /\ (rf_iter rf' <= maxit)%nat /\
    around n xs r y /\ around n xs (D (rf_iter rf')) y /\
    (o = Ret (rf', s', Ok tt) /\ (forall i, (i < n)%nat -> Rabs (ent (func y) i) <= key tol) \/
     o = Ret (rf', s', Err NonConvergenceError) /\ rf_iter rf' = maxit) /\
    forall m, (m <= maxit)%nat -> sigma * D m + e <= key tol -> o = Ret (rf', s', Ok tt) /\ (rf_iter rf' <= m)%nat.

Lemma contracting_less n xs r delta sigma e b q q' B : 0 <= q' <= q ->
  contracting n xs r delta sigma e b q B -> contracting n xs r delta sigma e b q' B.
Proof.
  intros Hq [T1 T2 T3 T4 T5 T6 T7 T8 T9 T10 T11]; constructor; try assumption; [lra|].
  assert (q' * (r + delta) <= q * (r + delta)) by (apply Rmult_le_compat_r; lra); lra.
Qed.

Section Run.
Context (func : vec f64 -> vec f64) (n : nat) (xs : nat -> R) (r delta : R) (S : vec f64 -> nat -> nat -> R)
  (sigma e b c q B : R) (its : list (iterative f64)).
Let a := roundings n b (sigma * (r + delta) + e) B e.
Context (CP : computed func n xs (r + delta) S sigma e) (LI : length its = n)
  (HI : forall i it, nth_error its i = Some it -> harmless it (xs i) (2 * (r + delta)) (r + delta))
  (Pc : 0 <= c) (Pq : 0 <= q) (CT : contracting n xs r delta sigma e b (c * r + q) B).

Lemma factor_less d : 0 <= d <= r -> 0 <= c * d + q <= c * r + q.
Proof using Pc Pq.
  intros Hd; assert (0 <= c * d) by (apply Rmult_le_pos; lra).
  assert (c * d <= c * r) by (apply Rmult_le_compat_l; lra); lra.
Qed.

Lemma level_step z H d : around n xs (d + delta) z -> 0 <= d <= r -> nearly_inverse n H (S z) b (c * d + q) ->
  moves func n its H z (limited_next func its H z) /\
  around n xs ((c * d + q) * (d + delta) + a) (limited_next func its H z).
Proof using CP LI HI Pc Pq CT.
  intros A Hd NI; assert (CD := contracting_less _ _ _ _ _ _ _ _ _ _ (factor_less d Hd) CT).
  exact (limited_step false func n xs r delta S sigma e b (c * d + q) B its CP LI HI CD z H d A Hd NI).
Qed.

Lemma level_inside d : 0 <= d <= r -> 0 <= (c * d + q) * (d + delta) + a <= r.
Proof using Pc Pq CT.
  intros Hd; destruct CT as [T1 T2 T3 T4 T5 T6 T7 T8 T9 T10 T11]; pose proof (factor_less d Hd).
  assert (RP := eps_pos n r delta sigma e b B T1 T2 T3 T4 T6 T8).
  assert (0 <= (c * d + q) * (d + delta)) by (apply Rmult_le_pos; lra).
  assert ((c * d + q) * (d + delta) <= (c * r + q) * (r + delta)) by (apply Rmult_le_compat; lra).
  unfold a; lra.
Qed.

Lemma levels next tol : isnan tol = false ->
  (forall x d, around n xs d x -> 0 <= d <= r -> around n xs ((c * d + q) * (d + delta) + a) (next x)) ->
  forall budget x d, around n xs d x -> 0 <= d <= r ->
  let '(k, y) := float_run func next tol budget x in
  (k <= budget)%nat /\ around n xs r y /\ around n xs (level c q delta a d k) y /\
  (ngtb (float_error func y) tol = true -> k = budget) /\
  forall m, (m <= budget)%nat -> sigma * level c q delta a d m + e <= key tol ->
    (k <= m)%nat /\ ngtb (float_error func y) tol = false.
Proof using CP LI Pc Pq CT.
  intros NT HN; destruct CT as [T1 T2 T3 T4 T5 T6 T7 T8 T9 T10 T11].
  assert (PS : forall x d, around n xs d x -> 0 <= d <= r -> sigma * d + e <= key tol ->
    ngtb (float_error func x) tol = false).
  { intros x d A Hd HT; apply (passed func n xs r (r + delta) sigma e S CP ltac:(lra) T3 T6 x d tol A Hd NT HT). }
  induction budget as [|budget IH]; intros x d A Hd.
  - cbn [float_run level]; split; [lia|]; split; [apply around_le with d; [exact A|lra]|].
    split; [exact A|]; split; [reflexivity|].
    intros m Hm HT; replace m with O in HT by lia; cbn [level] in HT; split; [lia|]; apply (PS x d A Hd HT).
  - cbn [float_run]; destruct (ngtb (float_error func x) tol) eqn:T.
    + specialize (IH (next x) _ (HN x d A Hd) (level_inside d Hd)).
      destruct (float_run func next tol budget (next x)) as [k y]; destruct IH as (I1 & I2 & I3 & I4 & I5).
      split; [lia|]; split; [exact I2|]; split; [exact I3|].
      split; [intros Q; rewrite (I4 Q); reflexivity|].
      intros [|m] Hm HT.
      * exfalso; cbn [level] in HT; rewrite (PS x d A Hd HT) in T; discriminate.
      * cbn [level] in HT; destruct (I5 m ltac:(lia) HT) as (J1 & J2); split; [lia|exact J2].
    + cbn [level]; split; [lia|]; split; [apply around_le with d; [exact A|lra]|].
      split; [exact A|]; split; [congruence|]; intros m Hm HT; split; [lia|exact T].
Qed.

Lemma newton_levels provided get_jac (K : vec f64 -> mat f64) (Z : vec f64 -> vec f64) (tol : f64) (maxit : nat) (x0 : vec f64) (rf : rootfinder f64) :
  isnan tol = false ->
  (forall x d, around n xs d x -> 0 <= d <= r -> displaced n delta x (Z x) /\ source func n provided get_jac its x (K x) (Z x) /\
     exists H, lu_inverse (K x) = Some H /\ nearly_inverse n H (S (Z x)) b (c * d + q)) ->
  around n xs r x0 ->
  rootfinder_new (mkSolverParameters n tol maxit NewtonRaphson false) x0 its (all_abs n) = Ret rf ->
  promised_levels func n xs r sigma e (level c q delta a r) tol maxit
    (solve (mkModel um_problem_size um_set_iteratives um_inputs (um_evaluate func) um_get_residuals provided get_jac
      default_get_memory default_set_memory show_infallible show_infallible) rf (user_model_new n)).
Proof using CP LI HI Pc Pq CT.
  intros NT HS A0 HN; set (p := mkSolverParameters n tol maxit NewtonRaphson false) in *.
  assert (SU : set_up n p its rf /\ rf_iter rf = O /\ rf_initial_guess rf = x0).
  { unfold rootfinder_new in HN; destruct negb; [discriminate|]; destruct negb; [discriminate|].
    destruct negb; [discriminate|]; injection HN as <-; repeat split. }
  destruct SU as (SU & I0 & G0); assert (T1 := ct_radius _ _ _ _ _ _ _ _ _ CT); assert (T2 := ct_delta _ _ _ _ _ _ _ _ _ CT).
  set (next := fun x => match lu_inverse (K x) with Some H => limited_next func its H (Z x) | None => x end).
  assert (ST : forall x d, around n xs d x -> 0 <= d <= r ->
    around n xs ((c * d + q) * (d + delta) + a) (next x) /\
    exists A z H, source func n provided get_jac its x A z /\ lu_inverse A = Some H /\ moves func n its H z (next x)).
  { intros x d A Hd; destruct (HS x d A Hd) as (D1 & D2 & H & D3 & D4).
    assert (AZ := displaced_around n xs delta x (Z x) d A D1).
    destruct (level_step (Z x) H d AZ Hd D4) as (M1 & M2).
    unfold next; rewrite D3; split; [exact M2|].
    exists (K x), (Z x), H; split; [exact D2|]; split; [exact D3|exact M1]. }
  assert (PL : forall x, around n xs r x -> length (func x) = n)
    by (intros x A; apply CP; apply around_le with r; [exact A|lra]).
  assert (FN : exists rf', finished func n provided get_jac p (around n xs r) rf
    (fst (float_run func next tol maxit x0)) (snd (float_run func next tol maxit x0)) rf').
  { rewrite <- G0 in A0 |- *.
    apply (float_newton_solve func n provided get_jac p its eq_refl (or_introl eq_refl) (around n xs r) PL next rf
      eq_refl SU I0 A0).
    intros x A _; destruct (ST x r A ltac:(lra)) as (N1 & A1 & z & H & N2 & N3 & N4).
    exists A1, z, H; split; [exact N2|]; split; [exact N3|]; split; [exact N4|].
    apply around_le with (1 := N1); apply level_inside; lra. }
  destruct FN as (rf' & FN).
  assert (RR := levels next tol NT ltac:(intros x d A Hd; apply (ST x d A Hd)) maxit x0 r A0 ltac:(lra)).
  destruct (float_run func next tol maxit x0) as [k y]; cbn [fst snd] in FN.
  destruct FN as (F1 & F2 & _); destruct RR as (S1 & S2 & S3 & S4 & S5).
  exists rf', (float_state func n y), y; rewrite F2.
  split; [reflexivity|]; split; [exact S1|]; split; [exact S2|]; split; [exact S3|].
  rewrite F1; cbn [p sp_tolerance]; split.
  - destruct (ngtb (float_error func y) tol) eqn:T.
    + right; split; [reflexivity|apply S4; reflexivity].
    + left; split; [reflexivity|].
      apply (test_means func n xs r delta S sigma e CP); [apply around_le with r; [exact S2|lra]|exact NT|exact T].
  - intros m Hm HT; destruct (S5 m Hm HT) as (J1 & J2); rewrite J2; split; [reflexivity|exact J1].
Qed.
End Run.

(** ** The statements *)

(** The inverse of the jacobian at distance [d] inverts the slopes up to
    [c * d + q]: [c] is half of the Lipschitz constant of the jacobian times the
    norm of the inverse, [q] the errors of the inverse. *)
Theorem C100_newton : forall func jac n xs r S sigma e b c q B ps tol maxit x0 rf,
  computed func n xs r S sigma e -> 0 <= c -> 0 <= q -> contracting n xs r 0 sigma e b (c * r + q) B ->
  length ps = n -> room ps xs r 0 ->
  (forall x d, around n xs d x -> 0 <= d <= r -> squaref n (jac x) /\
     exists H, lu_inverse (jac x) = Some H /\ nearly_inverse n H (S x) b (c * d + q)) ->
  isnan tol = false -> around n xs r x0 ->
  rootfinder_new (mkSolverParameters n tol maxit NewtonRaphson false) x0 (map iterative_of_params ps) (all_abs n) = Ret rf ->
  promised_levels func n xs r sigma e (level c q 0 (roundings n b (sigma * r + e) B e) r) tol maxit
    (solve (model_from_function_and_jacobian func jac) rf (user_model_new n)).
Proof.
  intros func jac n xs r S sigma e b c q B ps tol maxit x0 rf CP Pc Pq CT LP RM HJ NT A0 HN.
  replace (sigma * r + e) with (sigma * (r + 0) + e) by ring.
  rewrite <- (Rplus_0_r r) in CP at 1.
  refine (newton_levels func n xs r 0 S sigma e b c q B (map iterative_of_params ps) CP _ _ Pc Pq CT
    (fun _ => true) (um_get_jacobian jac) jac (fun x => x) tol maxit x0 rf NT _ A0 HN).
  - rewrite map_length; exact LP.
  - intros i it EI; rewrite nth_error_map in EI; destruct (nth_error ps i) as [p|] eqn:EP; [|discriminate].
    injection EI as <-.
    apply (room_harmless false n xs r 0 sigma e b (c * r + q) B ps i (iterative_of_params p) p CT LP RM EP eq_refl).
  - intros x d A Hd; destruct (HJ x d A Hd) as (SQ & H & J1 & J2); split.
    + split; [apply A|]; intros i Hi; split; [apply A, Hi|].
      unfold Rminus; rewrite Rplus_opp_r, Rabs_R0; lra.
    + split; [|exists H; split; assumption].
      apply analytic_source; [apply CP, around_le with d; [exact A|lra]|exact SQ].
Qed.
Print Assumptions C100_newton.

Theorem C100_finite_differences : forall func n xs r delta S sigma e b c q B ps step tol maxit x0 rf,
  (1 <= n)%nat -> computed func n xs (r + delta) S sigma e -> 0 <= c -> 0 <= q ->
  contracting n xs r delta sigma e b (c * r + q) B ->
  length ps = n -> room (map fd_params ps) xs r delta ->
  (forall x d, around n xs d x -> 0 <= d <= r -> small_shifts n (map iterative_of_params_fd ps) delta x (step x) /\
     exists H, lu_inverse (fd_float func n x (step x)) = Some H /\
       nearly_inverse n H (S (shift x (n - 1) (nth (n - 1) (step x) n0))) b (c * d + q)) ->
  isnan tol = false -> around n xs r x0 ->
  rootfinder_new (mkSolverParameters n tol maxit NewtonRaphson false) x0 (map iterative_of_params_fd ps) (all_abs n) = Ret rf ->
  promised_levels func n xs r sigma e (level c q delta (roundings n b (sigma * (r + delta) + e) B e) r) tol maxit
    (solve (model_from_function func) rf (user_model_new n)).
Proof.
  intros func n xs r delta S sigma e b c q B ps step tol maxit x0 rf Pn CP Pc Pq CT LP RM HJ NT A0 HN.
  assert (Pd := ct_delta _ _ _ _ _ _ _ _ _ CT).
  refine (newton_levels func n xs r delta S sigma e b c q B (map iterative_of_params_fd ps) CP _ _ Pc Pq CT
    default_jacobian_provided (default_get_jacobian um_inputs) (fun x => fd_float func n x (step x))
    (fun x => shift x (n - 1) (nth (n - 1) (step x) n0)) tol maxit x0 rf NT _ A0 HN).
  - rewrite map_length; exact LP.
  - intros i it EI; rewrite nth_error_map in EI; destruct (nth_error ps i) as [p|] eqn:EP; [|discriminate].
    injection EI as <-.
    apply (room_harmless false n xs r delta sigma e b (c * r + q) B (map fd_params ps) i _ (fd_params p) CT);
      [rewrite map_length; exact LP|exact RM|rewrite nth_error_map, EP; reflexivity|reflexivity].
  - intros x d A Hd; destruct (HJ x d A Hd) as (SD & H & J1 & J2).
    assert (AR : around n xs r x) by (apply around_le with d; [exact A|lra]).
    split; [apply (shift_around n xs r (map iterative_of_params_fd ps) delta x (step x)); auto; lia|].
    split; [|exists H; split; assumption].
    apply fd_source; [exact Pn|apply A|apply SD|apply SD| | |reflexivity].
    + apply CP, around_le with r; [exact AR|lra].
    + intros j Hj; apply CP, (shift_around n xs r (map iterative_of_params_fd ps) delta x (step x)); auto.
Qed.
Print Assumptions C100_finite_differences.

(** With conditions on the jacobian alone. *)
Theorem C100_well_conditioned : forall func n xs r S sigma e M beta c B jac ps tol maxit x0 rf,
  let rho := INR n * inversion_error n M beta in
  let b := beta * (1 + rho) in
  let q := beta * rho * sigma in
  computed func n xs r S sigma e -> conditioned n M beta -> 0 <= c -> 0 <= q ->
  contracting n xs r 0 sigma e b (c * r + q) B ->
  length ps = n -> room ps xs r 0 ->
  (forall x d, around n xs d x -> 0 <= d <= r -> fits n M beta (c * d) (jac x) (S x)) ->
  isnan tol = false -> around n xs r x0 ->
  rootfinder_new (mkSolverParameters n tol maxit NewtonRaphson false) x0 (map iterative_of_params ps) (all_abs n) = Ret rf ->
  promised_levels func n xs r sigma e (level c q 0 (roundings n b (sigma * r + e) B e) r) tol maxit
    (solve (model_from_function_and_jacobian func jac) rf (user_model_new n)).
Proof.
  intros func n xs r S sigma e M beta c B jac ps tol maxit x0 rf rho b q CP CD Pc Pq CT LP RM FT NT A0 HN.
  apply (C100_newton func jac n xs r S sigma e b c q B ps tol maxit x0 rf); try assumption.
  intros x d AX Hd; split; [apply (FT x d AX Hd)|].
  apply fits_inverse; [exact CD| |exact (FT x d AX Hd)].
  intros i Hi; apply (CP x); [apply around_le with d; [exact AX|lra]|exact Hi].
Qed.
Print Assumptions C100_well_conditioned.

(** The correct digits double with every iteration, until twice the errors [A]
    of one iteration are reached. *)
Lemma level_inside_r c q delta a r : 0 <= c -> 0 <= q -> 0 <= delta -> 0 <= a -> 0 <= r ->
  (c * r + q) * (r + delta) + a <= r ->
  forall k d, 0 <= d <= r -> 0 <= level c q delta a d k <= r.
Proof.
  intros Pc Pq Pd Pa Pr IN; induction k as [|k IH]; intros d Hd; [exact Hd|].
  cbn [level]; apply IH.
  assert (0 <= c * d) by (apply Rmult_le_pos; lra); assert (c * d <= c * r) by (apply Rmult_le_compat_l; lra).
  assert (0 <= (c * d + q) * (d + delta)) by (apply Rmult_le_pos; lra).
  assert ((c * d + q) * (d + delta) <= (c * r + q) * (r + delta)) by (apply Rmult_le_compat; lra).
  lra.
Qed.

Lemma level_last c q delta a : forall k d,
  level c q delta a d (Datatypes.S k) = (c * level c q delta a d k + q) * (level c q delta a d k + delta) + a.
Proof. induction k as [|k IH]; intros d; [reflexivity|]; exact (IH ((c * d + q) * (d + delta) + a)). Qed.

Theorem C100_digits : forall c q delta a r, 0 < c -> 0 <= q -> 0 <= delta -> 0 <= a -> 0 <= r ->
  (c * r + q) * (r + delta) + a <= r ->
  let A := c * (r * delta) + q * (r + delta) + a in
  4 * (c * A) <= 1 ->
  forall k, level c q delta a r k <= Rmax ((2 * c * r) ^ (2 ^ k) / (2 * c)) (2 * A).
Proof.
  intros c q delta a r Pc Pq Pd Pa Pr IN A HA; induction k as [|k IH].
  - cbn [level Nat.pow pow]; rewrite Rmult_1_r; eapply Rle_trans; [|apply Rmax_l].
    replace (2 * c * r / (2 * c)) with r by (field; lra); lra.
  - rewrite level_last.
    destruct (level_inside_r c q delta a r ltac:(lra) Pq Pd Pa Pr IN k r ltac:(lra)) as (L0 & L1).
    set (d := level c q delta a r k) in *; clearbody d.
    assert (HD : (c * d + q) * (d + delta) + a <= c * (d * d) + A).
    { unfold A; assert (c * (d * delta) <= c * (r * delta)) by (apply Rmult_le_compat_l; [lra|apply Rmult_le_compat_r; lra]).
      assert (q * d <= q * r) by (apply Rmult_le_compat_l; lra).
      replace ((c * d + q) * (d + delta) + a) with (c * (d * d) + (c * (d * delta)) + (q * d + q * delta) + a) by ring; lra. }
    apply Rle_trans with (1 := HD).
    assert (PA : 0 <= A).
    { unfold A; assert (0 <= c * (r * delta)) by (apply Rmult_le_pos; [lra|apply Rmult_le_pos; lra]).
      assert (0 <= q * (r + delta)) by (apply Rmult_le_pos; lra); lra. }
    set (M := (2 * c * r) ^ (2 ^ k) / (2 * c)) in *.
    assert (PM : 0 <= M).
    { unfold M, Rdiv; apply Rmult_le_pos; [apply pow_le, Rmult_le_pos; lra|apply Rlt_le, Rinv_0_lt_compat; lra]. }
    assert (EM : (2 * c * r) ^ (2 ^ Datatypes.S k) / (2 * c) = 2 * (c * (M * M))).
    { rewrite Nat.pow_succ_r', Nat.mul_comm, pow_mult; unfold M; set (w := (2 * c * r) ^ (2 ^ k)); cbn [pow]; field; lra. }
    rewrite EM; clearbody M A.
    unfold Rmax in IH; destruct (Rle_dec M (2 * A)).
    + apply Rle_trans with (2 * A); [|apply Rmax_r].
      assert (c * (d * d) <= c * (2 * A * (2 * A))) by (apply Rmult_le_compat_l; [lra|apply Rmult_le_compat; lra]).
      assert (4 * (c * A) * A <= 1 * A) by (apply Rmult_le_compat_r; lra).
      replace (c * (2 * A * (2 * A))) with (4 * (c * A) * A) in * by ring; lra.
    + assert (HM : c * (d * d) <= c * (M * M)) by (apply Rmult_le_compat_l; [lra|apply Rmult_le_compat; lra]).
      destruct (Rle_dec A (c * (M * M))).
      * apply Rle_trans with (2 * (c * (M * M))); [lra|apply Rmax_l].
      * apply Rle_trans with (2 * A); [lra|apply Rmax_r].
Qed.
Print Assumptions C100_digits.

(** ** Case: x^2 = 2 from every number within 2/5 of the root, in 4 iterations,
    for x between 0 and 2 and steps of at most 1. *)
Definition sqrt_limits : iterative_params f64 := mkIterativeParams (Fz 1) ninf (Fz 0) (Fz 2).

Lemma sqrt_wide : wide sqrt_limits (sqrt 2) 0.8 0.4.
Proof.
  destruct sqrt_2 as (S1 & S2); destruct key_2 as (K2 & F2).
  assert (K1 : key (Fz 1 : f64) = 1).
  { rewrite (key_sf (Fz 1) false 4503599627370496 (-52)) by (vm_compute; reflexivity); unfold F2R; cbn; lra. }
  assert (B2 : 4 <= bpow radix2 1024) by (change 4 with (bpow radix2 2); apply bpow_le; lia).
  split; [reflexivity|]; split; [apply fin_not_nan; exact F2|]; split; [vm_compute; reflexivity|].
  split; [cbn [sqrt_limits min_value max_value]; rewrite K2; change (key (Fz 0)) with 0; lra|].
  intros v b Fv Dv [->|(-> & Nb)]; cbn [sqrt_limits max_step_abs max_step_rel] in *; [rewrite K1; lra|].
  destruct v as [s|s| |s m x Hx]; try discriminate.
  change (0.8 < bpow radix2 1024); lra.
Qed.

Example C100_case : forall x0 maxit, isfin x0 = true -> Rabs (key x0 - sqrt 2) <= 0.4 -> (4 <= maxit)%nat ->
  exists rf, rootfinder_new (mkSolverParameters 1 (ndec 1 1000000) maxit NewtonRaphson false) [x0]
    (map iterative_of_params [sqrt_limits]) (all_abs 1) = Ret rf /\
  exists rf' s', solve (model_from_function_and_jacobian sq2 sq2_jac) rf (user_model_new 1) = Ret (rf', s', Ok tt) /\
    (rf_iter rf' <= 4)%nat.
Proof.
  intros x0 maxit F0 A0 HM.
  destruct (rootfinder_new (mkSolverParameters 1 (ndec 1 1000000) maxit NewtonRaphson false) [x0]
    (map iterative_of_params [sqrt_limits]) (all_abs 1)) as [rf|pn] eqn:HN; [|discriminate].
  exists rf; split; [reflexivity|].
  pose proof u53_small as HU; pose proof u53_value as UV; pose proof tiny_pos as HT; pose proof huge_big as HH; destruct sqrt_2 as (S1 & S2).
  set (b := 0.5 * (1 + u53) + tiny); set (q := 3.3 * (u53 * 0.5 + tiny)).
  assert (TU : tiny <= u53) by (apply bpow_le; lia).
  destruct (square_numbers 0.4 0 b (0.5 * 0.4 + q)) as (CT & _); [lra|lra|unfold b; lra|unfold q; lra|].
  assert (RM : room [sqrt_limits] (fun _ => sqrt 2) 0.4 0).
  { pose proof sqrt_wide as W; intros i p EP; destruct i as [|[|i]]; cbn in EP; try discriminate; injection EP as <-.
    rewrite Rplus_0_r; replace (2 * 0.4) with 0.8 by lra; exact W. }
  assert (PR := C100_newton (one_function square_2) (one_jacobian double) 1 (fun _ => sqrt 2) 0.4 (slopes_1 (fun x => key x + sqrt 2))
    3.3 (16 * u53) b 0.5 q 2 [sqrt_limits] (ndec 1 1000000) maxit [x0] rf
    (computed_of_1 _ _ _ _ _ _ (square_computed 0.4 ltac:(lra))) ltac:(lra) ltac:(unfold q; lra) CT eq_refl RM).
  destruct PR as (rf' & s' & y & EY & _ & AY & _ & TT & PR).
  - intros x d A Hd; destruct (around_1 _ _ _ A) as (v & -> & Fv & Av).
    split; [split; [reflexivity|]; intros l [<-|[]]; reflexivity|].
    apply Rabs_le_inv in Av; destruct (double_exact v Fv ltac:(lra)) as (D1 & D2).
    destruct (nearly_inverse_1 (double v) (key v + sqrt 2) 0.5 (0.5 * d) 3.3 D1) as (H & J1 & J2).
    + rewrite D2, Rabs_pos_eq; lra.
    + assert (1024 <= huge) by (change 1024 with (bpow radix2 10); apply bpow_le; lia); lra.
    + rewrite D2, (Rabs_pos_eq (2 * key v)) by lra; apply Rabs_le.
      assert (d * 1 <= d * key v) by (apply Rmult_le_compat_l; lra); lra.
    + rewrite Rabs_pos_eq; lra.
    + exists H; split; [exact J1|exact J2].
  - apply close_tolerance.
  - apply around_1_of; assumption.
  - exact HN.
  - destruct (PR 4%nat HM) as (O1 & O2); [|exists rf', s'; split; [exact O1|exact O2]].
    destruct close_tolerance as (_ & T1 & _); apply Rle_trans with (2 := T1); change (bpow radix2 (-20)) with (/ 1048576).
    assert (Pq : 0 <= q <= 10 * u53) by (unfold q; lra).
    assert (Pa : 0 <= roundings 1 b (3.3 * 0.4 + 16 * u53) 2 (16 * u53) <= 40 * u53).
    { unfold roundings; change (INR 1) with 1.
      assert (0 <= b * (16 * u53) <= 0.6 * (16 * u53)) by (unfold b; split; [apply Rmult_le_pos; lra|apply Rmult_le_compat_r; lra]).
      assert (BP : 0 <= b * (3.3 * 0.4 + 16 * u53) <= 0.6 * 1.4)
        by (unfold b; split; [apply Rmult_le_pos; lra|apply Rmult_le_compat; lra]).
      assert (0 <= u53 * (b * (3.3 * 0.4 + 16 * u53)) <= u53 * 0.84) by (split; [apply Rmult_le_pos; lra|apply Rmult_le_compat_l; lra]).
      lra. }
    set (ra := roundings _ _ _ _ _) in *; clearbody ra q.
    assert (ST : forall d t, 0 <= d <= t -> t <= 1 -> 0 <= (0.5 * d + q) * (d + 0) + ra <= 0.5 * (t * t) + 50 * u53).
    { intros d t Hd Ht; rewrite Rplus_0_r.
      assert (0 <= d * d <= t * t) by (split; [apply Rmult_le_pos|apply Rmult_le_compat]; lra).
      assert (0 <= q * d <= q * 1) by (split; [apply Rmult_le_pos|apply Rmult_le_compat_l]; lra).
      replace ((0.5 * d + q) * d) with (0.5 * (d * d) + q * d) by ring; lra. }
    cbn [level].
    pose proof (ST 0.4 0.4 ltac:(lra) ltac:(lra)) as L1; set (d1 := (0.5 * 0.4 + q) * (0.4 + 0) + ra) in *; clearbody d1.
    pose proof (ST d1 0.081 ltac:(lra) ltac:(lra)) as L2; set (d2 := (0.5 * d1 + q) * (d1 + 0) + ra) in *; clearbody d2.
    pose proof (ST d2 0.0034 ltac:(lra) ltac:(lra)) as L3; set (d3 := (0.5 * d2 + q) * (d2 + 0) + ra) in *; clearbody d3.
    pose proof (ST d3 0.00001 ltac:(lra) ltac:(lra)) as L4; lra.
Qed.

(** The bounds, with 40 roundings per iteration: 0.4^32 is below 2 * 10^-13. *)
Example C100_digits_case : level 0.5 (10 * u53) 0 (40 * u53) 0.4 5 <= / 1000000000000.
Proof.
  pose proof u53_small as HU; pose proof u53_value as UV.
  assert (Q := C100_digits 0.5 (10 * u53) 0 (40 * u53) 0.4 ltac:(lra) ltac:(lra) ltac:(lra) ltac:(lra) ltac:(lra)
    ltac:(lra) ltac:(lra) 5).
  apply Rle_trans with (1 := Q).
  change (2 ^ 5)%nat with (8 * 4)%nat; rewrite pow_mult; replace (2 * 0.5 * 0.4) with 0.4 by lra.
  assert (P8 : 0 <= 0.4 ^ 8 <= 0.00066) by (cbn [pow]; lra).
  assert (P32 : (0.4 ^ 8) ^ 4 <= 0.00066 ^ 4) by (apply pow_incr; exact P8).
  assert (V : 0.00066 ^ 4 <= / 5000000000000) by (cbn [pow]; lra).
  apply Rmax_lub; lra.
Qed.

(** The same problem from 1.8 and from 1.1, with the jacobian and with finite differences. *)
Definition sqrt_run (given : bool) (x0 : f64) : option (nat * bool) :=
  match rootfinder_new (mkSolverParameters 1 (ndec 1 1000000000000) 50 NewtonRaphson false) [x0]
      (if given then map iterative_of_params [sqrt_limits]
       else map iterative_of_params_fd [mkIterativeParamsFD sqrt_limits PMax (ndec 5 100000000) (ndec 5 100000000)])
      (all_abs 1) with
  | Ret rf =>
      match solve (if given then model_from_function_and_jacobian sq2 sq2_jac else model_from_function sq2)
        rf (user_model_new 1) with
      | Ret (rf', _, r) => Some (rf_iter rf', is_ok r)
      | Panic _ => None
      end
  | Panic _ => None
  end.
Example C100_case_2 :
  sqrt_run true (ndec 18 10) = Some (4%nat, true) /\ sqrt_run true (ndec 11 10) = Some (4%nat, true) /\
  sqrt_run false (ndec 18 10) = Some (4%nat, true) /\ sqrt_run false (ndec 11 10) = Some (4%nat, true).
Proof. repeat split; vm_compute; reflexivity. Qed.
