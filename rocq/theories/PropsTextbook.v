(** C101: on doubles, Newton-Raphson and stationary Newton are bit for bit the
    algorithm of the textbooks, for every system, every limits, with or without
    the damping and the jacobian, and also when an inversion fails. *)
From Coq Require Import List Arith Lia Bool ZArith.
From Verif Require Import Base Num F64 Linalg Residuals Iteratives UserModel Jacobian Solver
  F64Facts ExactFacts SafeFacts PropsNorm PropsFD PropsStep Samples FloatRun DampedFloat.
Import ListNotations.

(** ** The algorithm *)

(** The largest absolute value of the equations. *)
Definition worst (f : vec f64 -> vec f64) (x : vec f64) : f64 := amax (map nabs (f x)).

(** A variable at [a] moved by [s], as far as the limits and the bounds allow. *)
Definition moved (p : iterative_params f64) (a s : f64) : f64 :=
  let longest := nmin (max_step_abs p) (nmul (max_step_rel p) (nabs a)) in
  nmin (nmax (nadd a (nmul (nmin longest (nabs s)) (nsignum s))) (min_value p)) (max_value p).

(** [z - H f(z)], every variable within its limits. *)
Definition proposal (f : vec f64 -> vec f64) (ps : list (iterative_params f64)) (H : mat f64) (z : vec f64) : vec f64 :=
  map (fun i => moved (nth i ps default_iterative_params) (nth i z n0) (dot (map nneg (nth i H [])) (f z)))
    (seq 0 (length ps)).

(** Where an iteration from [z] with the proposal [y] ends. *)
Definition landing (f : vec f64 -> vec f64) (damped : bool) (z y : vec f64) : vec f64 :=
  if damped && ngtb (worst f y) (worst f z) then map2 damped1 z y else y.

Inductive ending := Solved | OutOfIterations | Singular.

(** [slopes x] is the matrix at [x] and the point where its computation leaves
    the model; [frozen] asks for one inversion only, [kept] is its result. *)
Fixpoint textbook (f : vec f64 -> vec f64) (slopes : vec f64 -> mat f64 * vec f64) (ps : list (iterative_params f64))
  (damped frozen : bool) (tol : f64) (budget : nat) (kept : option (mat f64)) (x : vec f64) : ending * nat * vec f64 :=
  if ngtb (worst f x) tol then
    match budget with
    | O => (OutOfIterations, O, x)
    | S budget' =>
        let z := match kept with Some _ => x | None => snd (slopes x) end in
        match match kept with Some H => Some H | None => lu_inverse (fst (slopes x)) end with
        | None => (Singular, 1, z)
        | Some H =>
            let '(e, k, y) := textbook f slopes ps damped frozen tol budget' (if frozen then Some H else None)
                                (landing f damped z (proposal f ps H z)) in
            (e, S k, y)
        end
    end
  else (Solved, O, x).

(** With the jacobian given, and with difference quotients. *)
Definition given_slopes (jac : vec f64 -> mat f64) (x : vec f64) : mat f64 * vec f64 := (jac x, x).
Definition increment (p : iterative_params_fd f64) (a : f64) : f64 :=
  match fd_method p with
  | PMax => nmax (fd_dx_abs p) (nmul (nabs a) (fd_dx_rel p))
  | PSum => nadd (fd_dx_abs p) (nmul (nabs a) (fd_dx_rel p))
  end.
Definition bumped (ps : list (iterative_params_fd f64)) (x : vec f64) (j : nat) : vec f64 :=
  shift x j (increment (nth j ps default_iterative_params_fd) (nth j x n0)).
Definition quotient_slopes (f : vec f64 -> vec f64) (ps : list (iterative_params_fd f64)) (x : vec f64) : mat f64 * vec f64 :=
  (map (fun i => map (fun j =>
      ndiv (nsub (nth i (f (bumped ps x j)) n0) (nth i (f x) n0))
        (increment (nth j ps default_iterative_params_fd) (nth j x n0))) (seq 0 (length ps))) (seq 0 (length ps)),
   bumped ps x (length ps - 1)).

Definition verdict_of (e : ending) : result unit (solver_error Empty_set Empty_set) :=
  match e with
  | Solved => Ok tt
  | OutOfIterations => Err NonConvergenceError
  | Singular => Err (JacobianError InvalidJacobianInverseError)
  end.

(** The resolution [o] of [f] ends as the algorithm says. *)
Definition as_textbook (f : vec f64 -> vec f64) (run : ending * nat * vec f64)
  (o : outcome (rootfinder f64 * user_model f64 * result unit (solver_error Empty_set Empty_set))) : Prop :=
  exists rf' s', o = Ret (rf', s', verdict_of (fst (fst run))) /\
    rf_iter rf' = snd (fst run) /\ um_inputs s' = snd run /\ um_left s' = f (snd run).

(** ** The limits *)
Lemma seq_shifted {T} (g : nat -> T) : forall m k, map g (seq (S k) m) = map (fun i => g (S i)) (seq k m).
Proof. induction m as [|m IH]; intros k; [reflexivity|]; cbn [seq map]; rewrite IH; reflexivity. Qed.

Lemma limited_proposal : forall (ps : list (iterative_params f64)) its (z s : vec f64),
  map it_step_limitation its = map step_limitation ps -> length z = length ps -> length s = length ps ->
  step_limitations its z s
  = Ret (map (fun i => moved (nth i ps default_iterative_params) (nth i z n0) (nth i s n0)) (seq 0 (length ps))).
Proof.
  induction ps as [|p ps IH]; intros [|it its] [|a z] [|c s] E L1 L2; try discriminate; [reflexivity|].
  cbn [map] in E; assert (E1 : it_step_limitation it = step_limitation p) by congruence.
  assert (E2 : map it_step_limitation its = map step_limitation ps) by congruence.
  cbn [step_limitations]; rewrite (IH its z s E2) by (cbn [length] in *; congruence); cbn [bind length seq map].
  rewrite seq_shifted, E1; reflexivity.
Qed.

Lemma new_solver (p : solver_parameters f64) x0 its conf rf : rootfinder_new p x0 its conf = Ret rf ->
  length x0 = sp_problem_size p /\ length its = sp_problem_size p /\
  rf = mkRootFinder p x0 its conf false 0 None jacobian_matrix_new None None None true.
Proof.
  unfold rootfinder_new; destruct (Nat.eqb (residuals_config_len conf) (sp_problem_size p)); cbn [negb]; [|discriminate].
  destruct (Nat.eqb (length x0) (sp_problem_size p)) eqn:E1; cbn [negb]; [|discriminate].
  destruct (Nat.eqb (length its) (sp_problem_size p)) eqn:E2; cbn [negb]; [|discriminate].
  intros HN; apply Nat.eqb_eq in E1; apply Nat.eqb_eq in E2; injection HN as <-; auto.
Qed.

Section Runs.
Context (func : vec f64 -> vec f64) (n : nat) (provided : user_model f64 -> bool)
  (get_jac : user_model f64 -> outcome (user_model f64 * result (jacobian_values f64) (model_error Empty_set Empty_set)))
  (its : list (iterative f64)) (ps : list (iterative_params f64)) (slopes : vec f64 -> mat f64 * vec f64)
  (damped frozen : bool) (tol : f64) (maxit : nat).
Let M : Model f64 (user_model f64) Empty_set Empty_set :=
  mkModel um_problem_size um_set_iteratives um_inputs (um_evaluate func) um_get_residuals provided get_jac
    default_get_memory default_set_memory show_infallible show_infallible.
Let p : solver_parameters f64 :=
  mkSolverParameters n tol maxit (if frozen then QuasiNewton StationaryNewton else NewtonRaphson) damped.
Context (LF : forall x, length x = n -> length (func x) = n) (LP : length ps = n)
  (EL : map it_step_limitation its = map step_limitation ps)
  (SL : forall x, length x = n -> length (fst (slopes x)) = n /\ length (snd (slopes x)) = n /\
     source func n provided get_jac its x (fst (slopes x)) (snd (slopes x))).

Lemma proposal_length H z : length (proposal func ps H z) = n.
Proof using LP. unfold proposal; rewrite map_length, seq_length; exact LP. Qed.

Lemma proposal_moves H z : length z = n -> length H = n -> moves func n its H z (proposal func ps H z).
Proof using LF LP EL.
  intros Lz LH; split; [apply LF, Lz|]; split; [exact LH|].
  rewrite (limited_proposal ps its z (mat_vec (mat_neg H) (func z)) EL).
  - unfold proposal; f_equal; apply map_ext_in; intros i Hi; apply in_seq in Hi.
    f_equal; unfold mat_vec, mat_neg; rewrite map_map.
    rewrite (nth_indep _ n0 (dot (map nneg []) (func z))) by (rewrite map_length; lia).
    exact (map_nth (fun r => dot (map nneg r) (func z)) H [] i).
  - congruence.
  - unfold mat_vec, mat_neg; rewrite !map_length; congruence.
Qed.

Lemma landing_length z y : length z = n -> length y = n -> length (landing func damped z y) = n.
Proof using.
  intros Lz Ly; unfold landing; case (damped && ngtb (worst func y) (worst func z))%bool; [|exact Ly].
  rewrite map2_length; congruence.
Qed.

(** What the solver remembers of an inversion. *)
Definition remembers (kept : option (mat f64)) (rf : rootfinder f64) : Prop :=
  match kept with
  | Some H => frozen = true /\ length H = n /\ keeps H rf
  | None => frozen = true -> jm_compute_at_next (rf_jacobian rf) = true
  end.

Lemma landing_either : (damped = true /\ forall z y, landing func damped z y = kept_point func z y) \/
  (damped = false /\ forall z y, landing func damped z y = y).
Proof using. unfold landing; case damped; [left|right]; split; reflexivity. Qed.
Lemma method_either : (frozen = true /\ sp_resolution_method p = QuasiNewton StationaryNewton) \/
  (frozen = false /\ sp_resolution_method p = NewtonRaphson).
Proof using. unfold p; cbn [sp_resolution_method]; case frozen; [left|right]; split; reflexivity. Qed.

Lemma landing_update rf z y : (frozen = true -> jm_approximated (rf_jacobian rf) = false) ->
  set_up n p its rf -> length z = n -> length y = n ->
  exists rf', update_model M rf (float_state func n z) y
      = Ret (rf', float_state func n (landing func damped z y), Ok (map nabs (func (landing func damped z y)))) /\
    set_up n p its rf' /\ rf_iter rf' = rf_iter rf /\ rf_jacobian rf' = rf_jacobian rf.
Proof using LF.
  intros HA SU Lz Ly; assert (LL := LF _ (landing_length z y Lz Ly)).
  destruct landing_either as [[ED EL']|[ED EL']]; rewrite EL' in *.
  - apply (damped_update func n provided get_jac p its ED rf z y); auto.
    destruct method_either as [[EF EM]|[EF EM]]; [right|left]; auto.
  - apply (float_update func n provided get_jac p its ED); auto.
    destruct method_either as [[EF EM]|[EF EM]]; [right|left]; auto.
Qed.

(** An iteration which inverts the matrix at [x]. *)
Lemma inverting_step rf x H : set_up n p its rf -> remembers None rf -> length x = n ->
  lu_inverse (fst (slopes x)) = Some H ->
  let y := landing func damped (snd (slopes x)) (proposal func ps H (snd (slopes x))) in
  exists rf', iteration M rf (float_state func n x) = Ret (rf', float_state func n y, Ok (map nabs (func y))) /\
    set_up n p its rf' /\ rf_iter rf' = S (rf_iter rf) /\ remembers (if frozen then Some H else None) rf'.
Proof using LF LP EL SL.
  intros (S1 & S2 & S3 & S4 & S5) RM Lx EH y; destruct (SL x Lx) as (L1 & L2 & SR).
  assert (LH : length H = n) by (rewrite (lu_inverse_length _ _ EH); exact L1).
  assert (MV := proposal_moves H (snd (slopes x)) L2 LH).
  unfold iteration, compute_step; cbn [rf_parameters set_iter]; rewrite S1.
  set (rf0 := set_iter rf (S (rf_iter rf))).
  set (rf1 := set_jacobian rf0 (mkJacobianMatrix (Some (fst (slopes x))) (Some H) false false)).
  assert (CJ := source_inverts func n provided get_jac its x _ _ H rf0 SR EH S2 S3).
  assert (NX := moves_next func n provided get_jac its H _ _ rf1 MV S2 S3 eq_refl).
  destruct (landing_update rf1 (snd (slopes x)) (proposal func ps H (snd (slopes x)))) as (rf' & E & SU & E1 & E2);
    [reflexivity|repeat split; assumption|exact L2|apply proposal_length|].
  exists rf'; split; [|split; [exact SU|split; [rewrite E1; reflexivity|]]].
  - destruct method_either as [[EF ->]|[EF ->]].
    + unfold compute_quasi_newton_step, evaluate_jacobian_quasi_newton_step.
      change (jm_compute_at_next (rf_jacobian rf0)) with (jm_compute_at_next (rf_jacobian rf)); rewrite (RM EF).
      unfold M; rewrite CJ; cbn [bind]; fold rf1.
      unfold when_debug; change (rf_debug rf1) with (rf_debug rf); rewrite S4; cbn [bind].
      rewrite NX; cbn [bind]; exact E.
    + unfold compute_newton_raphson_step, M; rewrite CJ; cbn [bind]; fold rf1.
      unfold when_debug; change (rf_debug rf1) with (rf_debug rf); rewrite S4; cbn [bind].
      rewrite NX; cbn [bind]; exact E.
  - revert E2; unfold remembers, keeps; case frozen; intros E2; [|discriminate].
    rewrite E2; repeat split; exact LH.
Qed.

(** One which fails to. *)
Lemma failing_step rf x : set_up n p its rf -> remembers None rf -> length x = n ->
  lu_inverse (fst (slopes x)) = None ->
  exists rf', iteration M rf (float_state func n x)
      = Ret (rf', float_state func n (snd (slopes x)), Err (JacobianError InvalidJacobianInverseError)) /\
    rf_iter rf' = S (rf_iter rf).
Proof using SL.
  intros (S1 & S2 & S3 & S4 & S5) RM Lx EH; destruct (SL x Lx) as (L1 & L2 & SR).
  unfold iteration, compute_step; cbn [rf_parameters set_iter]; rewrite S1.
  set (rf0 := set_iter rf (S (rf_iter rf))).
  assert (EU : snd (update_jacobian_with_exact_value (rf_jacobian rf0) (fst (slopes x))) = false).
  { unfold update_jacobian_with_exact_value, update_jacobian, try_inverse, Inverter_f64; rewrite EH; reflexivity. }
  assert (CJ := SR rf0 S2 S3); rewrite EU in CJ.
  set (rf1 := set_jacobian rf0 _) in CJ; exists rf1; split; [|reflexivity].
  destruct method_either as [[EF ->]|[EF ->]].
  - unfold compute_quasi_newton_step, evaluate_jacobian_quasi_newton_step.
    change (jm_compute_at_next (rf_jacobian rf0)) with (jm_compute_at_next (rf_jacobian rf)); rewrite (RM EF).
    unfold M; rewrite CJ; cbn [bind].
    unfold when_debug; change (rf_debug rf1) with (rf_debug rf); rewrite S4; reflexivity.
  - unfold compute_newton_raphson_step, M; rewrite CJ; cbn [bind].
    unfold when_debug; change (rf_debug rf1) with (rf_debug rf); rewrite S4; reflexivity.
Qed.

(** One with the inverse of an earlier one. *)
Lemma remembering_step rf x H : set_up n p its rf -> remembers (Some H) rf -> length x = n ->
  let y := landing func damped x (proposal func ps H x) in
  exists rf', iteration M rf (float_state func n x) = Ret (rf', float_state func n y, Ok (map nabs (func y))) /\
    set_up n p its rf' /\ rf_iter rf' = S (rf_iter rf) /\ remembers (if frozen then Some H else None) rf'.
Proof using LF LP EL.
  intros (S1 & S2 & S3 & S4 & S5) (EF & LH & KP) Lx y; assert (KP' := KP); destruct KP as (K1 & K2 & K3).
  assert (MV := proposal_moves H x Lx LH).
  unfold iteration, compute_step; cbn [rf_parameters set_iter]; rewrite S1.
  set (rf0 := set_iter rf (S (rf_iter rf))).
  assert (NX := moves_next func n provided get_jac its H _ _ rf0 MV S2 S3 K2).
  destruct (landing_update rf0 x (proposal func ps H x)) as (rf' & E & SU & E1 & E2);
    [intros _; exact K3|repeat split; assumption|exact Lx|apply proposal_length|].
  exists rf'; split; [|split; [exact SU|split; [rewrite E1; reflexivity|]]].
  - destruct method_either as [[_ ->]|[EF' _]]; [|congruence].
    unfold compute_quasi_newton_step, evaluate_jacobian_quasi_newton_step.
    change (jm_compute_at_next (rf_jacobian rf0)) with (jm_compute_at_next (rf_jacobian rf)); rewrite K1.
    cbn [approximate_step bind].
    unfold when_debug; change (rf_debug rf0) with (rf_debug rf); rewrite S4; cbn [bind].
    unfold M; rewrite NX; cbn [bind]; exact E.
  - rewrite EF; unfold remembers, keeps; rewrite E2; split; [exact EF|]; split; [exact LH|]; exact KP'.
Qed.

(** ** The loop *)
Definition loop_result (e : ending) (y : vec f64) : result f64 (solver_error Empty_set Empty_set) :=
  match e with
  | Singular => Err (JacobianError InvalidJacobianInverseError)
  | _ => Ok (worst func y)
  end.

Lemma textbook_loop : forall budget kept rf x, set_up n p its rf -> remembers kept rf -> length x = n ->
  (rf_iter rf + budget = maxit)%nat ->
  let run := textbook func slopes ps damped frozen tol budget kept x in
  exists rf', iterate M (S budget) rf (float_state func n x) (worst func x)
      = Ret (rf', float_state func n (snd run), loop_result (fst (fst run)) (snd run)) /\
    rf_iter rf' = (rf_iter rf + snd (fst run))%nat /\
    match fst (fst run) with
    | Solved => set_up n p its rf' /\ ngtb (worst func (snd run)) tol = false
    | OutOfIterations => set_up n p its rf' /\ ngtb (worst func (snd run)) tol = true
    | Singular => True
    end.
Proof using LF LP EL SL.
  induction budget as [|budget IH]; intros kept rf x SU RM Lx HB.
  - cbn [textbook iterate]; rewrite (proj1 SU); change (sp_tolerance p) with tol; change (sp_max_iter p) with maxit.
    rewrite (proj2 (Nat.ltb_ge (rf_iter rf) maxit)) by lia; rewrite andb_false_r.
    exists rf; destruct (ngtb (worst func x) tol) eqn:T; cbn [fst snd loop_result];
      (split; [reflexivity|]; split; [lia|]; split; [exact SU|exact T]).
  - cbn [textbook iterate]; rewrite (proj1 SU); change (sp_tolerance p) with tol; change (sp_max_iter p) with maxit.
    rewrite (proj2 (Nat.ltb_lt (rf_iter rf) maxit)) by lia; rewrite andb_true_r.
    destruct (ngtb (worst func x) tol) eqn:T.
    + destruct kept as [H|].
      * destruct (remembering_step rf x H SU RM Lx) as (rf1 & E1 & SU1 & I1 & RM1); rewrite E1; cbn [bind].
        destruct (IH _ rf1 _ SU1 RM1 (landing_length x _ Lx (proposal_length H x)) ltac:(lia)) as (rf' & Q1 & Q2 & Q3).
        exists rf'; destruct textbook as [[e k] y]; cbn [fst snd] in *.
        split; [exact Q1|]; split; [lia|exact Q3].
      * destruct (lu_inverse (fst (slopes x))) as [H|] eqn:EH.
        -- destruct (inverting_step rf x H SU RM Lx EH) as (rf1 & E1 & SU1 & I1 & RM1); rewrite E1; cbn [bind].
           destruct (SL x Lx) as (_ & Lz & _).
           destruct (IH _ rf1 _ SU1 RM1 (landing_length _ _ Lz (proposal_length H (snd (slopes x)))) ltac:(lia)) as (rf' & Q1 & Q2 & Q3).
           exists rf'; destruct textbook as [[e k] y]; cbn [fst snd] in *.
           split; [exact Q1|]; split; [lia|exact Q3].
        -- destruct (failing_step rf x SU RM Lx EH) as (rf1 & E1 & I1); rewrite E1; cbn [bind].
           exists rf1; cbn [fst snd loop_result]; split; [reflexivity|]; split; [lia|exact I].
    + exists rf; cbn [fst snd loop_result]; split; [reflexivity|]; split; [lia|]; split; [exact SU|exact T].
Qed.

Lemma textbook_solve x0 rf : rootfinder_new p x0 its (all_abs n) = Ret rf ->
  as_textbook func (textbook func slopes ps damped frozen tol maxit None x0) (solve M rf (user_model_new n)).
Proof using LF LP EL SL.
  intros HN.
  assert (SU : length x0 = n /\ set_up n p its rf /\ rf_iter rf = O /\ rf_initial_guess rf = x0 /\
    jm_compute_at_next (rf_jacobian rf) = true).
  { destruct (new_solver _ _ _ _ _ HN) as (E & _ & ->); split; [exact E|]; repeat split. }
  destruct SU as (L0 & SU & I0 & G0 & C0).
  destruct (textbook_loop maxit None rf x0 SU ltac:(intros _; exact C0) L0 ltac:(lia)) as (rf' & Q1 & Q2 & Q3).
  exists rf', (float_state func n (snd (textbook func slopes ps damped frozen tol maxit None x0))).
  destruct textbook as [[e k] y]; cbn [fst snd] in *.
  split; [|split; [lia|split; reflexivity]].
  unfold solve, M; rewrite G0, float_start; cbn [bind]; unfold solve_from.
  assert (SU' := SU); destruct SU' as (S1 & S2 & S3 & S4 & S5).
  rewrite float_errors by (try exact S3; apply LF, L0); cbn [bind].
  unfold when_debug; rewrite S4; cbn [bind]; rewrite S1; change (sp_max_iter p) with maxit.
  unfold M in Q1; change (amax (map nabs (func x0))) with (worst func x0); rewrite Q1; cbn [bind].
  destruct e; cbn [loop_result verdict_of]; [destruct Q3 as [SU3 T3]..|reflexivity];
    unfold verdict; destruct SU3 as (-> & _ & _ & _ & ->); change (sp_tolerance p) with tol; rewrite T3; reflexivity.
Qed.
End Runs.

(** ** The statements *)
Theorem C101_given_jacobian : forall func jac n ps damped frozen tol maxit x0 rf,
  (forall x, length x = n -> length (func x) = n /\ squaref n (jac x)) ->
  rootfinder_new (mkSolverParameters n tol maxit (if frozen : bool then QuasiNewton StationaryNewton else NewtonRaphson) damped)
    x0 (map iterative_of_params ps) (all_abs n) = Ret rf ->
  as_textbook func (textbook func (given_slopes jac) ps damped frozen tol maxit None x0)
    (solve (model_from_function_and_jacobian func jac) rf (user_model_new n)).
Proof.
  intros func jac n ps damped frozen tol maxit x0 rf HF HN.
  assert (LP : length ps = n).
  { destruct (new_solver _ _ _ _ _ HN) as (_ & E & _); rewrite map_length in E; exact E. }
  apply (textbook_solve func n (fun _ => true) (um_get_jacobian jac) (map iterative_of_params ps)); auto.
  - apply HF.
  - rewrite map_map; reflexivity.
  - intros x Lx; destruct (HF x Lx) as (L1 & L2); cbn [given_slopes fst snd].
    split; [apply L2|]; split; [exact Lx|]; apply analytic_source; assumption.
Qed.
Print Assumptions C101_given_jacobian.

Lemma increments : forall (ps : list (iterative_params_fd f64)) (x : vec f64), length x = length ps ->
  compute_perturbations (map iterative_of_params_fd ps) x
  = Ret (map (fun j => increment (nth j ps default_iterative_params_fd) (nth j x n0)) (seq 0 (length ps))).
Proof.
  induction ps as [|p ps IH]; intros [|a x] L; try discriminate; [reflexivity|].
  cbn [map compute_perturbations]; change (it_compute_perturbation (iterative_of_params_fd p) a) with (Ret (increment p a)).
  cbn [bind]; rewrite (IH x) by (cbn [length] in L; congruence); cbn [bind length seq map].
  rewrite seq_shifted; reflexivity.
Qed.
Lemma nth_seq_map {T} (g : nat -> T) d m j : (j < m)%nat -> nth j (map g (seq 0 m)) d = g j.
Proof.
  intros Hj; rewrite (nth_indep _ d (g O)) by (rewrite map_length, seq_length; exact Hj).
  rewrite map_nth, seq_nth by exact Hj; reflexivity.
Qed.
Lemma nth_quotient : forall (u v : vec f64) d i, length u = length v -> (i < length u)%nat ->
  nth i (vdiv (vsub_raw u v) d) n0 = ndiv (nsub (nth i u n0) (nth i v n0)) d.
Proof.
  unfold vdiv, vsub_raw; induction u as [|a u IH]; intros [|c v] d [|i] L Hi; cbn [length] in *; try lia; [reflexivity|].
  cbn [map2 map nth]; apply IH; lia.
Qed.

Lemma quotient_source func n ps x : (1 <= n)%nat -> length ps = n -> (forall x, length x = n -> length (func x) = n) ->
  length x = n ->
  source func n default_jacobian_provided (default_get_jacobian um_inputs) (map iterative_of_params_fd ps) x
    (fst (quotient_slopes func ps x)) (snd (quotient_slopes func ps x)).
Proof.
  intros Pn LP LF Lx.
  set (d := map (fun j => increment (nth j ps default_iterative_params_fd) (nth j x n0)) (seq 0 (length ps))).
  assert (ND : forall j, (j < n)%nat -> nth j d n0 = increment (nth j ps default_iterative_params_fd) (nth j x n0))
    by (intros j Hj; unfold d;
        exact (nth_seq_map (fun j => increment (nth j ps default_iterative_params_fd) (nth j x n0)) n0 (length ps) j ltac:(lia))).
  assert (EB : forall j, (j < n)%nat -> shift x j (nth j d n0) = bumped ps x j)
    by (intros j Hj; unfold bumped; rewrite ND by exact Hj; reflexivity).
  assert (EQ : fst (quotient_slopes func ps x) = fd_float func n x d).
  { unfold quotient_slopes, fd_float, mat_of_cols; cbn [fst]; rewrite LP; apply map_ext_in; intros i Hi; apply in_seq in Hi.
    unfold fd_columns; rewrite map_map, map_length, seq_length, Nat.sub_diag; unfold vzeros; cbn [repeat]; rewrite app_nil_r.
    apply map_ext_in; intros j Hj; apply in_seq in Hj.
    rewrite EB, ND by lia; symmetry; apply nth_quotient.
    - rewrite !LF; auto; unfold bumped; rewrite shift_size; exact Lx.
    - rewrite LF; [lia|]; unfold bumped; rewrite shift_size; exact Lx. }
  rewrite EQ; apply fd_source; auto.
  - unfold d; apply increments; congruence.
  - unfold d; rewrite map_length, seq_length; exact LP.
  - intros j Hj; apply LF; rewrite shift_size; exact Lx.
  - cbn [quotient_slopes snd]; rewrite LP, EB by lia; reflexivity.
Qed.

Theorem C101_difference_quotients : forall func n ps damped frozen tol maxit x0 rf, (1 <= n)%nat ->
  (forall x, length x = n -> length (func x) = n) ->
  rootfinder_new (mkSolverParameters n tol maxit (if frozen : bool then QuasiNewton StationaryNewton else NewtonRaphson) damped)
    x0 (map iterative_of_params_fd ps) (all_abs n) = Ret rf ->
  as_textbook func (textbook func (quotient_slopes func ps) (map fd_params ps) damped frozen tol maxit None x0)
    (solve (model_from_function func) rf (user_model_new n)).
Proof.
  intros func n ps damped frozen tol maxit x0 rf Pn HF HN.
  assert (LP : length ps = n).
  { destruct (new_solver _ _ _ _ _ HN) as (_ & E & _); rewrite map_length in E; exact E. }
  apply (textbook_solve func n default_jacobian_provided (default_get_jacobian um_inputs) (map iterative_of_params_fd ps)); auto.
  - rewrite map_length; exact LP.
  - rewrite !map_map; reflexivity.
  - intros x Lx; split; [unfold quotient_slopes; cbn [fst]; rewrite map_length, seq_length; exact LP|].
    split; [unfold quotient_slopes, bumped; cbn [snd]; rewrite shift_size; exact Lx|].
    apply quotient_source; assumption.
Qed.
Print Assumptions C101_difference_quotients.

(** x^2 - 2 = 0: solved, out of iterations, and stopped by a singular matrix. *)
Definition square_less_two (v : vec f64) : vec f64 := match v with [x] => [nsub (nmul x x) (Fz 2)] | _ => v end.
Definition square_slope (v : vec f64) : mat f64 := match v with [x] => [[nmul (Fz 2) x]] | _ => [] end.
Definition tail_is (e : ending) (k : nat) (run : ending * nat * vec f64) : bool :=
  match e, fst (fst run) with
  | Solved, Solved | OutOfIterations, OutOfIterations | Singular, Singular => Nat.eqb k (snd (fst run))
  | _, _ => false
  end.
Definition square_textbook (damped frozen given : bool) (maxit : nat) (x0 : f64) : ending * nat * vec f64 :=
  textbook square_less_two
    (if given then given_slopes square_slope else quotient_slopes square_less_two [default_iterative_params_fd])
    [default_iterative_params] damped frozen (ndec 1 1000000) maxit None [x0].
Example C101_case :
  tail_is Solved 4 (square_textbook false false true 50 (Fz 1)) = true /\
  tail_is Solved 4 (square_textbook false false false 50 (Fz 1)) = true /\
  tail_is OutOfIterations 3 (square_textbook false false true 3 (Fz 1)) = true /\
  tail_is Singular 1 (square_textbook false false true 50 (Fz 0)) = true /\
  tail_is Solved 0 (square_textbook false true true 50 (ndec 14142135 10000000)) = true.
Proof. repeat split; vm_compute; reflexivity. Qed.

(** The damping acts from 1/2: half way, 11/8 instead of 9/4. *)
Example C101_case_damped :
  forallb (fun a => neqb a (ndec 9 4)) (snd (square_textbook false false true 1 (ndec 1 2))) = true /\
  forallb (fun a => neqb a (ndec 11 8)) (snd (square_textbook true false true 1 (ndec 1 2))) = true.
Proof. repeat split; vm_compute; reflexivity. Qed.

(** The theorem at work, from any guess; from 0 the slope is 0. *)
Example C101_case_solver : forall damped frozen x0,
  exists rf, rootfinder_new (mkSolverParameters 1 (ndec 1 1000000) 50
      (if frozen : bool then QuasiNewton StationaryNewton else NewtonRaphson) damped) [x0]
      (map iterative_of_params [default_iterative_params]) (all_abs 1) = Ret rf /\
  as_textbook square_less_two (square_textbook damped frozen true 50 x0)
    (solve (model_from_function_and_jacobian square_less_two square_slope) rf (user_model_new 1)).
Proof.
  intros damped frozen x0; eexists; split; [reflexivity|].
  apply (C101_given_jacobian square_less_two square_slope 1 [default_iterative_params]); [|reflexivity].
  intros [|x [|? ?]] L; try discriminate; split; [reflexivity|]; split; [reflexivity|].
  cbn [square_slope In]; intros r [<-|[]]; reflexivity.
Qed.
Example C101_case_found : exists rf rf' s',
  rootfinder_new (mkSolverParameters 1 (ndec 1 1000000) 50 NewtonRaphson false) [Fz 0]
      (map iterative_of_params [default_iterative_params]) (all_abs 1) = Ret rf /\
  solve (model_from_function_and_jacobian square_less_two square_slope) rf (user_model_new 1)
    = Ret (rf', s', Err (JacobianError InvalidJacobianInverseError)) /\ rf_iter rf' = 1.
Proof.
  destruct (C101_case_solver false false (Fz 0)) as (rf & E & rf' & s' & E1 & E2 & _).
  exists rf, rf', s'; split; [exact E|].
  assert (T : tail_is Singular 1 (square_textbook false false true 50 (Fz 0)) = true) by apply C101_case.
  unfold tail_is in T; rewrite E1, E2; destruct (fst (fst _)); try discriminate T.
  apply Nat.eqb_eq in T; split; [reflexivity|symmetry; exact T].
Qed.
