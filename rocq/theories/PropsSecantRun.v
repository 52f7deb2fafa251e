(** C103: on doubles, the quasi-Newton methods which update a matrix are bit for
    bit a short reference algorithm, with its rule to compute a new matrix when
    the errors grow, and also when an inversion fails. *)
From Coq Require Import List Arith Lia Bool ZArith.
From Verif Require Import Base Num F64 Linalg Residuals Iteratives UserModel Jacobian Solver
  F64Facts ExactFacts SafeFacts PropsNorm PropsFD PropsStep Samples FloatRun DampedFloat PropsTextbook PropsEntries.
Import ListNotations.

(** ** The algorithm *)

(** What is known of the slopes: the matrix (not used by the updates of the
    inverse), its inverse, the last move, the change of the absolute values of
    the equations during it, and these at its end. *)
Definition knowledge : Type := (mat f64 * mat f64 * vec f64 * vec f64 * vec f64)%type.

(** The updated matrix and inverse by the formulas of [rank_one], entry by entry;
    [None] when the inversion fails. *)
Definition updated (m : quasi_newton_method) (k : knowledge) : option (mat f64 * mat f64) :=
  let '(J, H, s, y, c) := k in
  let n := length s in
  match m with
  | StationaryNewton => Some (J, H)
  | JacobianUpdate u =>
      match lu_inverse (next_matrix u n J H s y c) with
      | Some H' => Some (next_matrix u n J H s y c, H')
      | None => None
      end
  | InverseJacobianUpdate u => Some (J, next_inverse u n H s y c)
  end.

(** Where an iteration from [z] with the proposal [y] ends: half way only with a
    [fresh] matrix. *)
Definition settled (f : vec f64 -> vec f64) (damped fresh : bool) (z y : vec f64) : vec f64 :=
  if damped && ngtb (worst f y) (worst f z) && fresh then map2 damped1 z y else y.
(** What is known afterwards: nothing when an updated matrix made the errors grow. *)
Definition learnt (f : vec f64 -> vec f64) (damped fresh : bool) (J H : mat f64) (z y : vec f64) : option knowledge :=
  if damped && ngtb (worst f y) (worst f z) && negb fresh then None
  else
    let w := settled f damped fresh z y in
    Some (J, H, map2 nsub w z, map2 nsub (map nabs (f w)) (map nabs (f z)), map nabs (f w)).

Fixpoint secant_run (f : vec f64 -> vec f64) (slopes : vec f64 -> mat f64 * vec f64) (ps : list (iterative_params f64))
  (m : quasi_newton_method) (damped : bool) (tol : f64) (budget : nat) (known : option knowledge) (x : vec f64)
  : ending * nat * vec f64 :=
  if ngtb (worst f x) tol then
    match budget with
    | O => (OutOfIterations, O, x)
    | S budget' =>
        let fresh := match known with Some _ => false | None => true end in
        let z := match known with Some _ => x | None => snd (slopes x) end in
        match match known with
              | Some k => updated m k
              | None => match lu_inverse (fst (slopes x)) with Some H => Some (fst (slopes x), H) | None => None end
              end with
        | None => (Singular, 1, z)
        | Some (J, H) =>
            let y := proposal f ps H z in
            let '(e, k, v) := secant_run f slopes ps m damped tol budget' (learnt f damped fresh J H z y)
                                (settled f damped fresh z y) in
            (e, S k, v)
        end
    end
  else (Solved, O, x).

(** ** The iterations of the solver *)
Lemma bound {A B} (X : outcome A) v (k : A -> outcome B) r : X = Ret v -> k v = r -> bind X k = r.
Proof. intros -> <-; reflexivity. Qed.

Section Runs.
Context (func : vec f64 -> vec f64) (n : nat) (provided : user_model f64 -> bool)
  (get_jac : user_model f64 -> outcome (user_model f64 * result (jacobian_values f64) (model_error Empty_set Empty_set)))
  (its : list (iterative f64)) (ps : list (iterative_params f64)) (slopes : vec f64 -> mat f64 * vec f64)
  (m : quasi_newton_method) (damped : bool) (tol : f64) (maxit : nat).
Let M : Model f64 (user_model f64) Empty_set Empty_set :=
  mkModel um_problem_size um_set_iteratives um_inputs (um_evaluate func) um_get_residuals provided get_jac
    default_get_memory default_set_memory show_infallible show_infallible.
Let p : solver_parameters f64 := mkSolverParameters n tol maxit (QuasiNewton m) damped.
Context (QM : m <> StationaryNewton)
  (LF : forall x, length x = n -> length (func x) = n) (LP : length ps = n)
  (EL : map it_step_limitation its = map step_limitation ps)
  (SL : forall x, length x = n -> square_of n (fst (slopes x)) /\ length (snd (slopes x)) = n /\
     source func n provided get_jac its x (fst (slopes x)) (snd (slopes x))).

Definition aware (known : option knowledge) (rf : rootfinder f64) : Prop :=
  match known with
  | None => jm_compute_at_next (rf_jacobian rf) = true
  | Some (J, H, s, y, c) =>
      jm_compute_at_next (rf_jacobian rf) = false /\ jm_inverse (rf_jacobian rf) = Some H /\
      match m with InverseJacobianUpdate _ => True | _ => jm_matrix (rf_jacobian rf) = Some J end /\
      rf_iteratives_step rf = Some s /\ rf_residuals_step rf = Some y /\ rf_residuals_current rf = Some c /\
      square_of n J /\ square_of n H /\ length s = n /\ length y = n /\ length c = n
  end.

Lemma settled_length fresh z y : length z = n -> length y = n -> length (settled func damped fresh z y) = n.
Proof using.
  intros Lz Ly; unfold settled; case (damped && ngtb (worst func y) (worst func z) && fresh)%bool; [|exact Ly].
  rewrite map2_length; congruence.
Qed.

(** The evaluation of the proposal, the damping and the secant pair. *)
Lemma settled_update rf fresh J H z y : jm_approximated (rf_jacobian rf) = negb fresh ->
  jm_compute_at_next (rf_jacobian rf) = false -> jm_inverse (rf_jacobian rf) = Some H ->
  match m with InverseJacobianUpdate _ => True | _ => jm_matrix (rf_jacobian rf) = Some J end ->
  square_of n J -> square_of n H ->
  set_up n p its rf -> length z = n -> length y = n ->
  exists rf', update_model M rf (float_state func n z) y
      = Ret (rf', float_state func n (settled func damped fresh z y), Ok (map nabs (func (settled func damped fresh z y)))) /\
    set_up n p its rf' /\ rf_iter rf' = rf_iter rf /\ aware (learnt func damped fresh J H z y) rf'.
Proof using QM LF.
  intros HA HC HI HM LJ LH (S1 & S2 & S3 & S4 & S5) Lz Ly; unfold update_model.
  assert (Lw := settled_length fresh z y Lz Ly).
  unfold M at 1; rewrite (float_errors func n provided get_jac rf z S3 (LF z Lz)); cbn [bind].
  change (get_iteratives M (float_state func n z)) with z.
  change (evaluate M (set_iteratives M (float_state func n z) y)) with
    (@Ret (user_model f64 * result unit (model_error Empty_set Empty_set)) (float_state func n y, Ok tt)); cbn [bind].
  unfold finish_update; unfold M at 1; rewrite (float_errors func n provided get_jac (set_valid rf true) y S3 (LF y Ly)).
  cbn [bind]; unfold when_debug at 1; change (rf_debug (set_valid rf true)) with (rf_debug rf); rewrite S4; cbn [bind].
  change (rf_parameters (set_valid rf true)) with (rf_parameters rf); rewrite S1; change (sp_damping p) with damped.
  set (worse := (damped && ngtb (worst func y) (worst func z))%bool).
  set (w := settled func damped fresh z y) in *.
  set (rf2 := if (worse && negb fresh)%bool then set_jacobian (set_valid rf true) (force_jacobian_computation (rf_jacobian rf))
              else set_valid rf true).
  assert (ED : (if damped then damping M (set_valid rf true) (float_state func n y) (amax (map nabs (func z))) z y (map nabs (func y))
      else Ret (set_valid rf true, float_state func n y, map nabs (func y)))
    = Ret (rf2, float_state func n w, map nabs (func w))).
  { revert Lw; unfold rf2, w, settled, worse; case damped; cbn [andb]; [|intros _; reflexivity].
    unfold damping; change (amax (map nabs (func y))) with (worst func y); change (amax (map nabs (func z))) with (worst func z).
    destruct (ngtb (worst func y) (worst func z)); cbn [andb]; [|intros _; reflexivity].
    change (rf_parameters (set_valid rf true)) with (rf_parameters rf).
    change (rf_jacobian (set_valid rf true)) with (rf_jacobian rf); rewrite S1, HA.
    change (is_quasi_newton (sp_resolution_method p)) with true; cbn [andb].
    destruct fresh; cbn [negb andb]; intros Lw.
    - rewrite halfway_guess by congruence; cbn [bind].
      change (evaluate M (set_iteratives M (float_state func n y) (halfway64 z y))) with
        (@Ret (user_model f64 * result unit (model_error Empty_set Empty_set)) (float_state func n (halfway64 z y), Ok tt)).
      cbn [bind]; unfold M; rewrite (float_errors func n provided get_jac (set_valid rf true) (halfway64 z y) S3 (LF _ Lw)).
      cbn [bind]; unfold when_debug; change (rf_debug (set_valid rf true)) with (rf_debug rf); rewrite S4; reflexivity.
    - unfold when_debug; change (rf_debug (set_jacobian (set_valid rf true) (force_jacobian_computation (rf_jacobian rf))))
        with (rf_debug rf); rewrite S4; reflexivity. }
  assert (P2 : rf_parameters rf2 = p) by (unfold rf2; case (worse && negb fresh)%bool; exact S1).
  assert (EV : vsub w z = Ret (map2 nsub w z)).
  { unfold vsub; rewrite Lw, Lz, Nat.eqb_refl; reflexivity. }
  assert (EE : vsub (map nabs (func w)) (map nabs (func z)) = Ret (map2 nsub (map nabs (func w)) (map nabs (func z)))).
  { unfold vsub; rewrite !map_length, !LF, Nat.eqb_refl by assumption; reflexivity. }
  set (rf' := set_steps rf2 (map2 nsub w z) (map2 nsub (map nabs (func w)) (map nabs (func z))) (map nabs (func w))).
  exists rf'; split.
  - apply (bound _ (rf', float_state func n w, map nabs (func w))); [|reflexivity].
    eapply bound; [exact ED|]; cbn beta iota.
    apply (bound _ rf'); [|reflexivity].
    unfold store_steps; rewrite P2; change (sp_resolution_method p) with (QuasiNewton m).
    change (get_iteratives M (float_state func n w)) with w.
    destruct m; [congruence| |]; (eapply bound; [exact EV|eapply bound; [exact EE|reflexivity]]).
  - split; [unfold rf', rf2; case (worse && negb fresh)%bool; repeat split; assumption|].
    split; [unfold rf', rf2; case (worse && negb fresh)%bool; reflexivity|].
    unfold learnt; fold worse; fold w.
    unfold rf', rf2; destruct (worse && negb fresh)%bool; cbn [aware]; [reflexivity|].
    do 2 (split; [assumption|]); split; [exact HM|]; do 3 (split; [reflexivity|]); do 2 (split; [assumption|]).
    split; [|split].
    + rewrite map2_length; congruence.
    + rewrite map2_length; rewrite !map_length, !LF by assumption; reflexivity.
    + rewrite map_length; apply LF, Lw.
Qed.

(** The update of the matrix. *)
Lemma updating rf k : aware (Some k) rf ->
  exists j ok, approximate_step rf m = Ret (set_jacobian rf j, ok) /\
  match updated m k with
  | None => ok = false
  | Some (J', H') => ok = true /\ jm_compute_at_next j = false /\ jm_inverse j = Some H' /\
      match m with InverseJacobianUpdate _ => True | _ => jm_matrix j = Some J' end /\ jm_approximated j = true /\
      square_of n J' /\ square_of n H'
  end.
Proof using QM tol maxit damped.
  destruct k as [[[[J H] s] y] c]; intros (K1 & K2 & K3 & K4 & K5 & K6 & LJ & LH & Ls & Ly & Lc).
  destruct m as [|u|u]; [congruence| |]; cbn [approximate_step updated]; rewrite K4, K5, K6, Ls; cbn [unwrap bind].
  - rewrite (C104_jacobian_updates n u _ J H s y c LJ LH Ls Ly Lc K3 K2).
    assert (LJ' := next_matrix_square u n J H s y c); set (J' := next_matrix u n J H s y c) in *.
    assert (EB : update_jacobian_with_approximated_value (rf_jacobian rf) J' = match lu_inverse J' with
      | Some H' => (mkJacobianMatrix (Some J') (Some H') false true, true)
      | None => (mkJacobianMatrix None None (jm_compute_at_next (rf_jacobian rf)) true, false)
      end) by reflexivity.
    rewrite EB; destruct (lu_inverse J') as [H'|] eqn:EH; cbn [bind].
    + do 2 eexists; split; [reflexivity|]; do 5 (split; [reflexivity|]); split; [exact LJ'|].
      exact (lu_inverse_square n J' H' (proj1 LJ') EH).
    + do 2 eexists; split; reflexivity.
  - rewrite (C104_inverse_updates n u _ H s y c LH Ls Ly Lc K2).
    cbn [bind]; do 2 eexists; split; [reflexivity|]; cbn [update_inverse jm_compute_at_next jm_inverse jm_approximated].
    split; [reflexivity|]; split; [exact K1|]; do 3 (split; [trivial|]); split; [exact LJ|apply next_inverse_square].
Qed.

(** An iteration which computes the matrix at [x]. *)
Lemma fresh_step rf x H : set_up n p its rf -> aware None rf -> length x = n ->
  lu_inverse (fst (slopes x)) = Some H ->
  let z := snd (slopes x) in let y := proposal func ps H z in let w := settled func damped true z y in
  exists rf', iteration M rf (float_state func n x) = Ret (rf', float_state func n w, Ok (map nabs (func w))) /\
    set_up n p its rf' /\ rf_iter rf' = S (rf_iter rf) /\ aware (learnt func damped true (fst (slopes x)) H z y) rf'.
Proof using QM LF LP EL SL.
  intros (S1 & S2 & S3 & S4 & S5) AW Lx EH z y w; destruct (SL x Lx) as (L1 & L2 & SR).
  assert (LH := lu_inverse_square n _ H (proj1 L1) EH).
  assert (MV := proposal_moves func n its ps LF LP EL H z L2 (proj1 LH)).
  unfold iteration, compute_step; cbn [rf_parameters set_iter]; rewrite S1.
  set (rf0 := set_iter rf (S (rf_iter rf))).
  set (rf1 := set_jacobian rf0 (mkJacobianMatrix (Some (fst (slopes x))) (Some H) false false)).
  assert (CJ := source_inverts func n provided get_jac its x _ _ H rf0 SR EH S2 S3).
  assert (NX := moves_next func n provided get_jac its H _ _ rf1 MV S2 S3 eq_refl).
  destruct (settled_update rf1 true (fst (slopes x)) H z y) as (rf' & E & SU & E1 & E2);
    [reflexivity|reflexivity|reflexivity|case m; intros; exact I || reflexivity|exact L1|exact LH
    |repeat split; assumption|exact L2|unfold y; apply proposal_length, LP|].
  exists rf'; split; [|split; [exact SU|split; [rewrite E1; reflexivity|exact E2]]].
  change (sp_resolution_method p) with (QuasiNewton m); cbn iota.
  unfold compute_quasi_newton_step, evaluate_jacobian_quasi_newton_step.
  cbn [aware] in AW.
  change (jm_compute_at_next (rf_jacobian rf0)) with (jm_compute_at_next (rf_jacobian rf)); rewrite AW.
  unfold M; rewrite CJ; cbn [bind]; fold rf1.
  unfold when_debug; change (rf_debug rf1) with (rf_debug rf); rewrite S4; cbn [bind].
  fold z in NX |- *; fold y in NX; rewrite NX; cbn [bind]; exact E.
Qed.

(** One which fails to invert it. *)
Lemma unsuccessful_step rf x : set_up n p its rf -> aware None rf -> length x = n ->
  lu_inverse (fst (slopes x)) = None ->
  exists rf', iteration M rf (float_state func n x)
      = Ret (rf', float_state func n (snd (slopes x)), Err (JacobianError InvalidJacobianInverseError)) /\
    rf_iter rf' = S (rf_iter rf).
Proof using SL.
  intros (S1 & S2 & S3 & S4 & S5) AW Lx EH; destruct (SL x Lx) as (L1 & L2 & SR).
  unfold iteration, compute_step; cbn [rf_parameters set_iter]; rewrite S1.
  set (rf0 := set_iter rf (S (rf_iter rf))).
  assert (EU : snd (update_jacobian_with_exact_value (rf_jacobian rf0) (fst (slopes x))) = false).
  { unfold update_jacobian_with_exact_value, update_jacobian, try_inverse, Inverter_f64; rewrite EH; reflexivity. }
  assert (CJ := SR rf0 S2 S3); rewrite EU in CJ.
  set (rf1 := set_jacobian rf0 _) in CJ; exists rf1; split; [|reflexivity].
  change (sp_resolution_method p) with (QuasiNewton m); cbn iota.
  unfold compute_quasi_newton_step, evaluate_jacobian_quasi_newton_step.
  cbn [aware] in AW.
  change (jm_compute_at_next (rf_jacobian rf0)) with (jm_compute_at_next (rf_jacobian rf)); rewrite AW.
  unfold M; rewrite CJ; cbn [bind].
  unfold when_debug; change (rf_debug rf1) with (rf_debug rf); rewrite S4; reflexivity.
Qed.

(** One which updates the known matrix. *)
Lemma updated_step rf x k J H : set_up n p its rf -> aware (Some k) rf -> length x = n ->
  updated m k = Some (J, H) ->
  let y := proposal func ps H x in let w := settled func damped false x y in
  exists rf', iteration M rf (float_state func n x) = Ret (rf', float_state func n w, Ok (map nabs (func w))) /\
    set_up n p its rf' /\ rf_iter rf' = S (rf_iter rf) /\ aware (learnt func damped false J H x y) rf'.
Proof using QM LF LP EL.
  intros (S1 & S2 & S3 & S4 & S5) AW Lx EU y w.
  set (rf0 := set_iter rf (S (rf_iter rf))).
  assert (AW0 : aware (Some k) rf0) by (destruct k as [[[[? ?] ?] ?] ?]; exact AW).
  destruct (updating rf0 k AW0) as (j & ok & EA & HU); rewrite EU in HU.
  destruct HU as (-> & U1 & U2 & U3 & U4 & LJ & LH).
  assert (KC : jm_compute_at_next (rf_jacobian rf) = false) by (destruct k as [[[[? ?] ?] ?] ?]; apply AW).
  assert (MV := proposal_moves func n its ps LF LP EL H x Lx (proj1 LH)).
  unfold iteration, compute_step; cbn [rf_parameters set_iter]; rewrite S1; fold rf0.
  set (rf1 := set_jacobian rf0 j) in *.
  assert (NX := moves_next func n provided get_jac its H _ _ rf1 MV S2 S3 U2).
  destruct (settled_update rf1 false J H x y) as (rf' & E & SU & E1 & E2);
    [exact U4|exact U1|exact U2|exact U3|exact LJ|exact LH|repeat split; assumption|exact Lx
    |unfold y; apply proposal_length, LP|].
  exists rf'; split; [|split; [exact SU|split; [rewrite E1; reflexivity|exact E2]]].
  change (sp_resolution_method p) with (QuasiNewton m); cbn iota.
  unfold compute_quasi_newton_step, evaluate_jacobian_quasi_newton_step.
  change (jm_compute_at_next (rf_jacobian rf0)) with (jm_compute_at_next (rf_jacobian rf)); rewrite KC.
  rewrite EA; cbn [bind]; unfold when_debug; change (rf_debug rf1) with (rf_debug rf); rewrite S4; cbn [bind].
  unfold M; fold y in NX; rewrite NX; cbn [bind]; exact E.
Qed.

(** One whose updated matrix has no inverse. *)
Lemma broken_step rf x k : set_up n p its rf -> aware (Some k) rf -> updated m k = None ->
  exists rf', iteration M rf (float_state func n x)
      = Ret (rf', float_state func n x, Err (JacobianError InvalidJacobianInverseError)) /\
    rf_iter rf' = S (rf_iter rf).
Proof using QM.
  intros (S1 & S2 & S3 & S4 & S5) AW EU.
  set (rf0 := set_iter rf (S (rf_iter rf))).
  assert (AW0 : aware (Some k) rf0) by (destruct k as [[[[? ?] ?] ?] ?]; exact AW).
  destruct (updating rf0 k AW0) as (j & ok & EA & HU); rewrite EU in HU; subst ok.
  assert (KC : jm_compute_at_next (rf_jacobian rf) = false) by (destruct k as [[[[? ?] ?] ?] ?]; apply AW).
  exists (set_jacobian rf0 j); split; [|reflexivity].
  unfold iteration, compute_step; cbn [rf_parameters set_iter]; rewrite S1; fold rf0.
  change (sp_resolution_method p) with (QuasiNewton m); cbn iota.
  unfold compute_quasi_newton_step, evaluate_jacobian_quasi_newton_step.
  change (jm_compute_at_next (rf_jacobian rf0)) with (jm_compute_at_next (rf_jacobian rf)); rewrite KC.
  rewrite EA; reflexivity.
Qed.

(** ** The loop *)
Lemma secant_loop : forall budget known rf x, set_up n p its rf -> aware known rf -> length x = n ->
  (rf_iter rf + budget = maxit)%nat ->
  let run := secant_run func slopes ps m damped tol budget known x in
  exists rf', iterate M (S budget) rf (float_state func n x) (worst func x)
      = Ret (rf', float_state func n (snd run), loop_result func (fst (fst run)) (snd run)) /\
    rf_iter rf' = (rf_iter rf + snd (fst run))%nat /\
    match fst (fst run) with
    | Solved => set_up n p its rf' /\ ngtb (worst func (snd run)) tol = false
    | OutOfIterations => set_up n p its rf' /\ ngtb (worst func (snd run)) tol = true
    | Singular => True
    end.
Proof using QM LF LP EL SL.
  induction budget as [|budget IH]; intros known rf x SU AW Lx HB.
  - cbn [secant_run iterate]; rewrite (proj1 SU); change (sp_tolerance p) with tol; change (sp_max_iter p) with maxit.
    rewrite (proj2 (Nat.ltb_ge (rf_iter rf) maxit)) by lia; rewrite andb_false_r.
    exists rf; destruct (ngtb (worst func x) tol) eqn:T; cbn [fst snd loop_result];
      (split; [reflexivity|]; split; [lia|]; split; [exact SU|exact T]).
  - cbn [secant_run iterate]; rewrite (proj1 SU); change (sp_tolerance p) with tol; change (sp_max_iter p) with maxit.
    rewrite (proj2 (Nat.ltb_lt (rf_iter rf) maxit)) by lia; rewrite andb_true_r.
    destruct (ngtb (worst func x) tol) eqn:T.
    + destruct known as [k|].
      * destruct (updated m k) as [[J H]|] eqn:EU.
        -- destruct (updated_step rf x k J H SU AW Lx EU) as (rf1 & E1 & SU1 & I1 & AW1); rewrite E1; cbn [bind].
           destruct (IH _ rf1 _ SU1 AW1 (settled_length false x _ Lx (proposal_length func n ps LP H x)) ltac:(lia)) as (rf' & Q1 & Q2 & Q3).
           exists rf'; destruct secant_run as [[e i] y]; cbn [fst snd] in *.
           split; [exact Q1|]; split; [lia|exact Q3].
        -- destruct (broken_step rf x k SU AW EU) as (rf1 & E1 & I1); rewrite E1; cbn [bind].
           exists rf1; cbn [fst snd loop_result]; split; [reflexivity|]; split; [lia|exact I].
      * destruct (lu_inverse (fst (slopes x))) as [H|] eqn:EH.
        -- destruct (fresh_step rf x H SU AW Lx EH) as (rf1 & E1 & SU1 & I1 & AW1); rewrite E1; cbn [bind].
           destruct (SL x Lx) as (_ & Lz & _).
           destruct (IH _ rf1 _ SU1 AW1 (settled_length true _ _ Lz (proposal_length func n ps LP H (snd (slopes x)))) ltac:(lia)) as (rf' & Q1 & Q2 & Q3).
           exists rf'; destruct secant_run as [[e i] y]; cbn [fst snd] in *.
           split; [exact Q1|]; split; [lia|exact Q3].
        -- destruct (unsuccessful_step rf x SU AW Lx EH) as (rf1 & E1 & I1); rewrite E1; cbn [bind].
           exists rf1; cbn [fst snd loop_result]; split; [reflexivity|]; split; [lia|exact I].
    + exists rf; cbn [fst snd loop_result]; split; [reflexivity|]; split; [lia|]; split; [exact SU|exact T].
Qed.

Lemma secant_solve x0 rf : rootfinder_new p x0 its (all_abs n) = Ret rf ->
  as_textbook func (secant_run func slopes ps m damped tol maxit None x0) (solve M rf (user_model_new n)).
Proof using QM LF LP EL SL.
  intros HN.
  assert (SU : length x0 = n /\ set_up n p its rf /\ rf_iter rf = O /\ rf_initial_guess rf = x0 /\
    jm_compute_at_next (rf_jacobian rf) = true).
  { destruct (new_solver _ _ _ _ _ HN) as (E & _ & ->); split; [exact E|]; repeat split. }
  destruct SU as (L0 & SU & I0 & G0 & C0).
  destruct (secant_loop maxit None rf x0 SU C0 L0 ltac:(lia)) as (rf' & Q1 & Q2 & Q3).
  exists rf', (float_state func n (snd (secant_run func slopes ps m damped tol maxit None x0))).
  destruct secant_run as [[e k] y]; cbn [fst snd] in *.
  split; [|split; [lia|split; reflexivity]].
  unfold solve, M; rewrite G0, float_start; cbn [bind]; unfold solve_from.
  assert (SU' := SU); destruct SU' as (S1 & S2 & S3 & S4 & S5).
  rewrite float_errors by (try exact S3; apply LF, L0); cbn [bind].
  unfold when_debug; rewrite S4; cbn [bind]; rewrite S1; change (sp_max_iter p) with maxit.
  unfold M in Q1; change (amax (map nabs (func x0))) with (worst func x0); rewrite Q1; cbn [bind].
  destruct e; cbn [loop_result verdict_of]; [destruct Q3 as [SU3 T3]..|reflexivity];
    unfold verdict; destruct SU3 as (-> & _ & _ & _ & ->); change (sp_tolerance p) with tol; rewrite T3; reflexivity.
Qed.
End Runs.

(** ** The statements *)
Theorem C103_given_jacobian : forall func jac n ps m damped tol maxit x0 rf, m <> StationaryNewton ->
  (forall x, length x = n -> length (func x) = n /\ squaref n (jac x)) ->
  rootfinder_new (mkSolverParameters n tol maxit (QuasiNewton m) damped)
    x0 (map iterative_of_params ps) (all_abs n) = Ret rf ->
  as_textbook func (secant_run func (given_slopes jac) ps m damped tol maxit None x0)
    (solve (model_from_function_and_jacobian func jac) rf (user_model_new n)).
Proof.
  intros func jac n ps m damped tol maxit x0 rf QM HF HN.
  assert (LP : length ps = n).
  { destruct (new_solver _ _ _ _ _ HN) as (_ & E & _); rewrite map_length in E; exact E. }
  apply (secant_solve func n (fun _ => true) (um_get_jacobian jac) (map iterative_of_params ps)); auto.
  - apply HF.
  - rewrite map_map; reflexivity.
  - intros x Lx; destruct (HF x Lx) as (L1 & L2); cbn [given_slopes fst snd].
    split; [exact L2|]; split; [exact Lx|]; apply analytic_source; assumption.
Qed.
Print Assumptions C103_given_jacobian.

Theorem C103_difference_quotients : forall func n ps m damped tol maxit x0 rf, m <> StationaryNewton -> (1 <= n)%nat ->
  (forall x, length x = n -> length (func x) = n) ->
  rootfinder_new (mkSolverParameters n tol maxit (QuasiNewton m) damped)
    x0 (map iterative_of_params_fd ps) (all_abs n) = Ret rf ->
  as_textbook func (secant_run func (quotient_slopes func ps) (map fd_params ps) m damped tol maxit None x0)
    (solve (model_from_function func) rf (user_model_new n)).
Proof.
  intros func n ps m damped tol maxit x0 rf QM Pn HF HN.
  assert (LP : length ps = n).
  { destruct (new_solver _ _ _ _ _ HN) as (_ & E & _); rewrite map_length in E; exact E. }
  apply (secant_solve func n default_jacobian_provided (default_get_jacobian um_inputs) (map iterative_of_params_fd ps)); auto.
  - rewrite map_length; exact LP.
  - rewrite !map_map; reflexivity.
  - intros x Lx; split; [rewrite <- LP; apply grid_square|].
    split; [unfold quotient_slopes, bumped; cbn [snd]; rewrite shift_size; exact Lx|].
    apply quotient_source; assumption.
Qed.
Print Assumptions C103_difference_quotients.

(** x^2 - 2 = 0 with the eight methods: five iterations from 2, four with Newton-Raphson. *)
Definition square_secant (m : quasi_newton_method) (damped given : bool) (maxit : nat) (x0 : f64) : ending * nat * vec f64 :=
  secant_run square_less_two
    (if given then given_slopes square_slope else quotient_slopes square_less_two [default_iterative_params_fd])
    [default_iterative_params] m damped (ndec 1 1000000) maxit None [x0].
Definition eight_methods : list quasi_newton_method :=
  let updates := [BroydenFirstMethod; BroydenSecondMethod; GreenstadtFirstMethod; GreenstadtSecondMethod] in
  (map JacobianUpdate updates ++ map InverseJacobianUpdate updates)%list.
Example C103_case :
  forallb (fun m => tail_is Solved 5 (square_secant m false true 50 (Fz 2))) eight_methods = true /\
  forallb (fun m => tail_is Solved 5 (square_secant m false false 50 (Fz 2))) eight_methods = true /\
  forallb (fun m => tail_is OutOfIterations 4 (square_secant m false true 4 (Fz 2))) eight_methods = true /\
  forallb (fun m => tail_is Singular 1 (square_secant m false true 50 (Fz 0))) eight_methods = true /\
  tail_is Solved 4 (square_textbook false false true 50 (Fz 2)) = true.
Proof. repeat split; vm_compute; reflexivity. Qed.

(** From 1 the second iteration makes the errors grow, from 1/4 to 7/9: the absolute
    values turned the slope.  With damping the point stays, but the third one
    computes the slope and ends above 1.43, without damping it ends below. *)
Example C103_case_damped :
  forallb (fun m => ngtb (worst square_less_two (snd (square_secant m true true 2 (Fz 1))))
                         (worst square_less_two (snd (square_secant m true true 1 (Fz 1))))) eight_methods = true /\
  forallb (fun m => forallb (fun a => ngtb a (ndec 143 100)) (snd (square_secant m true true 3 (Fz 1)))) eight_methods = true /\
  forallb (fun m => forallb (fun a => ngtb (ndec 143 100) a) (snd (square_secant m false true 3 (Fz 1)))) eight_methods = true.
Proof. repeat split; vm_compute; reflexivity. Qed.

(** An update without inverse: a jump from -1 to 1, of slope 1 on paper. *)
Definition jump_function (v : vec f64) : vec f64 :=
  match v with [x] => [if ngtb x (ndec 1 2) then n1 else nneg n1] | _ => v end.
Example C103_case_broken :
  tail_is Singular 2 (secant_run jump_function (given_slopes (fun _ => [[n1]])) [default_iterative_params]
    (JacobianUpdate BroydenFirstMethod) false (ndec 1 1000000) 50 None [n1]) = true.
Proof. vm_compute; reflexivity. Qed.

(** The theorem at work, from any guess with any of the methods. *)
Example C103_case_solver : forall m damped x0, m <> StationaryNewton ->
  exists rf, rootfinder_new (mkSolverParameters 1 (ndec 1 1000000) 50 (QuasiNewton m) damped) [x0]
      (map iterative_of_params [default_iterative_params]) (all_abs 1) = Ret rf /\
  as_textbook square_less_two (square_secant m damped true 50 x0)
    (solve (model_from_function_and_jacobian square_less_two square_slope) rf (user_model_new 1)).
Proof.
  intros m damped x0 QM; eexists; split; [reflexivity|].
  apply (C103_given_jacobian square_less_two square_slope 1 [default_iterative_params]); [exact QM| |reflexivity].
  intros [|x [|? ?]] L; try discriminate; split; [reflexivity|]; split; [reflexivity|].
  cbn [square_slope In]; intros r [<-|[]]; reflexivity.
Qed.
